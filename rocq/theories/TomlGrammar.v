(** The scalars of the TOML grammar (toml.abnf, v1.0.0/v1.1.0), written independently of the lexer. *)
From Coq Require Import String Ascii List NArith Bool.
From Verif Require Import Base SyntaxKind Regex.
Import ListNotations.
Open Scope N_scope.
Open Scope list_scope.

Definition g_digit : re := RCls (in_range 48 57).
Definition g_digit1_9 : re := RCls (in_range 49 57).
Definition g_digit0_7 : re := RCls (in_range 48 55).
Definition g_digit0_1 : re := RCls (in_range 48 49).
Definition g_hexdig : re :=
  RCls (fun c => in_range 48 57 c || in_range 65 70 c || in_range 97 102 c).
Definition g_us : re := RChr 95.
Definition g_sign : re := RCls (fun c => N.eqb c 43 || N.eqb c 45).
Definition g_str (s : string) : re := fold_right (fun c r => RSeq (RChr c) r) REps (lit s).

(** d *( d / underscore d ) *)
Definition g_run (d : re) : re := RStar (RAlt d (RSeq g_us d)).

(** unsigned-dec-int = DIGIT / digit1-9 1*( DIGIT / underscore DIGIT ) *)
Definition g_unsigned_dec_int : re :=
  RAlt g_digit (RSeq g_digit1_9 (RPlus (RAlt g_digit (RSeq g_us g_digit)))).
(** dec-int = [ minus / plus ] unsigned-dec-int *)
Definition g_dec_int : re := RSeq (ROpt g_sign) g_unsigned_dec_int.
(** hex-int = hex-prefix HEXDIG *( HEXDIG / underscore HEXDIG ) *)
Definition g_hex_int : re := RSeq (g_str "0x") (RSeq g_hexdig (g_run g_hexdig)).
Definition g_oct_int : re := RSeq (g_str "0o") (RSeq g_digit0_7 (g_run g_digit0_7)).
Definition g_bin_int : re := RSeq (g_str "0b") (RSeq g_digit0_1 (g_run g_digit0_1)).

(** zero-prefixable-int = DIGIT *( DIGIT / underscore DIGIT ) *)
Definition g_zero_prefixable_int : re := RSeq g_digit (g_run g_digit).
Definition g_frac : re := RSeq (RChr 46) g_zero_prefixable_int.
Definition g_exp : re :=
  RSeq (RCls (fun c => N.eqb c 101 || N.eqb c 69)) (RSeq (ROpt g_sign) g_zero_prefixable_int).
(** float = float-int-part ( exp / frac [ exp ] ) *)
Definition g_float : re := RSeq g_dec_int (RAlt g_exp (RSeq g_frac (ROpt g_exp))).
(** special-float = [ minus / plus ] ( inf / nan ) *)
Definition g_special_float : re := RSeq (ROpt g_sign) (RAlt (g_str "inf") (g_str "nan")).

Definition g_boolean : re := RAlt (g_str "true") (g_str "false").

Definition g_2digit : re := RRep 2 g_digit.
Definition g_full_date : re :=
  RSeq (RRep 4 g_digit) (RSeq (RChr 45) (RSeq g_2digit (RSeq (RChr 45) g_2digit))).
Definition g_delim : re := RCls (fun c => N.eqb c 84 || N.eqb c 116 || N.eqb c 32).
Definition g_secfrac : re := RSeq (RChr 46) (RPlus g_digit).
(** partial-time = time-hour ":" time-minute [ ":" time-second [ time-secfrac ] ]
    (the seconds are mandatory in v1.0.0 and optional in v1.1.0) *)
Definition g_partial_time : re :=
  RSeq g_2digit (RSeq (RChr 58) (RSeq g_2digit
    (ROpt (RSeq (RChr 58) (RSeq g_2digit (ROpt g_secfrac)))))).
Definition g_offset : re :=
  RAlt (RCls (fun c => N.eqb c 90 || N.eqb c 122))
       (RSeq g_sign (RSeq g_2digit (RSeq (RChr 58) g_2digit))).
Definition g_offset_date_time : re := RSeq g_full_date (RSeq g_delim (RSeq g_partial_time g_offset)).
Definition g_local_date_time : re := RSeq g_full_date (RSeq g_delim g_partial_time).
Definition g_local_date : re := g_full_date.
Definition g_local_time : re := g_partial_time.

(** [scalar k w]: the text [w] is a TOML scalar of kind [k]. *)
Inductive scalar : kind -> str -> Prop :=
| S_dec w : lang g_dec_int w -> scalar INTEGER_DEC w
| S_hex w : lang g_hex_int w -> scalar INTEGER_HEX w
| S_oct w : lang g_oct_int w -> scalar INTEGER_OCT w
| S_bin w : lang g_bin_int w -> scalar INTEGER_BIN w
| S_float w : lang g_float w -> scalar FLOAT w
| S_special w : lang g_special_float w -> scalar FLOAT w
| S_bool w : lang g_boolean w -> scalar BOOLEAN w
| S_odt w : lang g_offset_date_time w -> scalar OFFSET_DATE_TIME w
| S_ldt w : lang g_local_date_time w -> scalar LOCAL_DATE_TIME w
| S_ld w : lang g_local_date w -> scalar LOCAL_DATE w
| S_lt w : lang g_local_time w -> scalar LOCAL_TIME w.

(** What may follow a value in TOML: end of input, whitespace, line break, comment, comma or a
    closing bracket or brace. *)
Definition ends_value (s : str) : Prop :=
  match s with
  | [] => True
  | c :: _ => In c [9; 10; 13; 32; 35; 44; 93; 125]
  end.

(** A date followed by a space and a digit is read as the beginning of a date-time. *)
Definition not_continued (k : kind) (s : str) : Prop :=
  match k, s with
  | LOCAL_DATE, 32 :: c :: _ => in_range 48 57 c = false
  | _, _ => True
  end.
