(** Model of the number literal conversions, crates/tombi-ast/src/support/literal: definitions only. *)
From Coq Require Import String Ascii List NArith ZArith Bool.
From Verif Require Import Base SyntaxKind TextModel Regex LexerModel LexerSpec TomlTextModel.
Import ListNotations.
Open Scope N_scope.
Open Scope list_scope.

(** [std::num::IntErrorKind] *)
Inductive int_error := IEmpty | IInvalidDigit | IPosOverflow | INegOverflow.
(** [Result<i64, ParseIntError>], with an explicit value for a panic. *)
Inductive int_result := IOk (z : Z) | IErr (e : int_error) | IPanic.

(** the range of [i64] *)
Definition fits_i64 (z : Z) : bool := (Z.leb (- 2 ^ 63) z && Z.ltb z (2 ^ 63))%Z.

(** [char::to_digit(radix)] for a radix of at most sixteen *)
Definition to_digit (radix : N) (c : char) : option N :=
  match hex_value c with Some d => if d <? radix then Some d else None | None => None end.

(** The loop of [i64::from_str_radix] (standard library) after the sign: each step multiplies and adds
    (or, for a negative number, subtracts) with overflow checks. *)
Fixpoint radix_loop (negative : bool) (radix : N) (acc : Z) (s : str) : int_result :=
  match s with
  | [] => IOk acc
  | c :: s' =>
      let overflow := IErr (if negative then INegOverflow else IPosOverflow) in
      match to_digit radix c with
      | None => IErr IInvalidDigit
      | Some d =>
          let m := (acc * Z.of_N radix)%Z in
          if negb (fits_i64 m) then overflow
          else let a := (if negative then m - Z.of_N d else m + Z.of_N d)%Z in
               if negb (fits_i64 a) then overflow else radix_loop negative radix a s'
      end
  end.
(** [i64::from_str_radix] *)
Definition from_str_radix (s : str) (radix : N) : int_result :=
  match s with
  | [] => IErr IEmpty
  | c :: s' =>
      if N.eqb c 43 || N.eqb c 45 then
        match s' with
        | [] => IErr IInvalidDigit
        | _ => radix_loop (N.eqb c 45) radix 0%Z s'
        end
      else radix_loop false radix 0%Z s
  end.

(** [value.replace('_', "")] *)
Definition without_underscores (s : str) : str := filter (fun c => negb (N.eqb c 95)) s.
(** [&value[2..]], which panics when 2 is out of bounds or inside a character *)
Definition after_prefix (value : str) (k : str -> int_result) : int_result :=
  match drop_bytes 2 value with None => IPanic | Some s => k s end.

(** crates/tombi-ast/src/support/literal/integer.rs:3-5 *)
Definition try_from_binary (value : str) : int_result :=
  after_prefix value (fun s => from_str_radix (without_underscores s) 2).
(** crates/tombi-ast/src/support/literal/integer.rs:7-9 *)
Definition try_from_octal (value : str) : int_result :=
  after_prefix value (fun s => from_str_radix (without_underscores s) 8).
(** crates/tombi-ast/src/support/literal/integer.rs:11-13 *)
Definition try_from_decimal (value : str) : int_result := from_str_radix (without_underscores value) 10.
(** crates/tombi-ast/src/support/literal/integer.rs:15-17 *)
Definition try_from_hexadecimal (value : str) : int_result :=
  after_prefix value (fun s => from_str_radix (without_underscores s) 16).

(** crates/tombi-document-tree/src/value/integer.rs:68-242: the conversion for each integer node; [None] for other kinds. *)
Definition integer_of_token (k : kind) (text : str) : option int_result :=
  match k with
  | INTEGER_BIN => Some (try_from_binary text)
  | INTEGER_OCT => Some (try_from_octal text)
  | INTEGER_DEC => Some (try_from_decimal text)
  | INTEGER_HEX => Some (try_from_hexadecimal text)
  | _ => None
  end.

(** * Floats, crates/tombi-ast/src/support/literal/float.rs *)
Inductive float_error := FStd | FUnderscore | FLeadingZero.
Inductive float_result (F : Type) := FOk (f : F) | FErr (e : float_error) | FPanic.
Arguments FOk {F} f. Arguments FErr {F} e. Arguments FPanic {F}.

(** crates/tombi-ast/src/support/literal/float.rs:12-23, the closure at index [i]; [None] is the
    subtraction overflow of [i - 1] when the text starts with an underscore. *)
Definition underscore_misplaced (value : str) (i : nat) : option bool :=
  match nth_error value i with
  | Some c =>
      if N.eqb c 95 then
        match i with
        | O => None
        | S j => match nth_error value j, nth_error value (S i) with
                 | Some a, Some b => Some (negb (is_ascii_digit a) || negb (is_ascii_digit b))
                 | _, _ => Some true
                 end
        end
      else Some false
  | None => Some false
  end.
Fixpoint any_misplaced (value : str) (is : list nat) : option bool :=
  match is with
  | [] => Some false
  | i :: is' => match underscore_misplaced value i with
                | None => None
                | Some true => Some true
                | Some false => any_misplaced value is'
                end
  end.

(** crates/tombi-ast/src/support/literal/float.rs:27-31 *)
Definition int_slice (value : str) : str :=
  if existsb (fun c => N.eqb c 46) value then take_while (fun c => negb (N.eqb c 46)) value
  else take_while (fun c => negb (N.eqb c 101)) value.
(** crates/tombi-ast/src/support/literal/float.rs:33-37 *)
Definition int_number (s : str) : str :=
  match s with c :: s' => if N.eqb c 43 || N.eqb c 45 then s' else s | [] => [] end.

(** crates/tombi-ast/src/support/literal/float.rs:11-44; [parse] is [str::parse::<f64>], [None] when it fails. *)
Definition try_from_float {F : Type} (parse : str -> option F) (value : str) : float_result F :=
  match any_misplaced value (seq 0 (length value)) with
  | None => FPanic
  | Some true => FErr FUnderscore
  | Some false =>
      let n := int_number (int_slice value) in
      if (1 <? len_bytes n) && match n with c :: _ => N.eqb c 48 | [] => false end then FErr FLeadingZero
      else match parse (without_underscores value) with Some f => FOk f | None => FErr FStd end
  end.

(** crates/tombi-ast/src/support/literal/boolean.rs:2-8 *)
Definition try_from_boolean (value : str) : option bool :=
  if str_eqb value (lit "true") then Some true
  else if str_eqb value (lit "false") then Some false
  else None.
