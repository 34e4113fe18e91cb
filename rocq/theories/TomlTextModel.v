(** Model of crates/tombi-toml-text/src/lib.rs: definitions only. *)
From Coq Require Import String Ascii List NArith Bool.
From Verif Require Import Base TextModel LexerModel LexerSpec.
Import ListNotations.
Open Scope N_scope.
Open Scope list_scope.

(** crates/tombi-toml-version/src/lib.rs:9-15 *)
Inductive toml_version := V1_0_0 | V1_1_0_Preview | V1_1_0.
Definition is_v1_0_0 (v : toml_version) : bool := match v with V1_0_0 => true | _ => false end.

(** crates/tombi-toml-text/src/lib.rs:3-40 [ParseError] *)
Inductive parse_error :=
| InvalidEscapeSequence | InvalidUnicodeEscapeSequence | InvalidUnicodeCodePoint | InvalidNewline
| InvalidWhitespaceEscapeSequence | TInvalidLineBreak | InvalidControlCharacter | PlusCharacter
| TrailingBackslash | EscapeCharacter | HexEscapeSequence | UnicodeKey.

(** [Result<String, ParseError>], with an explicit value for a panic. *)
Inductive decoded := DOk (s : str) | DErr (e : parse_error) | DPanic.

(** crates/tombi-toml-text/src/lib.rs:42-63 *)
Definition is_bare_key_char (c : char) : bool :=
  in_range 97 122 c || in_range 65 90 c || in_range 48 57 c || N.eqb c 95 || N.eqb c 45 || N.eqb c 46.
Definition try_from_bare_key (value : str) : decoded :=
  if existsb (fun c => N.eqb c 43) value then DErr PlusCharacter
  else if forallb is_bare_key_char value then DOk value
  else DErr UnicodeKey.

(** [char::is_whitespace]: the Unicode property White_Space. *)
Definition is_unicode_whitespace (c : char) : bool :=
  in_range 9 13 c || N.eqb c 32 || N.eqb c 0x85 || N.eqb c 0xA0 || N.eqb c 0x1680 || in_range 0x2000 0x200A c ||
  N.eqb c 0x2028 || N.eqb c 0x2029 || N.eqb c 0x202F || N.eqb c 0x205F || N.eqb c 0x3000.
(** [char::is_control]: the general category Cc. *)
Definition is_unicode_control (c : char) : bool := in_range 0 0x1F c || in_range 0x7F 0x9F c.

(** [char::to_digit(16)] *)
Definition hex_value (c : char) : option N :=
  if in_range 48 57 c then Some (c - 48)
  else if in_range 97 102 c then Some (c - 87)
  else if in_range 65 70 c then Some (c - 55)
  else None.
Fixpoint hex_digits (acc : N) (s : str) : option N :=
  match s with
  | [] => Some acc
  | c :: s' => match hex_value c with None => None | Some d => hex_digits (acc * 16 + d) s' end
  end.
(** [u32::from_str_radix(s, 16)] for at most eight characters (no overflow is possible): an optional
    plus sign, then at least one digit. *)
Definition u32_from_hex (s : str) : option N :=
  match s with
  | [] => None
  | 43 :: [] => None
  | 43 :: s' => hex_digits 0 s'
  | _ => hex_digits 0 s
  end.
(** [char::from_u32] *)
Definition char_from_u32 (n : N) : option char :=
  if (n <=? 0x10FFFF) && negb (in_range 0xD800 0xDFFF n) then Some n else None.

(** The shared tail of the [\u], [\U] and [\x] cases, crates/tombi-toml-text/src/lib.rs:155-163, 175-183, 201-209. *)
Definition code_point (buf : str) : char + parse_error :=
  match u32_from_hex buf with
  | Some n => match char_from_u32 n with Some c => inl c | None => inr InvalidUnicodeCodePoint end
  | None => inr InvalidUnicodeEscapeSequence
  end.

(** '\u{0000}'..='\u{0008}' | '\u{000A}'..='\u{001F}' | '\u{007F}' *)
Definition is_forbidden_control (c : char) : bool := in_range 0 8 c || in_range 10 31 c || N.eqb c 127.

Definition dcons (c : char) (d : decoded) : decoded := match d with DOk s => DOk (c :: s) | e => e end.

(** crates/tombi-toml-text/src/lib.rs:97-255.  [skip] is [Some has_whitespace] inside the loop of
    lines 215-223 that drops whitespace after a backslash; the decision of lines 224-226 is taken at
    the first character that ends the loop.  [output] is built front to back. *)
Fixpoint parse_basic (v : toml_version) (ml : bool) (skip : option bool) (input : str) : decoded :=
  match input with
  | [] => match skip with Some false => DErr InvalidWhitespaceEscapeSequence | _ => DOk [] end
  | c :: r =>
    match (match skip with
           | None => None
           | Some hw => if is_unicode_whitespace c then Some (Some (hw || N.eqb c 10)) else Some None
           end), skip with
    | Some (Some hw), _ => parse_basic v ml (Some hw) r
    | _, Some false => DErr InvalidWhitespaceEscapeSequence
    | _, _ =>
      if N.eqb c 92 then
        match r with
        | [] => DErr TrailingBackslash
        | n :: r1 =>
          if N.eqb n 98 then dcons 8 (parse_basic v ml None r1)
          else if N.eqb n 101 then
            if is_v1_0_0 v then DErr EscapeCharacter else dcons 27 (parse_basic v ml None r1)
          else if N.eqb n 116 then dcons 9 (parse_basic v ml None r1)
          else if N.eqb n 110 then dcons 10 (parse_basic v ml None r1)
          else if N.eqb n 102 then dcons 12 (parse_basic v ml None r1)
          else if N.eqb n 114 then dcons 13 (parse_basic v ml None r1)
          else if N.eqb n 34 then dcons 34 (parse_basic v ml None r1)
          else if N.eqb n 92 then dcons 92 (parse_basic v ml None r1)
          else if N.eqb n 117 then
            match r1 with
            | a :: b :: c' :: d :: r2 =>
                match code_point [a; b; c'; d] with
                | inl x => dcons x (parse_basic v ml None r2)
                | inr e => DErr e
                end
            | _ => DErr InvalidUnicodeEscapeSequence
            end
          else if N.eqb n 85 then
            match r1 with
            | a :: b :: c' :: d :: a2 :: b2 :: c2 :: d2 :: r2 =>
                match code_point [a; b; c'; d; a2; b2; c2; d2] with
                | inl x => dcons x (parse_basic v ml None r2)
                | inr e => DErr e
                end
            | _ => DErr InvalidUnicodeEscapeSequence
            end
          else if N.eqb n 120 then
            if is_v1_0_0 v then DErr HexEscapeSequence
            else
            match r1 with
            | a :: b :: r2 =>
                match code_point [a; b] with
                | inl x => dcons x (parse_basic v ml None r2)
                | inr e => DErr e
                end
            | _ => DErr InvalidUnicodeEscapeSequence
            end
          else if is_unicode_whitespace n then parse_basic v ml (Some (N.eqb n 10)) r1
          else DErr InvalidEscapeSequence
        end
      else if ml && (N.eqb c 13 || N.eqb c 10) then
        if N.eqb c 13 then
          match r with
          | 10 :: r1 => dcons 13 (dcons 10 (parse_basic v ml None r1))
          | _ => DErr TInvalidLineBreak
          end
        else dcons 10 (parse_basic v ml None r)
      else if is_forbidden_control c then DErr InvalidControlCharacter
      else dcons c (parse_basic v ml None r)
    end
  end.
Definition parse_basic_string (input : str) (v : toml_version) (ml : bool) : decoded := parse_basic v ml None input.

(** crates/tombi-toml-text/src/lib.rs:257-282 *)
Fixpoint parse_literal_string (input : str) (ml : bool) : decoded :=
  match input with
  | [] => DOk []
  | c :: r =>
      if ml && (N.eqb c 13 || N.eqb c 10) then
        if N.eqb c 13 then
          match r with
          | 10 :: r1 => dcons 13 (dcons 10 (parse_literal_string r1 ml))
          | _ => DErr TInvalidLineBreak
          end
        else dcons 10 (parse_literal_string r ml)
      else if is_forbidden_control c then DErr InvalidControlCharacter
      else dcons c (parse_literal_string r ml)
  end.

(** [&value[n..value.len() - n]]; [None] when the slice panics. *)
Definition strip (n : N) (value : str) : option str :=
  if len_bytes value <? n then None
  else if len_bytes value - n <? n then None
  else slice value (MkSpan n (len_bytes value - n)).
Definition on_strip (n : N) (value : str) (k : str -> decoded) : decoded :=
  match strip n value with None => DPanic | Some s => k s end.

Definition skip_newlines (s : str) : str := drop_while (fun c => N.eqb c 10) s.

(** crates/tombi-toml-text/src/lib.rs:65-67 *)
Definition try_from_basic_string (value : str) (v : toml_version) : decoded :=
  on_strip 1 value (fun s => parse_basic_string s v false).
(** crates/tombi-toml-text/src/lib.rs:69-71 *)
Definition try_from_literal_string (value : str) : decoded :=
  on_strip 1 value (fun s => parse_literal_string s false).
(** crates/tombi-toml-text/src/lib.rs:73-85 *)
Definition try_from_multi_line_basic_string (value : str) (v : toml_version) : decoded :=
  on_strip 3 value (fun s => parse_basic_string (skip_newlines s) v true).
(** crates/tombi-toml-text/src/lib.rs:87-95 *)
Definition try_from_multi_line_literal_string (value : str) : decoded :=
  on_strip 3 value (fun s => parse_literal_string (skip_newlines s) true).

(** [format!("{:04x}", n)] for n < 0x10000 *)
Definition hex_digit_char (d : N) : char := if d <? 10 then 48 + d else 87 + d.
Definition hex4 (n : N) : str :=
  [hex_digit_char (n / 4096 mod 16); hex_digit_char (n / 256 mod 16); hex_digit_char (n / 16 mod 16); hex_digit_char (n mod 16)].

(** crates/tombi-toml-text/src/lib.rs:288-304 *)
Definition escape_char (c : char) : str :=
  if N.eqb c 34 then [92; 34]
  else if N.eqb c 92 then [92; 92]
  else if N.eqb c 0 then [92; 48]
  else if N.eqb c 7 then [92; 97]
  else if N.eqb c 8 then [92; 98]
  else if N.eqb c 9 then [92; 116]
  else if N.eqb c 10 then [92; 110]
  else if N.eqb c 11 then [92; 118]
  else if N.eqb c 12 then [92; 102]
  else if N.eqb c 13 then [92; 114]
  else if N.eqb c 27 then [92; 101]
  else if is_unicode_control c then [92; 117] ++ hex4 c
  else [c].
(** crates/tombi-toml-text/src/lib.rs:284-308 *)
Definition to_basic_string (value : str) : str := [34] ++ flat_map escape_char value ++ [34].

(** [str::starts_with] and [str::ends_with] *)
Definition starts_with (p s : str) : bool := str_eqb (firstn (length p) s) p.
Definition ends_with (p s : str) : bool := starts_with (rev p) (rev s).
(** crates/tombi-toml-text/src/lib.rs:318-320 *)
Definition is_variable_placeholder (value : str) : bool := starts_with [36; 123] value && ends_with [125] value.
(** crates/tombi-toml-text/src/lib.rs:322-324 *)
Definition is_display_bare_key (value : str) : bool :=
  negb (match value with [] => true | _ => false end) && negb (existsb (fun c => N.eqb c 46) value) &&
  (match try_from_bare_key value with DOk _ => true | _ => false end).
(** crates/tombi-toml-text/src/lib.rs:310-316 *)
Definition to_key_string (value : str) : str :=
  if is_variable_placeholder value || is_display_bare_key value then value else to_basic_string value.
(** crates/tombi-toml-text/src/lib.rs:326-336 *)
Definition to_literal_string (value : str) : str := [39] ++ value ++ [39].
Definition to_multi_line_basic_string (value : str) : str := [34; 34; 34; 10] ++ value ++ [34; 34; 34].
Definition to_multi_line_literal_string (value : str) : str := [39; 39; 39; 10] ++ value ++ [39; 39; 39].
