(** Model of crates/tombi-json-lexer, crates/tombi-json (lexing, parsing and printing of JSON) and of the
    numbers of crates/tombi-json-value: definitions only. *)
From Coq Require Import String Ascii List NArith ZArith Bool.
From Verif Require Import Base TextModel Regex LexerModel LexerSpec DateTimeModel.
Import ListNotations.
Open Scope N_scope.
Open Scope list_scope.

(** crates/tombi-json-syntax/src/lib.rs:6-38 [SyntaxKind], the kinds of tokens only *)
Inductive jkind :=
| JEOF | JCOMMA | JCOLON | JBRACKET_START | JBRACKET_END | JBRACE_START | JBRACE_END
| JNUMBER | JSTRING | JBOOLEAN | JNULL | JWHITESPACE | JLINE_BREAK | JINVALID_TOKEN.
Definition jkind_eqb (a b : jkind) : bool :=
  match a, b with
  | JEOF, JEOF | JCOMMA, JCOMMA | JCOLON, JCOLON | JBRACKET_START, JBRACKET_START
  | JBRACKET_END, JBRACKET_END | JBRACE_START, JBRACE_START | JBRACE_END, JBRACE_END
  | JNUMBER, JNUMBER | JSTRING, JSTRING | JBOOLEAN, JBOOLEAN | JNULL, JNULL
  | JWHITESPACE, JWHITESPACE | JLINE_BREAK, JLINE_BREAK | JINVALID_TOKEN, JINVALID_TOKEN => true
  | _, _ => false
  end.
(** crates/tombi-json-syntax/src/lib.rs:42-44 [is_trivia] *)
Definition jtrivia (k : jkind) : bool := match k with JWHITESPACE | JLINE_BREAK => true | _ => false end.

(** crates/tombi-json-lexer/src/token.rs:5-10 *)
Record jtoken := JTok { jtkind : jkind; jtspan : span; jtrange : range }.
(** crates/tombi-json-lexer/src/error.rs:8-20 [ErrorKind], the kinds that are produced *)
Inductive jlex_error_kind :=
| JInvalidString | JInvalidNumber | JInvalidTrue | JInvalidFalse | JInvalidNull | JInvalidToken | JInvalidLineBreak.
(** crates/tombi-json-lexer/src/error.rs:1-6 *)
Record jlex_error := JLexErr { jekind : jlex_error_kind; jespan : span; jerange : range }.

(** The cursor of crates/tombi-json-lexer/src/cursor.rs:1-119 has the fields of the TOML lexer's
    cursor except the line ending, and the same functions [new], [current], [peek],
    [peek_with_current_while], [matches], [is_eof], [bump], [eat_n], [eat_while], [pop_span_range]; the
    definitions of LexerModel are used for it. *)
Definition jlex_result : Type := (jtoken + jlex_error)%type.
(** [Ok(Token::new(k, self.pop_span_range()))], [Err(Error::new(e, self.pop_span_range()))] *)
Definition jok (k : jkind) (c : cursor) : jlex_result * cursor :=
  let '((s, r), c') := pop_span_range c in (inl (JTok k s r), c').
Definition jerr (e : jlex_error_kind) (c : cursor) : jlex_result * cursor :=
  let '((s, r), c') := pop_span_range c in (inr (JLexErr e s r), c').

(** crates/tombi-json-lexer/src/lib.rs:234-237 *)
Definition j_is_whitespace (c : char) : bool := N.eqb c 32 || N.eqb c 9.
(** crates/tombi-json-lexer/src/lib.rs:239-242 *)
Definition j_is_line_break (c : char) : bool := N.eqb c 10 || N.eqb c 13.
(** crates/tombi-json-lexer/src/lib.rs:244-249 *)
Definition j_is_token_separator (c : char) : bool :=
  j_is_whitespace c || j_is_line_break c ||
  (N.eqb c 123 || N.eqb c 125 || N.eqb c 91 || N.eqb c 93 || N.eqb c 44 || N.eqb c 58 || N.eqb c 34 || N.eqb c 0).

(** crates/tombi-json-lexer/src/lib.rs:22 [^-?(:?[1-9](:?[0-9])*|0)$]; [(:?] is an optional colon *)
Definition J_REGEX_INTEGER_DEC : re :=
  RSeq (ROpt (RChr 45))
    (RAlt (colon_opt (RSeq (RCls k_1_9) (RStar (colon_opt (RCls k_digit))))) (RChr 48)).
(** crates/tombi-json-lexer/src/lib.rs:23 [^-?[0-9]+(:?(:?\.[0-9]+)?[eE][+-]?[0-9]+|\.[0-9]+)$] *)
Definition J_REGEX_FLOAT : re :=
  RSeq (ROpt (RChr 45))
    (RSeq (RPlus (RCls k_digit))
       (RAlt
          (colon_opt
             (RSeq (ROpt (colon_opt (RSeq (RChr 46) (RPlus (RCls k_digit)))))
                (RSeq (RCls k_e) (RSeq (ROpt (RCls k_sign)) (RPlus (RCls k_digit))))))
          (RSeq (RChr 46) (RPlus (RCls k_digit))))).

(** crates/tombi-json-lexer/src/lib.rs:126-129 *)
Definition j_whitespace (c : cursor) : jlex_result * cursor := jok JWHITESPACE (eat_while j_is_whitespace c).
(** crates/tombi-json-lexer/src/lib.rs:135-151 *)
Definition j_line_break (c : cursor) : jlex_result * cursor :=
  if N.eqb (current c) 13 then
    if N.eqb (peek 1 c) 10 then jok JLINE_BREAK (eat_n 1 c) else jerr JInvalidLineBreak c
  else jok JLINE_BREAK (eat_while (fun x => N.eqb x 13) c).
(** crates/tombi-json-lexer/src/lib.rs:153-173 *)
Definition j_number (c : cursor) : jlex_result * cursor :=
  let line := peek_with_current_while (fun x => negb (j_is_token_separator x)) c in
  match find_end J_REGEX_FLOAT line with
  | Some e => jok JNUMBER (eat_match e c)
  | None =>
      match find_end J_REGEX_INTEGER_DEC line with
      | Some e => jok JNUMBER (eat_match e c)
      | None => jerr JInvalidNumber (eat_while (fun x => negb (j_is_token_separator x)) c)
      end
  end.

(** crates/tombi-json-lexer/src/lib.rs:193 *)
Definition j_simple_escape (c : char) : bool :=
  N.eqb c 34 || N.eqb c 92 || N.eqb c 47 || N.eqb c 98 || N.eqb c 102 || N.eqb c 110 || N.eqb c 114 || N.eqb c 116.
(** crates/tombi-json-lexer/src/lib.rs:175-231 [string].  The nested calls of [bump] are written as a
    state: what the next character means.  [bad] is [first_error.is_some()] (every error is
    InvalidString).  The recursion follows the remaining characters. *)
Inductive jstr_state := JNormal | JEscape | JHex (n : nat).
Definition j_after_hex (n : nat) : jstr_state := match n with O => JNormal | S _ => JHex n end.
Fixpoint j_string_loop (r : str) (st : jstr_state) (bad : bool) (c : cursor) : jlex_result * cursor :=
  match r with
  | [] => jerr JInvalidString (bump c)
  | x :: r' =>
      let c := bump c in
      match st with
      | JNormal =>
          if N.eqb x 34 then (if bad then jerr JInvalidString c else jok JSTRING c)
          else if (x <=? 0x1F) && negb bad then j_string_loop r' JNormal true c
          else if N.eqb x 92 then j_string_loop r' JEscape bad c
          else j_string_loop r' JNormal bad c
      | JEscape =>
          if j_simple_escape x then j_string_loop r' JNormal bad c
          else if N.eqb x 117 then j_string_loop r' (JHex 4) bad c
          else j_string_loop r' JNormal true c
      | JHex n =>
          if k_hex x then j_string_loop r' (j_after_hex (pred n)) bad c
          else j_string_loop r' JNormal true c
      end
  end.

(** The branches [Err] of crates/tombi-json-lexer/src/lib.rs:93-122 *)
Definition j_invalid (e : jlex_error_kind) (c : cursor) : jlex_result * cursor :=
  jerr e (eat_while (fun x => negb (j_is_token_separator x)) (bump c)).

(** crates/tombi-json-lexer/src/lib.rs:70-120 [advance_token]; [None] stands for the EOF token *)
Definition j_advance_token (c : cursor) : option (jlex_result * cursor) :=
  match rest c with
  | [] => None
  | _ :: _ =>
      let c := bump c in
      let x := current c in
      Some (
      if j_is_whitespace x then j_whitespace c
      else if j_is_line_break x then j_line_break c
      else if N.eqb x 123 then jok JBRACE_START c
      else if N.eqb x 125 then jok JBRACE_END c
      else if N.eqb x 91 then jok JBRACKET_START c
      else if N.eqb x 93 then jok JBRACKET_END c
      else if N.eqb x 44 then jok JCOMMA c
      else if N.eqb x 58 then jok JCOLON c
      else if N.eqb x 34 then j_string_loop (rest c) JNormal false c
      else if is_ascii_digit x || N.eqb x 45 then j_number c
      else if N.eqb x 116 then
        if matches_str (lit "true") c then jok JBOOLEAN (eat_n 3 c) else j_invalid JInvalidTrue c
      else if N.eqb x 102 then
        if matches_str (lit "false") c then jok JBOOLEAN (eat_n 4 c) else j_invalid JInvalidFalse c
      else if N.eqb x 110 then
        if matches_str (lit "null") c then jok JNULL (eat_n 3 c) else j_invalid JInvalidNull c
      else j_invalid JInvalidToken c)
  end.

(** crates/tombi-json-lexer/src/lib.rs:52-66 [tokenize]; fuel-bounded, [None] when the fuel runs out *)
Fixpoint j_tokenize (fuel : nat) (c : cursor) : option (list jlex_result) :=
  match fuel with
  | O => None
  | S fuel' =>
      match j_advance_token c with
      | None => Some []
      | Some (r, c') => option_map (cons r) (j_tokenize fuel' c')
      end
  end.

Definition j_result_span (r : jlex_result) : span := match r with inl t => jtspan t | inr e => jespan e end.
Definition j_result_range (r : jlex_result) : range := match r with inl t => jtrange t | inr e => jerange e end.
(** crates/tombi-json-lexer/src/lexed.rs:9-36 [push_result_token] *)
Record jlexed := MkJLexed { jtokens : list jtoken; jerrors : list jlex_error }.
Definition j_push_result_token (l : jlexed) (r : jlex_result) : jlexed :=
  match r with
  | inl t => MkJLexed (jtokens l ++ [t]) (jerrors l)
  | inr e => MkJLexed (jtokens l ++ [JTok JINVALID_TOKEN (jespan e) (jerange e)]) (jerrors l ++ [e])
  end.

(** crates/tombi-json-lexer/src/lib.rs:26-50 [lex]; [seg] is the grapheme segmentation used by
    [RelativePosition::of]; [None]: fuel ran out or a slice panicked *)
Definition jlex (seg : str -> list str) (source : str) : option jlexed :=
  match j_tokenize (S (length source)) (cursor_new source) with
  | None => None
  | Some rs =>
      let l := fold_left j_push_result_token rs (MkJLexed [] []) in
      let last_off := fold_left (fun _ r => send (j_result_span r)) rs 0 in
      let last_pos := fold_left (fun _ r => rend (j_result_range r)) rs (Pos 0 0) in
      match drop_bytes last_off source with
      | None => None
      | Some tl =>
          Some (MkJLexed
                  (jtokens l ++ [JTok JEOF (MkSpan last_off (len_bytes source))
                                   (range_new last_pos (pos_add last_pos (rel_of_clusters (seg tl))))])
                  (jerrors l))
      end
  end.

(** * Numbers *)
(** An [f64] that is not NaN: plus or minus [m * 2^e], or an infinity.  [Fin false 0 e] is 0.0 and
    [Fin true 0 e] is -0.0. *)
Inductive f64 := Fin (neg : bool) (m : N) (e : Z) | Inf (neg : bool).

(** Rounding of [a/b] to the nearest [f64], ties to even: what the standard library documents for
    [str::parse::<f64>].  [a] and [b] are positive. *)
Definition f64_scale_num (a : N) (e : Z) : N := a * 2 ^ Z.to_N (- e).
Definition f64_scale_den (b : N) (e : Z) : N := b * 2 ^ Z.to_N e.
Definition f64_exponent (a b : N) : Z :=
  let e := (Z.of_N (N.log2 a) - Z.of_N (N.log2 b) - 53)%Z in
  Z.max (-1074) (if f64_scale_num a e <? 2 ^ 53 * f64_scale_den b e then e else (e + 1)%Z).
Definition round_half_even (num den : N) : N :=
  let q := num / den in
  let r := num mod den in
  if 2 * r <? den then q else if den <? 2 * r then q + 1 else if N.even q then q else q + 1.
Definition f64_round (neg : bool) (a b : N) : f64 :=
  if N.eqb a 0 then Fin neg 0 (-1074)
  else
    let e := f64_exponent a b in
    let m := round_half_even (f64_scale_num a e) (f64_scale_den b e) in
    let '(m, e) := if N.eqb m (2 ^ 53) then (2 ^ 52, (e + 1)%Z) else (m, e) in
    if (971 <? e)%Z then Inf neg else Fin neg m e.
(** the number [digits * 10^x] *)
Definition f64_of_decimal (neg : bool) (digits : N) (x : Z) : f64 :=
  f64_round neg (digits * 10 ^ Z.to_N x) (10 ^ Z.to_N (- x)).

(** the digits read in base ten *)
Definition digits_value (s : str) : N := fold_left (fun a c => 10 * a + (c - 48)) s 0.
Definition nil_str (s : str) : bool := match s with [] => true | _ => false end.
(** [str::parse::<f64>] of the standard library, documented grammar
    [Sign? (Digit+ | Digit+ '.' Digit* | Digit* '.' Digit+) ([eE] Sign? Digit+)?]; the texts "inf",
    "infinity" and "nan", which it also accepts and which are never number tokens, are left out. *)
Definition f64_parse (s : str) : option f64 :=
  let '(neg, s) := match s with
                   | x :: r => if N.eqb x 45 then (true, r) else if N.eqb x 43 then (false, r) else (false, s)
                   | [] => (false, s) end in
  let i := take_while is_ascii_digit s in
  let s := drop_while is_ascii_digit s in
  let '(f, s) := match s with
                 | x :: r => if N.eqb x 46 then (take_while is_ascii_digit r, drop_while is_ascii_digit r) else ([], s)
                 | [] => ([], s) end in
  if nil_str (i ++ f) then None
  else
    let frac := Z.of_nat (length f) in
    match s with
    | [] => Some (f64_of_decimal neg (digits_value (i ++ f)) (- frac))
    | x :: r =>
        if N.eqb x 101 || N.eqb x 69 then
          let '(eneg, r) := match r with
                            | y :: r' => if N.eqb y 45 then (true, r') else if N.eqb y 43 then (false, r') else (false, r)
                            | [] => (false, r) end in
          if nil_str r || negb (forallb is_ascii_digit r) then None
          else
            let x10 := Z.of_N (digits_value r) in
            Some (f64_of_decimal neg (digits_value (i ++ f)) ((if eneg then - x10 else x10) - frac))
        else None
    end.

(** crates/tombi-json-value/src/number.rs:4-10 [Number] *)
Inductive jnumber := JInteger (z : Z) | JFloat (f : f64).
(** the value of [m * 2^e] when it is whole ([fract() == 0.0]) *)
Definition f64_whole (m : N) (e : Z) : option N :=
  if (0 <=? e)%Z then Some (m * 2 ^ Z.to_N e)
  else let d := 2 ^ Z.to_N (- e) in if N.eqb (m mod d) 0 then Some (m / d) else None.
(** crates/tombi-json-value/src/number.rs:24-32 [from_f64]: [i64::MIN as f64] is -2^63, [i64::MAX as
    f64] is 2^63, and [value as i64] saturates *)
Definition number_from_f64 (v : f64) : jnumber :=
  match v with
  | Inf _ => JFloat v
  | Fin neg m e =>
      match f64_whole m e with
      | Some w =>
          let z := if neg then (- Z.of_N w)%Z else Z.of_N w in
          if ((- 2 ^ 63 <=? z) && (z <=? 2 ^ 63))%Z then JInteger (Z.min z (2 ^ 63 - 1)) else JFloat v
      | None => JFloat v
      end
  end.
(** crates/tombi-json/src/parser.rs:177-196: infinities are replaced by zero *)
Definition number_of_f64 (text : str) (v : f64) : jnumber :=
  match v with
  | Inf _ => number_from_f64 (Fin (match text with x :: _ => N.eqb x 45 | [] => false end) 0 (-1074))
  | Fin _ _ _ => number_from_f64 v
  end.

(** * Nodes *)
(** crates/tombi-json/src/node.rs:8-22 [ValueNode]; an object is the list of its entries in insertion
    order, the key with its range *)
Inductive jnode :=
| JNullNode (r : range)
| JBoolNode (b : bool) (r : range)
| JNumberNode (n : jnumber) (r : range)
| JStringNode (s : str) (r : range)
| JArrayNode (items : list jnode) (r : range)
| JObjectNode (properties : list ((str * range) * jnode)) (r : range).

(** crates/tombi-json/src/parser/error.rs:4-29, the errors that are produced *)
Inductive jparse_error :=
| JUnexpectedToken (expected actual : jkind)
| JUnexpectedEof
| JInvalidValue
| JRecursionLimitExceeded (limit : nat)
| JDuplicateKey (key : str)
| JInvalidEscapeSequence | JInvalidUnicodeEscape | JInvalidUnicodeCodePoint.

(** [Result], a panic (an index out of bounds or an [unwrap] of [None]), or no fuel *)
Inductive jres (A : Type) := JOk (a : A) | JErr (e : jparse_error) | JPanic | JFuel.
Arguments JOk {A}. Arguments JErr {A}. Arguments JPanic {A}. Arguments JFuel {A}.
Definition jbind {A B} (x : jres A) (f : A -> jres B) : jres B :=
  match x with JOk a => f a | JErr e => JErr e | JPanic => JPanic | JFuel => JFuel end.

(** crates/tombi-json/src/parser.rs:14 [MAX_RECURSION_DEPTH] *)
Definition MAX_RECURSION_DEPTH : nat := 128.

(** [char::to_digit(16)] of a hexadecimal digit *)
Definition hex_value (c : char) : N :=
  if in_range 48 57 c then c - 48 else if in_range 65 70 c then c - 55 else c - 87.
(** crates/tombi-json/src/parser.rs:93-102 and :107-116: four hexadecimal digits *)
Definition read_hex4 (s : str) : option (N * str) :=
  match s with
  | a :: b :: c :: d :: r =>
      if k_hex a && k_hex b && k_hex c && k_hex d
      then Some (((hex_value a * 16 + hex_value b) * 16 + hex_value c) * 16 + hex_value d, r)
      else None
  | _ => None
  end.
(** [char::from_u32] *)
Definition char_from_u32 (n : N) : option char :=
  if (n <=? 0x10FFFF) && negb (in_range 0xD800 0xDFFF n) then Some n else None.
(** crates/tombi-json/src/parser.rs:81-89 *)
Definition unescape (c : char) : option char :=
  if N.eqb c 34 then Some 34 else if N.eqb c 92 then Some 92 else if N.eqb c 47 then Some 47
  else if N.eqb c 98 then Some 8 else if N.eqb c 102 then Some 12 else if N.eqb c 110 then Some 10
  else if N.eqb c 114 then Some 13 else if N.eqb c 116 then Some 9 else None.

(** crates/tombi-json/src/parser.rs:76-150: the loop over the characters between the quotes; [fuel] is
    at least the number of characters *)
Fixpoint j_unescape_all (fuel : nat) (s : str) : jres str :=
  match fuel with
  | O => JFuel
  | S fuel' =>
      let push c r := jbind (j_unescape_all fuel' r) (fun t => JOk (c :: t)) in
      match s with
      | [] => JOk []
      | c :: r =>
          if negb (N.eqb c 92) then push c r
          else
            match r with
            | [] => JErr JInvalidEscapeSequence
            | e :: r =>
                match unescape e with
                | Some x => push x r
                | None =>
                    if negb (N.eqb e 117) then JErr JInvalidEscapeSequence
                    else
                      match read_hex4 r with
                      | None => JErr JInvalidUnicodeEscape
                      | Some (cp, r) =>
                          if in_range 0xD800 0xDBFF cp then
                            match r with
                            | a :: b :: r =>
                                if N.eqb a 92 && N.eqb b 117 then
                                  match read_hex4 r with
                                  | None => JErr JInvalidUnicodeEscape
                                  | Some (low, r) =>
                                      if in_range 0xDC00 0xDFFF low then
                                        match char_from_u32 (0x10000 + N.shiftl (cp - 0xD800) 10 + (low - 0xDC00)) with
                                        | Some x => push x r
                                        | None => JErr JInvalidUnicodeCodePoint
                                        end
                                      else JErr JInvalidUnicodeCodePoint
                                  end
                                else JErr JInvalidUnicodeCodePoint
                            | _ => JErr JInvalidUnicodeCodePoint
                            end
                          else if in_range 0xDC00 0xDFFF cp then JErr JInvalidUnicodeCodePoint
                          else
                            match char_from_u32 cp with
                            | Some x => push x r
                            | None => JErr JInvalidUnicodeCodePoint
                            end
                      end
                end
            end
      end
  end.

(** [&raw_str[1..raw_str.len() - 1]]; [None] is the panic (also of the subtraction) *)
Definition inner_text (raw : str) : option str :=
  if len_bytes raw <? 2 then None else slice raw (MkSpan 1 (len_bytes raw - 1)).

(** * The parser.  Its state is the list of the tokens from [position] on. *)
(** crates/tombi-json/src/parser.rs:396-416 [advance]: the token returned and the new state *)
Definition j_skip_trivia (ts : list jtoken) : list jtoken := drop_while (fun t => jtrivia (jtkind t)) ts.
Definition j_advance (ts : list jtoken) : list jtoken := j_skip_trivia (tl ts).
(** crates/tombi-json/src/parser.rs:392-394 [peek_kind] *)
Definition j_peek_kind (ts : list jtoken) : option jkind := option_map jtkind (hd_error ts).

(** crates/tombi-json/src/parser.rs:418-428 [expect] *)
Definition j_expect (k : jkind) (ts : list jtoken) : jres (jtoken * list jtoken) :=
  match ts with
  | t :: _ => if jkind_eqb (jtkind t) k then JOk (t, j_advance ts) else JErr (JUnexpectedToken k (jtkind t))
  | [] => JErr JUnexpectedEof
  end.

(** crates/tombi-json/src/parser.rs:62-164 [parse_string] *)
Definition j_parse_string (source : str) (ts : list jtoken) : jres ((str * range) * list jtoken) :=
  match ts with
  | t :: _ =>
      if jkind_eqb (jtkind t) JSTRING then
        match slice source (jtspan t) with
        | None => JPanic
        | Some raw =>
            match inner_text raw with
            | None => JPanic
            | Some content =>
                jbind (j_unescape_all (S (length content)) content)
                  (fun v => JOk ((v, jtrange t), j_advance ts))
            end
        end
      else JErr (JUnexpectedToken JSTRING (jtkind t))
  | [] => JErr JUnexpectedEof
  end.

(** crates/tombi-json-value/src/map.rs [contains_key] and [insert] of a key that is not there; keys are
    compared by their text, crates/tombi-json/src/node.rs:206-210 *)
Definition j_contains_key (k : str) (ps : list ((str * range) * jnode)) : bool :=
  existsb (fun p => str_eqb (fst (fst p)) k) ps.

(** crates/tombi-json/src/parser.rs:166-222 [parse_value], :224-288 [parse_array] with its loop, :290-385
    [parse_object] with its loop.  The range of a closed node is [Range::new(open.start, close.end)]. *)
Fixpoint j_parse_value (source : str) (fuel : nat) (depth : nat) (ts : list jtoken) {struct fuel}
  : jres (jnode * list jtoken) :=
  match fuel with
  | O => JFuel
  | S fuel' =>
      match ts with
      | [] => JErr JUnexpectedEof
      | t :: _ =>
          match jtkind t with
          | JSTRING => jbind (j_parse_string source ts) (fun '((s, r), ts') => JOk (JStringNode s r, ts'))
          | JNUMBER =>
              match slice source (jtspan t) with
              | None => JPanic
              | Some text =>
                  match f64_parse text with
                  | Some v => JOk (JNumberNode (number_of_f64 text v) (jtrange t), j_advance ts)
                  | None => JErr JInvalidValue
                  end
              end
          | JNULL => JOk (JNullNode (jtrange t), j_advance ts)
          | JBOOLEAN =>
              match slice source (jtspan t) with
              | None => JPanic
              | Some text => JOk (JBoolNode (str_eqb text (lit "true")) (jtrange t), j_advance ts)
              end
          | JBRACKET_START =>
              if (MAX_RECURSION_DEPTH <=? depth)%nat then JErr (JRecursionLimitExceeded MAX_RECURSION_DEPTH)
              else
                jbind (j_expect JBRACKET_START ts) (fun '(o, ts) =>
                match ts with
                | t :: _ =>
                    if jkind_eqb (jtkind t) JBRACKET_END
                    then JOk (JArrayNode [] (range_new (rstart (jtrange o)) (rend (jtrange t))), j_advance ts)
                    else j_parse_items source fuel' depth (rstart (jtrange o)) [] ts
                | [] => j_parse_items source fuel' depth (rstart (jtrange o)) [] ts
                end)
          | JBRACE_START =>
              if (MAX_RECURSION_DEPTH <=? depth)%nat then JErr (JRecursionLimitExceeded MAX_RECURSION_DEPTH)
              else
                jbind (j_expect JBRACE_START ts) (fun '(o, ts) =>
                match ts with
                | t :: _ =>
                    if jkind_eqb (jtkind t) JBRACE_END
                    then JOk (JObjectNode [] (range_new (rstart (jtrange o)) (rend (jtrange t))), j_advance ts)
                    else j_parse_members source fuel' depth (rstart (jtrange o)) [] ts
                | [] => j_parse_members source fuel' depth (rstart (jtrange o)) [] ts
                end)
          | _ => JErr JInvalidValue
          end
      end
  end
with j_parse_items (source : str) (fuel : nat) (depth : nat) (start : position) (items : list jnode)
  (ts : list jtoken) {struct fuel} : jres (jnode * list jtoken) :=
  match fuel with
  | O => JFuel
  | S fuel' =>
      jbind (j_parse_value source fuel' (S depth) ts) (fun '(v, ts) =>
      let items := items ++ [v] in
      let close t ts := JOk (JArrayNode items (range_new start (rend (jtrange t))), j_advance ts) in
      match ts with
      | t :: _ =>
          match jtkind t with
          | JCOMMA =>
              let ts := j_advance ts in
              match ts with
              | t :: _ =>
                  if jkind_eqb (jtkind t) JBRACKET_END then close t ts
                  else j_parse_items source fuel' depth start items ts
              | [] => j_parse_items source fuel' depth start items ts
              end
          | JBRACKET_END => close t ts
          | k => JErr (JUnexpectedToken JBRACKET_END k)
          end
      | [] => JErr (JUnexpectedToken JBRACKET_END JEOF)
      end)
  end
with j_parse_members (source : str) (fuel : nat) (depth : nat) (start : position)
  (ps : list ((str * range) * jnode)) (ts : list jtoken) {struct fuel} : jres (jnode * list jtoken) :=
  match fuel with
  | O => JFuel
  | S fuel' =>
      match ts with
      | [] => JErr JUnexpectedEof
      | t :: _ =>
          if negb (jkind_eqb (jtkind t) JSTRING) then JErr (JUnexpectedToken JSTRING (jtkind t))
          else
            jbind (j_parse_string source ts) (fun '(key, ts) =>
            if j_contains_key (fst key) ps then JErr (JDuplicateKey (fst key))
            else
              jbind (j_expect JCOLON ts) (fun '(_, ts) =>
              jbind (j_parse_value source fuel' (S depth) ts) (fun '(v, ts) =>
              let ps := ps ++ [(key, v)] in
              let close t ts := JOk (JObjectNode ps (range_new start (rend (jtrange t))), j_advance ts) in
              match ts with
              | t :: _ =>
                  match jtkind t with
                  | JCOMMA =>
                      let ts := j_advance ts in
                      match ts with
                      | t :: _ =>
                          if jkind_eqb (jtkind t) JBRACE_END then close t ts
                          else j_parse_members source fuel' depth start ps ts
                      | [] => j_parse_members source fuel' depth start ps ts
                      end
                  | JBRACE_END => close t ts
                  | k => JErr (JUnexpectedToken JBRACE_END k)
                  end
              | [] => JErr (JUnexpectedToken JBRACE_END JEOF)
              end)))
      end
  end.

(** crates/tombi-json/src/parser.rs:33-60 [parse] and :431-435; [JPanic] also when lexing fails *)
Definition jparse (seg : str -> list str) (source : str) : jres jnode :=
  match jlex seg source with
  | None => JPanic
  | Some l =>
      let ts := j_skip_trivia (jtokens l) in
      jbind (j_parse_value source (S (2 * length ts)) 0 ts) (fun '(root, ts) =>
      match j_skip_trivia ts with
      | t :: _ => if jkind_eqb (jtkind t) JEOF then JOk root else JErr (JUnexpectedToken JEOF (jtkind t))
      | [] => JOk root
      end)
  end.

(** * Values and printing *)
(** crates/tombi-json-value/src/lib.rs:15-31 [Value] *)
Inductive jvalue :=
| JNull | JBool (b : bool) | JNumber (n : jnumber) | JString (s : str)
| JArray (items : list jvalue) | JObject (entries : list (str * jvalue)).
(** crates/tombi-json/src/node.rs:301-320 [From<ValueNode> for Value]; the keys of a node are distinct,
    so collecting them into a map keeps the list *)
Fixpoint j_value (n : jnode) : jvalue :=
  match n with
  | JNullNode _ => JNull
  | JBoolNode b _ => JBool b
  | JNumberNode x _ => JNumber x
  | JStringNode s _ => JString s
  | JArrayNode xs _ => JArray (map j_value xs)
  | JObjectNode ps _ => JObject (map (fun p => (fst (fst p), j_value (snd p))) ps)
  end.
(** crates/tombi-json/src/node.rs:24-34 *)
Definition j_range (n : jnode) : range :=
  match n with
  | JNullNode r | JBoolNode _ r | JNumberNode _ r | JStringNode _ r | JArrayNode _ r | JObjectNode _ r => r
  end.

(** the format of an [i64] *)
Definition show_Z (z : Z) : str := if (z <? 0)%Z then 45 :: decimal (Z.to_N (- z)) else decimal (Z.to_N z).
(** crates/tombi-json-value/src/number.rs:76-90 [Display]; [show_f64] is the standard library's format *)
Definition show_number (show_f64 : f64 -> str) (n : jnumber) : str :=
  match n with
  | JInteger z => show_Z z
  | JFloat v =>
      match v with
      | Fin _ m e => show_f64 v ++ (match f64_whole m e with Some _ => lit ".0" | None => [] end)
      | Inf _ => show_f64 v
      end
  end.
(** [itertools::join] *)
Fixpoint j_join (sep : str) (l : list str) : str :=
  match l with
  | [] => []
  | [x] => x
  | x :: l' => x ++ sep ++ j_join sep l'
  end.
(** crates/tombi-json/src/node.rs:322-347 [Display for ValueNode] *)
Fixpoint j_show (show_f64 : f64 -> str) (n : jnode) : str :=
  match n with
  | JNullNode _ => lit "null"
  | JBoolNode b _ => if b then lit "true" else lit "false"
  | JNumberNode x _ => show_number show_f64 x
  | JStringNode s _ => [34] ++ s ++ [34]
  | JArrayNode xs _ => [91] ++ j_join (lit ", ") (map (j_show show_f64) xs) ++ [93]
  | JObjectNode ps _ =>
      [123] ++ j_join (lit ", ") (map (fun p => fst (fst p) ++ lit ": " ++ j_show show_f64 (snd p)) ps) ++ [125]
  end.
