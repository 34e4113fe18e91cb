(** Model of crates/tombi-lexer: definitions only. *)
From Coq Require Import String Ascii List NArith Bool.
From Verif Require Import Base SyntaxKind TextModel Regex.
Import ListNotations.
Open Scope N_scope.
Open Scope list_scope.

(** Character constants. *)
Definition c_tab : char := 9.
Definition c_nl : char := 10.
Definition c_cr : char := 13.
Definition c_space : char := 32.
Definition c_dquote : char := 34.
Definition c_hash : char := 35.
Definition c_squote : char := 39.
Definition c_plus : char := 43.
Definition c_comma : char := 44.
Definition c_minus : char := 45.
Definition c_dot : char := 46.
Definition c_eq : char := 61.
Definition c_lbracket : char := 91.
Definition c_backslash : char := 92.
Definition c_rbracket : char := 93.
Definition c_lbrace : char := 123.
Definition c_rbrace : char := 125.

(** crates/tombi-lexer/src/cursor.rs:14 *)
Definition EOF_CHAR : char := 0.

(** crates/tombi-lexer/src/error.rs:7-20 [ErrorKind] *)
Inductive error_kind :=
| InvalidKey | InvalidBasicString | InvalidLiteralString
| InvalidMultilineBasicString | InvalidMultilineLiteralString
| InvalidNumber | InvalidOffsetDateTime | InvalidLocalDateTime | InvalidLocalDate
| InvalidLocalTime | InvalidLineBreak | InvalidToken.

(** crates/tombi-lexer/src/token.rs:3-8 *)
Record token := Tok { tkind : kind; tspan : span; trange : range }.

(** crates/tombi-lexer/src/error.rs:1-6 *)
Record lex_error := LexErr { ekind : error_kind; espan : span; erange : range }.

(** crates/tombi-lexer/src/cursor.rs:3-12 [Cursor]; [chars] is the list of remaining characters. *)
Record cursor := Cur {
  rest : str;
  current : char;
  coff : N;
  cpos : position;
  toff : N;
  tpos : position;
  cending : line_ending
}.

(** crates/tombi-lexer/src/cursor.rs:17-30 *)
Definition cursor_new (input : str) : cursor :=
  Cur input (hd EOF_CHAR input) 0 (Pos 0 0) 0 (Pos 0 0) Lf.

(** crates/tombi-lexer/src/cursor.rs:37-45 [peek(i)], i >= 1 *)
Definition peek (i : nat) (c : cursor) : char := nth (i - 1) (rest c) EOF_CHAR.

(** crates/tombi-lexer/src/cursor.rs:47-58 *)
Definition peek_while (p : char -> bool) (c : cursor) : str := take_while p (rest c).

(** crates/tombi-lexer/src/cursor.rs:60-72 *)
Definition peeks (n : nat) (c : cursor) : str := firstn n (rest c).

(** crates/tombi-lexer/src/cursor.rs:74-87 *)
Definition peeks_with_current (n : nat) (c : cursor) : str :=
  current c :: firstn (n - 1) (rest c).

(** crates/tombi-lexer/src/cursor.rs:89-101 *)
Definition peek_with_current_while (p : char -> bool) (c : cursor) : str :=
  current c :: take_while p (rest c).

(** crates/tombi-lexer/src/cursor.rs:104-115; the loop compares [peek(i+1)] with the i-th char
    after the first of [expected]. *)
Fixpoint matches_from (i : nat) (expected : str) (c : cursor) : bool :=
  match expected with
  | [] => true
  | x :: expected' => if N.eqb (peek i c) x then matches_from (S i) expected' c else false
  end.
Definition matches_str (expected : str) (c : cursor) : bool :=
  match expected with
  | [] => false
  | x :: expected' => N.eqb (current c) x && matches_from 1 expected' c
  end.

(** crates/tombi-lexer/src/cursor.rs:118-120 *)
Definition is_eof (c : cursor) : bool := match rest c with [] => true | _ => false end.

(** crates/tombi-lexer/src/cursor.rs:123-133 *)
Definition bump (c : cursor) : cursor :=
  match rest c with
  | [] => Cur [] EOF_CHAR (coff c) (cpos c) (toff c) (tpos c) (cending c)
  | x :: r =>
      Cur r x (coff c + len_utf8 x) (pos_add (cpos c) (rel_of_char x)) (toff c) (tpos c) (cending c)
  end.

(** crates/tombi-lexer/src/cursor.rs:135-142 *)
Fixpoint eat_n (n : nat) (c : cursor) : cursor :=
  match n with
  | O => c
  | S n' => match rest c with [] => bump c | _ :: _ => eat_n n' (bump c) end
  end.

(** crates/tombi-lexer/src/cursor.rs:145-151; the recursion follows the remaining characters. *)
Fixpoint eat_while_ (p : char -> bool) (r : str) (c : cursor) : cursor :=
  match r with
  | [] => c
  | _ :: r' => if p (peek 1 c) && negb (is_eof c) then eat_while_ p r' (bump c) else c
  end.
Definition eat_while (p : char -> bool) (c : cursor) : cursor := eat_while_ p (rest c) c.

(** crates/tombi-lexer/src/cursor.rs:154-167 *)
Definition pop_span_range (c : cursor) : (span * range) * cursor :=
  ((MkSpan (toff c) (coff c), range_new (tpos c) (cpos c)),
   Cur (rest c) (current c) (coff c) (cpos c) (coff c) (cpos c) (cending c)).

(** [Result<Token, Error>] paired with the cursor. *)
Definition lex_result : Type := (token + lex_error)%type.

(** [Ok(Token::new(k, self.pop_span_range()))] and [Err(Error::new(e, self.pop_span_range()))] *)
Definition ok (k : kind) (c : cursor) : lex_result * cursor :=
  let '((s, r), c') := pop_span_range c in (inl (Tok k s r), c').
Definition err (e : error_kind) (c : cursor) : lex_result * cursor :=
  let '((s, r), c') := pop_span_range c in (inr (LexErr e s r), c').

(** crates/tombi-lexer/src/lib.rs:546-570 *)
Definition is_whitespace (c : char) : bool := N.eqb c c_space || N.eqb c c_tab.
Definition is_line_break (c : char) : bool := N.eqb c c_cr || N.eqb c c_nl.
Definition is_token_separator (c : char) : bool :=
  N.eqb c c_lbrace || N.eqb c c_rbrace || N.eqb c c_lbracket || N.eqb c c_rbracket ||
  N.eqb c c_comma || N.eqb c c_eq || N.eqb c c_space || N.eqb c c_tab || N.eqb c c_cr ||
  N.eqb c c_nl || N.eqb c c_hash || N.eqb c 0.
Definition is_token_separator_with_dot (c : char) : bool :=
  N.eqb c c_lbrace || N.eqb c c_rbrace || N.eqb c c_lbracket || N.eqb c c_rbracket ||
  N.eqb c c_comma || N.eqb c c_dot || N.eqb c c_eq || N.eqb c c_space || N.eqb c c_tab ||
  N.eqb c c_cr || N.eqb c c_nl || N.eqb c c_hash || N.eqb c 0.

(** Character classes of the patterns. *)
Definition k_digit : char -> bool := in_range 48 57.
Definition k_digit_ (c : char) : bool := k_digit c || N.eqb c 95.
Definition k_oct : char -> bool := in_range 48 55.
Definition k_hex (c : char) : bool := k_digit c || in_range 65 70 c || in_range 97 102 c.
Definition k_bin_or_bar (c : char) : bool := N.eqb c 48 || N.eqb c 124 || N.eqb c 49.
Definition k_1_9 : char -> bool := in_range 49 57.
Definition k_e (c : char) : bool := N.eqb c 101 || N.eqb c 69.
Definition k_sign (c : char) : bool := N.eqb c 43 || N.eqb c 45.
Definition k_t_space (c : char) : bool := N.eqb c 84 || N.eqb c 116 || N.eqb c 32.
Definition k_dot_comma (c : char) : bool := N.eqb c 46 || N.eqb c 44.
Definition k_z (c : char) : bool := N.eqb c 90 || N.eqb c 122.

(** [(:?r)]: the source writes [(:?] where [(?:] was probably meant, so an optional colon is
    accepted at the start of each such group. *)
Definition colon_opt (r : re) : re := RSeq (ROpt (RChr 58)) r.
Definition opt_us (k : char -> bool) : re := RSeq (ROpt (RChr 95)) (RCls k).

(** crates/tombi-lexer/src/lib.rs:24 [^0b[0|1](:?_?[0|1])*$] *)
Definition REGEX_INTEGER_BIN : re :=
  RSeq (RChr 48) (RSeq (RChr 98) (RSeq (RCls k_bin_or_bar) (RStar (colon_opt (opt_us k_bin_or_bar))))).
(** crates/tombi-lexer/src/lib.rs:25 [^0o[0-7](:?_?[0-7])*$] *)
Definition REGEX_INTEGER_OCT : re :=
  RSeq (RChr 48) (RSeq (RChr 111) (RSeq (RCls k_oct) (RStar (colon_opt (opt_us k_oct))))).
(** crates/tombi-lexer/src/lib.rs:26 [^0x[0-9A-Fa-f](:?_?[0-9A-Fa-f])*$] *)
Definition REGEX_INTEGER_HEX : re :=
  RSeq (RChr 48) (RSeq (RChr 120) (RSeq (RCls k_hex) (RStar (colon_opt (opt_us k_hex))))).
(** crates/tombi-lexer/src/lib.rs:27 [^(:?[1-9](:?_?[0-9])*|0)$] *)
Definition REGEX_INTEGER_DEC : re :=
  RAlt (colon_opt (RSeq (RCls k_1_9) (RStar (colon_opt (opt_us k_digit))))) (RChr 48).
(** crates/tombi-lexer/src/lib.rs:28 [^[0-9_]+(:?(:?\.[0-9_]+)?[eE][+-]?[0-9_]+|\.[0-9_]+)$] *)
Definition REGEX_FLOAT : re :=
  RSeq (RPlus (RCls k_digit_))
    (RAlt
       (colon_opt
          (RSeq (ROpt (colon_opt (RSeq (RChr 46) (RPlus (RCls k_digit_)))))
             (RSeq (RCls k_e) (RSeq (ROpt (RCls k_sign)) (RPlus (RCls k_digit_))))))
       (RSeq (RChr 46) (RPlus (RCls k_digit_)))).

Definition r_date : re :=
  RSeq (RRep 4 (RCls k_digit)) (RSeq (RChr 45)
    (RSeq (RRep 2 (RCls k_digit)) (RSeq (RChr 45) (RRep 2 (RCls k_digit))))).
Definition r_time : re :=
  RSeq (RRep 2 (RCls k_digit)) (RSeq (RChr 58) (RSeq (RRep 2 (RCls k_digit))
    (RSeq (ROpt (RSeq (RChr 58) (RRep 2 (RCls k_digit))))
          (ROpt (RSeq (RCls k_dot_comma) (RPlus (RCls k_digit))))))).
Definition r_offset : re :=
  RAlt (RCls k_z)
    (RSeq (RCls k_sign) (RSeq (RRep 2 (RCls k_digit)) (RSeq (RChr 58) (RRep 2 (RCls k_digit))))).

(** crates/tombi-lexer/src/lib.rs:29 (prefix pattern, no [$]) *)
Definition REGEX_IS_DATE_TIME : re := r_date.
(** crates/tombi-lexer/src/lib.rs:30-31 *)
Definition REGEX_OFFSET_DATE_TIME : re :=
  RSeq r_date (RSeq (RCls k_t_space) (RSeq r_time r_offset)).
(** crates/tombi-lexer/src/lib.rs:32 *)
Definition REGEX_LOCAL_DATE_TIME : re := RSeq r_date (RSeq (RCls k_t_space) r_time).
(** crates/tombi-lexer/src/lib.rs:33 *)
Definition REGEX_LOCAL_DATE : re := r_date.
(** crates/tombi-lexer/src/lib.rs:34 *)
Definition REGEX_LOCAL_TIME : re := r_time.

(** [Regex::find] for [^r$]: the end of the match in bytes. *)
Definition find_end (r : re) (s : str) : option N :=
  if full_match r s then Some (len_bytes s) else None.

(** [if m.end() > 1 { self.eat_n(m.end() - 1) }] *)
Definition eat_match (e : N) (c : cursor) : cursor :=
  if 1 <? e then eat_n (N.to_nat (e - 1)) c else c.

(** crates/tombi-lexer/src/lib.rs:182-185 *)
Definition whitespace (c : cursor) : lex_result * cursor := ok WHITESPACE (eat_while is_whitespace c).

(** crates/tombi-lexer/src/lib.rs:187-192 *)
Definition line_comment (c : cursor) : lex_result * cursor :=
  ok COMMENT (eat_while (fun x => negb (N.eqb x c_nl || N.eqb x c_cr)) c).

Definition set_ending (l : line_ending) (c : cursor) : cursor :=
  Cur (rest c) (current c) (coff c) (cpos c) (toff c) (tpos c) l.

(** crates/tombi-lexer/src/lib.rs:198-212 *)
Definition line_break (c : cursor) : lex_result * cursor :=
  if N.eqb (current c) c_cr then
    if N.eqb (peek 1 c) c_nl then ok LINE_BREAK (set_ending Crlf (eat_n 1 c))
    else err InvalidLineBreak c
  else ok LINE_BREAK c.

(** crates/tombi-lexer/src/lib.rs:215-217 ([keyword.len()] is a byte length; keywords are ASCII) *)
Definition is_keyword (kw : str) (c : cursor) : bool :=
  matches_str kw c && is_token_separator_with_dot (peek (length kw) c).

(** crates/tombi-lexer/src/lib.rs:219-223 *)
Definition is_date_time (c : cursor) : bool :=
  prefix_match REGEX_IS_DATE_TIME (peeks_with_current 10 c).

(** The closure of crates/tombi-lexer/src/lib.rs:232-235; [index] counts the characters after the
    current one. *)
Fixpoint date_time_line (index : nat) (r : str) : str :=
  match r with
  | [] => []
  | x :: r' =>
      if (Nat.eqb (S index) 10 && N.eqb x c_space) || negb (is_token_separator x)
      then x :: date_time_line (S index) r' else []
  end.

(** crates/tombi-lexer/src/lib.rs:276-289, the end of [date_time] *)
Definition date_time_fail (pass_ldt pass_ld : bool) (c : cursor) : lex_result * cursor :=
  let c := eat_while (fun x => negb (is_token_separator_with_dot x)) c in
  if pass_ldt then err InvalidOffsetDateTime c
  else if pass_ld then err InvalidLocalDateTime c
  else err InvalidLocalDate c.

(** crates/tombi-lexer/src/lib.rs:225-290.  [&line[..10]] slices bytes; the first ten characters of
    [line] are ASCII because [is_date_time] holds where [date_time] is called. *)
Definition date_time (c : cursor) : lex_result * cursor :=
  let line := current c :: date_time_line 0 (rest c) in
  match find_end REGEX_OFFSET_DATE_TIME line with
  | Some e =>
      let c := eat_match e c in
      if is_token_separator_with_dot (peek 1 c) then ok OFFSET_DATE_TIME c
      else date_time_fail false false c
  | None =>
  match find_end REGEX_LOCAL_DATE_TIME line with
  | Some e =>
      let c := eat_match e c in
      if is_token_separator_with_dot (peek 1 c) then ok LOCAL_DATE_TIME c
      else date_time_fail true false c
  | None =>
  match find_end REGEX_LOCAL_DATE (firstn 10 line) with
  | Some e =>
      let c := eat_match e c in
      if is_token_separator_with_dot (peek 1 c) then ok LOCAL_DATE c
      else date_time_fail false true c
  | None => date_time_fail false false c
  end end end.

(** crates/tombi-lexer/src/lib.rs:292-296 *)
Definition is_time (c : cursor) : bool := full_match REGEX_LOCAL_TIME (peeks_with_current 5 c).

(** crates/tombi-lexer/src/lib.rs:298-314 *)
Definition time (c : cursor) : lex_result * cursor :=
  let line := peek_with_current_while (fun x => negb (is_token_separator x)) c in
  match find_end REGEX_LOCAL_TIME line with
  | Some e => ok LOCAL_TIME (eat_match e c)
  | None => err InvalidLocalTime (eat_while (fun x => negb (is_line_break x) && negb (is_whitespace x)) c)
  end.

(** crates/tombi-lexer/src/lib.rs:316-324 *)
Definition is_number (c : cursor) : bool :=
  let line := peek_with_current_while (fun x => negb (is_token_separator x)) c in
  full_match REGEX_FLOAT line || full_match REGEX_INTEGER_BIN line ||
  full_match REGEX_INTEGER_OCT line || full_match REGEX_INTEGER_HEX line ||
  full_match REGEX_INTEGER_DEC line.

(** crates/tombi-lexer/src/lib.rs:374-376 *)
Definition number_fail (c : cursor) : lex_result * cursor :=
  err InvalidNumber (eat_while (fun x => negb (is_token_separator_with_dot x)) c).

(** One branch of [number]: eat the match and check the separator. *)
Definition number_branch (k : kind) (e : N) (c : cursor) : lex_result * cursor :=
  let c := eat_match e c in
  if is_token_separator_with_dot (peek 1 c) then ok k c else number_fail c.

(** crates/tombi-lexer/src/lib.rs:326-377 *)
Definition number (c : cursor) : lex_result * cursor :=
  let line := peek_with_current_while (fun x => negb (is_token_separator x)) c in
  match find_end REGEX_FLOAT line with
  | Some e => number_branch FLOAT e c
  | None => match find_end REGEX_INTEGER_BIN line with
  | Some e => number_branch INTEGER_BIN e c
  | None => match find_end REGEX_INTEGER_OCT line with
  | Some e => number_branch INTEGER_OCT e c
  | None => match find_end REGEX_INTEGER_HEX line with
  | Some e => number_branch INTEGER_HEX e c
  | None => match find_end REGEX_INTEGER_DEC line with
  | Some e => number_branch INTEGER_DEC e c
  | None => number_fail c
  end end end end end.

(** crates/tombi-lexer/src/lib.rs:379-396; the recursion follows the remaining characters [r]. *)
Fixpoint basic_string_loop (r : str) (c : cursor) : lex_result * cursor :=
  match r with
  | [] => err InvalidBasicString (bump c)
  | x :: r' =>
      let c := bump c in
      if N.eqb x c_dquote then ok BASIC_STRING c
      else if N.eqb x c_backslash && (N.eqb (peek 1 c) c_dquote || N.eqb (peek 1 c) c_backslash) then
        match r' with
        | [] => err InvalidBasicString c (* unreachable: peek 1 is a character *)
        | _ :: r'' => basic_string_loop r'' (bump c)
        end
      else if is_line_break (peek 1 c) then err InvalidBasicString c
      else basic_string_loop r' c
  end.
Definition basic_string (c : cursor) : lex_result * cursor := basic_string_loop (rest c) c.

(** crates/tombi-lexer/src/lib.rs:398-437, after [eat_n(2)] *)
Fixpoint multi_line_basic_string_loop (r : str) (was_quote : bool) (c : cursor) : lex_result * cursor :=
  match r with
  | [] => err InvalidMultilineBasicString (bump c)
  | x :: r' =>
      let c := bump c in
      if negb was_quote && N.eqb (current c) c_dquote && N.eqb (peek 1 c) c_dquote && N.eqb (peek 2 c) c_dquote then
        let last_quotes := peek_while (fun y => N.eqb y c_dquote) c in
        let c := eat_while (fun y => N.eqb y c_dquote) c in
        if 4 <? len_bytes last_quotes then err InvalidMultilineBasicString c
        else ok MULTI_LINE_BASIC_STRING c
      else if N.eqb x c_backslash then multi_line_basic_string_loop r' true c
      else multi_line_basic_string_loop r' false c
  end.
Definition multi_line_basic_string (c : cursor) : lex_result * cursor :=
  let c := eat_n 2 c in multi_line_basic_string_loop (rest c) false c.

(** crates/tombi-lexer/src/lib.rs:439-459 *)
Fixpoint literal_string_loop (r : str) (c : cursor) : lex_result * cursor :=
  match r with
  | [] => err InvalidLiteralString (bump c)
  | x :: r' =>
      let c := bump c in
      if N.eqb x c_squote then ok LITERAL_STRING c
      else if is_line_break (peek 1 c) then err InvalidLiteralString c
      else literal_string_loop r' c
  end.
Definition literal_string (c : cursor) : lex_result * cursor := literal_string_loop (rest c) c.

(** crates/tombi-lexer/src/lib.rs:461-489, after [eat_n(2)] *)
Fixpoint multi_line_literal_string_loop (r : str) (c : cursor) : lex_result * cursor :=
  match r with
  | [] => err InvalidMultilineLiteralString (bump c)
  | x :: r' =>
      let c := bump c in
      if N.eqb (current c) c_squote && N.eqb (peek 1 c) c_squote && N.eqb (peek 2 c) c_squote then
        let last_quotes := peek_while (fun y => N.eqb y c_squote) c in
        let c := eat_while (fun y => N.eqb y c_squote) c in
        if 4 <? len_bytes last_quotes then err InvalidMultilineLiteralString c
        else ok MULTI_LINE_LITERAL_STRING c
      else multi_line_literal_string_loop r' c
  end.
Definition multi_line_literal_string (c : cursor) : lex_result * cursor :=
  let c := eat_n 2 c in multi_line_literal_string_loop (rest c) c.

(** crates/tombi-lexer/src/lib.rs:493-535 *)
Definition is_key_char (c : char) : bool :=
  in_range 65 90 c || in_range 97 122 c || in_range 48 57 c || N.eqb c 95 || N.eqb c 45 ||
  N.eqb c 36 || N.eqb c 123 || N.eqb c 125 ||
  N.eqb c 0xB2 || N.eqb c 0xB3 || N.eqb c 0xB9 || in_range 0xBC 0xBE c ||
  in_range 0xC0 0xD6 c || in_range 0xD8 0xF6 c || in_range 0xF8 0x37D c ||
  in_range 0x37F 0x1FFF c ||
  in_range 0x200C 0x200D c || in_range 0x203F 0x2040 c ||
  in_range 0x2070 0x218F c || in_range 0x2460 0x24FF c ||
  in_range 0x2C00 0x2FEF c || in_range 0x3001 0xD7FF c ||
  in_range 0xF900 0xFDCF c || in_range 0xFDF0 0xFFFD c ||
  in_range 0x10000 0xEFFFF c.

(** crates/tombi-lexer/src/lib.rs:491-543 *)
Definition key (c : cursor) : lex_result * cursor :=
  let c := eat_while is_key_char c in
  if is_token_separator_with_dot (peek 1 c) then ok BARE_KEY c
  else err InvalidKey (eat_while (fun x => negb (is_token_separator_with_dot x)) c).

(** crates/tombi-lexer/src/lib.rs:157, the first characters of keys and keywords *)
Definition is_word_start (x : char) : bool :=
  in_range 65 90 x || in_range 97 122 x || N.eqb x 95 || N.eqb x 36 || in_range 0xA0 0x10FFFF x.

(** crates/tombi-lexer/src/lib.rs:87-176 [advance_token]; [None] stands for the EOF token. *)
Definition advance_token (c : cursor) : option (lex_result * cursor) :=
  match rest c with
  | [] => None
  | _ :: _ =>
      let c := bump c in
      let x := current c in
      Some (
      if is_whitespace x then whitespace c
      else if is_line_break x then line_break c
      else if N.eqb x c_hash then line_comment c
      else if N.eqb x c_dquote then
        if matches_str [c_dquote; c_dquote; c_dquote] c then multi_line_basic_string c else basic_string c
      else if is_ascii_digit x then
        if is_date_time c then date_time c
        else if is_time c then time c
        else if is_number c then number c
        else key c
      else if N.eqb x c_squote then
        if matches_str [c_squote; c_squote; c_squote] c then multi_line_literal_string c else literal_string c
      else if N.eqb x c_plus then
        let c := bump c in
        if is_keyword (lit "inf") c || is_keyword (lit "nan") c then ok FLOAT (eat_n 2 c)
        else if is_ascii_digit (current c) then number c
        else err InvalidToken (eat_while (fun y => negb (is_token_separator_with_dot y)) c)
      else if N.eqb x c_minus then
        if (str_eqb (peeks 3 c) (lit "inf") || str_eqb (peeks 3 c) (lit "nan"))
           && is_token_separator_with_dot (peek 4 c)
        then ok FLOAT (eat_n 3 c)
        else if is_ascii_digit (peek 1 c) then
          let c := bump c in
          if is_number c then number c else key c
        else key c
      else if N.eqb x c_lbrace then ok BRACE_START c
      else if N.eqb x c_rbrace then ok BRACE_END c
      else if N.eqb x c_lbracket then ok BRACKET_START c
      else if N.eqb x c_rbracket then ok BRACKET_END c
      else if N.eqb x c_comma then ok COMMA c
      else if N.eqb x c_dot then ok DOT c
      else if N.eqb x c_eq then ok EQUAL c
      else if is_word_start x then
        if is_keyword (lit "inf") c || is_keyword (lit "nan") c then ok FLOAT (eat_n 2 c)
        else if is_keyword (lit "true") c then ok BOOLEAN (eat_n 3 c)
        else if is_keyword (lit "false") c then ok BOOLEAN (eat_n 4 c)
        else key c
      else err InvalidToken (eat_while (fun y => negb (is_token_separator_with_dot y)) c))
  end.

(** crates/tombi-lexer/src/lib.rs:75-83 [tokenize]; fuel-bounded, [None] when the fuel runs out. *)
Fixpoint tokenize (fuel : nat) (c : cursor) : option (list lex_result * cursor) :=
  match fuel with
  | O => None
  | S fuel' =>
      match advance_token c with
      | None => Some ([], c)
      | Some (r, c') =>
          match tokenize fuel' c' with
          | None => None
          | Some (rs, c'') => Some (r :: rs, c'')
          end
      end
  end.

(** crates/tombi-lexer/src/lexed.rs:7-13 [Lexed]; the joint bits are not modelled, the parser
    computes jointness from spans. *)
Record lexed := MkLexed { tokens : list token; errors : list lex_error; ending : line_ending }.

Definition result_span (r : lex_result) : span := match r with inl t => tspan t | inr e => espan e end.
Definition result_range (r : lex_result) : range := match r with inl t => trange t | inr e => erange e end.

(** crates/tombi-lexer/src/lexed.rs:17-44 [push_result_token] *)
Definition push_result_token (l : lexed) (r : lex_result) : lexed :=
  match r with
  | inl t => MkLexed (tokens l ++ [t]) (errors l) (ending l)
  | inr e => MkLexed (tokens l ++ [Tok INVALID_TOKEN (espan e) (erange e)]) (errors l ++ [e]) (ending l)
  end.

(** [&source[o..]] by bytes; [None] is the panic of an index that is out of bounds or inside a
    character. *)
Fixpoint drop_bytes (o : N) (s : str) : option str :=
  if N.eqb o 0 then Some s
  else match s with
       | [] => None
       | c :: s' => if o <? len_utf8 c then None else drop_bytes (o - len_utf8 c) s'
       end.

(** crates/tombi-lexer/src/lib.rs:37-73 [lex].  [seg] is the grapheme segmentation used by
    [RelativePosition::of].  [None]: fuel ran out or a slice panicked. *)
Definition lex (seg : str -> list str) (source : str) : option lexed :=
  match tokenize (S (length source)) (cursor_new source) with
  | None => None
  | Some (rs, c) =>
      let l := fold_left push_result_token rs (MkLexed [] [] Lf) in
      let last_off := fold_left (fun _ r => send (result_span r)) rs 0 in
      let last_pos := fold_left (fun _ r => rend (result_range r)) rs (Pos 0 0) in
      match drop_bytes last_off source with
      | None => None
      | Some tl =>
          Some (MkLexed
                  (tokens l ++ [Tok EOF (MkSpan last_off (len_bytes source))
                                  (range_new last_pos (pos_add last_pos (rel_of_clusters (seg tl))))])
                  (errors l) (cending c))
      end
  end.
