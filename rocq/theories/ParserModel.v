(** The TOML parser: crates/tombi-parser/src, from tokens to the green tree. *)
From Coq Require Import String Ascii List NArith Bool Arith.
From Verif Require Import Base SyntaxKind TextModel LexerModel.
Import ListNotations.
Open Scope N_scope.
Open Scope list_scope.

(** The outcome of a computation.  [Panic]: a Rust panic, including a failed [debug_assert!] and a
    dropped marker.  [Diverge]: a loop ran longer than the tokens left.  [Deep]: the recursion of
    [Value::parse] went deeper than the given stack. *)
Inductive res (A : Type) := Done (a : A) | Panic | Diverge | Deep.
Arguments Done {A} _.
Arguments Panic {A}.
Arguments Diverge {A}.
Arguments Deep {A}.

Definition bind {A B} (m : res A) (f : A -> res B) : res B :=
  match m with Done a => f a | Panic => Panic | Diverge => Diverge | Deep => Deep end.
Notation "'do' x <- e1 ; e2" := (bind e1 (fun x => e2)) (at level 200, x pattern, right associativity).

(** crates/tombi-parser/src/error.rs:3-71 [ErrorKind]: the errors of the grammar.  The twelve kinds that
    translate a lexer error are [FromLexer]. *)
Inductive perror_kind :=
| FromLexer (e : error_kind)
| UnknownLine | ExpectedKey | ExpectedValue | ExpectedEqual | ExpectedBracketEnd | ExpectedDoubleBracketEnd
| ExpectedBraceEnd | ExpectedLineBreak | ForbiddenKeysLastPeriod | RecursionLimitExceeded.

(** crates/tombi-parser/src/error.rs:73-77 [Error] *)
Record perror := PErr { pe_kind : perror_kind; pe_range : range }.

(** crates/tombi-parser/src/event.rs:6-26 [Event].  [forward_parent] is left out: nothing in the crate
    ever sets it, so the loop over forward parents (event.rs:56-70) runs zero times. *)
Inductive event :=
| EStart (k : kind)
| EFinish
| EToken (k : kind) (n : nat)
| EError (e : perror).

(** crates/tombi-parser/src/parser.rs:16-23 [Parser].  [input_tokens] and [pos] are kept as the tokens
    before [pos], latest first, and the tokens from [pos] on. *)
Record pst := MkP {
  p_src : str;
  p_seen : list token;
  p_rest : list token;
  p_depth : nat;
  p_tokens : list token;
  p_events : list event }.

(** crates/tombi-parser/src/parser.rs:13 *)
Definition MAX_RECURSION_DEPTH : nat := 128.

(** crates/tombi-parser/src/parser.rs:26-35 [new] *)
Definition parser_new (source : str) (ts : list token) : pst := MkP source [] ts 0 [] [].

(** crates/tombi-parser/src/parser.rs:45-47 *)
Definition enter_nested (p : pst) : pst :=
  MkP (p_src p) (p_seen p) (p_rest p) (S (p_depth p)) (p_tokens p) (p_events p).

(** crates/tombi-parser/src/parser.rs:51-53; the subtraction panics at zero. *)
Definition exit_nested (p : pst) : res pst :=
  match p_depth p with
  | O => Panic
  | S d => Done (MkP (p_src p) (p_seen p) (p_rest p) d (p_tokens p) (p_events p))
  end.

(** crates/tombi-parser/src/parser.rs:55-60 *)
Definition finish (p : pst) : list token * list event := (p_tokens p ++ p_rest p, p_events p).

Definition triv (t : token) : bool := is_trivia (tkind t).

(** crates/tombi-parser/src/parser.rs:84-96 [nth_index]: the tokens from [pos] to that index, and the
    tokens from that index on. *)
Fixpoint nth_split (n : nat) (ts : list token) : list token * list token :=
  match ts with
  | [] => ([], [])
  | t :: ts' =>
      if triv t then let (a, b) := nth_split n ts' in (t :: a, b)
      else match n with
           | O => ([], ts)
           | S n' => let (a, b) := nth_split n' ts' in (t :: a, b)
           end
  end.

(** crates/tombi-lexer/src/token.rs [Token::eof] *)
Definition token_eof : token := Tok EOF (MkSpan 0 0) (MkRange (Pos 0 0) (Pos 0 0)).

(** crates/tombi-parser/src/parser.rs:98-105 *)
Definition nth_token (n : nat) (p : pst) : token :=
  match snd (nth_split n (p_rest p)) with [] => token_eof | t :: _ => t end.

(** crates/tombi-parser/src/parser.rs:108-110, 63-65 *)
Definition nth_kind (n : nat) (p : pst) : kind := tkind (nth_token n p).
Definition p_current (p : pst) : kind := nth_kind 0 p.

(** crates/tombi-parser/src/parser.rs:126-128 *)
Definition nth_range (n : nat) (p : pst) : range := trange (nth_token n p).

(** crates/tombi-parser/src/parser.rs:68-70; indexing past the end panics. *)
Definition current_range (p : pst) : res range :=
  match p_rest p with [] => Panic | t :: _ => Done (trange t) end.

(** crates/tombi-parser/src/parser.rs:73-82 *)
Fixpoint back_over_trivia (seen : list token) : range :=
  match seen with
  | [] => MkRange (Pos 0 0) (Pos 0 0)
  | [t] => trange t
  | t :: seen' => if triv t then back_over_trivia seen' else trange t
  end.
Definition previous_range (p : pst) : range := back_over_trivia (p_seen p).

(** crates/tombi-parser/src/parser.rs:130-137 *)
Definition is_joint (n : nat) (p : pst) : bool :=
  match snd (nth_split n (p_rest p)) with
  | _ :: t :: _ => negb (triv t)
  | _ => false
  end.

(** crates/tombi-parser/src/parser.rs:139-141 *)
Definition at_composite2 (n : nat) (k1 k2 : kind) (p : pst) : bool :=
  kind_eqb (nth_kind n p) k1 && kind_eqb (nth_kind (n + 1) p) k2 && is_joint n p.

(** crates/tombi-parser/src/parser.rs:113-123 *)
Definition nth_at (n : nat) (k : kind) (p : pst) : bool :=
  match k with
  | DOUBLE_BRACKET_START => at_composite2 n BRACKET_START BRACKET_START p
  | DOUBLE_BRACKET_END => at_composite2 n BRACKET_END BRACKET_END p
  | _ => kind_eqb (nth_kind n p) k
  end.
Definition at_ (k : kind) (p : pst) : bool := nth_at 0 k p.

(** crates/tombi-parser/src/token_set.rs:55-76: the bit set is the list of its members. *)
Definition token_set := list kind.
Definition ts_contains (s : token_set) (k : kind) : bool := existsb (kind_eqb k) s.

(** crates/tombi-parser/src/token_set.rs:3-51 *)
Definition TS_LINE_END : token_set := [LINE_BREAK; EOF].
Definition TS_COMMENT_OR_LINE_END : token_set := [COMMENT; LINE_BREAK; EOF].
Definition TS_NEXT_SECTION : token_set := [BRACKET_START; DOUBLE_BRACKET_START; EOF].
Definition TS_INLINE_TABLE_END : token_set := [BRACE_END; EOF].
Definition TS_ARRAY_END : token_set := [BRACKET_END; EOF].
Definition TS_VALUE_FIRST : token_set :=
  [BASIC_STRING; MULTI_LINE_BASIC_STRING; LITERAL_STRING; MULTI_LINE_LITERAL_STRING;
   INTEGER_DEC; INTEGER_BIN; INTEGER_OCT; INTEGER_HEX; FLOAT; BOOLEAN;
   OFFSET_DATE_TIME; LOCAL_DATE_TIME; LOCAL_DATE; LOCAL_TIME; BRACKET_START; BRACE_START; BARE_KEY].
Definition TS_DANGLING_COMMENT_GROUP_END : token_set := [BRACE_END; BRACKET_END; LINE_BREAK; EOF].
Definition TS_LEADING_COMMENTS_KINDS : token_set := [COMMENT; LINE_BREAK].
Definition TS_KEY_FIRST : token_set :=
  [BARE_KEY; BASIC_STRING; LITERAL_STRING; INTEGER_DEC; INTEGER_HEX; INTEGER_OCT; INTEGER_BIN; FLOAT;
   BOOLEAN; LOCAL_DATE].

(** crates/tombi-parser/src/parser.rs:166-173 *)
Definition nth_at_ts (n : nat) (s : token_set) (p : pst) : bool := ts_contains s (nth_kind n p).
Definition at_ts (s : token_set) (p : pst) : bool := ts_contains s (p_current p).

(** crates/tombi-parser/src/parser.rs:329-331 *)
Definition push_event (e : event) (p : pst) : pst :=
  MkP (p_src p) (p_seen p) (p_rest p) (p_depth p) (p_tokens p) (p_events p ++ [e]).

(** crates/tombi-parser/src/parser.rs:340-342 *)
Definition p_error (k : perror_kind) (r : range) (p : pst) : pst := push_event (EError (PErr k r)) p.

(** crates/tombi-parser/src/parser.rs:311-317 *)
Definition do_bump (k : kind) (n : nat) (p : pst) : pst :=
  let (a, b) := nth_split n (p_rest p) in
  MkP (p_src p) (rev a ++ p_seen p) b (p_depth p) (p_tokens p ++ a) (p_events p ++ [EToken k n]).

(** crates/tombi-parser/src/parser.rs:319-326 *)
Definition do_bump_kind (k : kind) (p : pst) : pst :=
  do_bump k (match k with DOUBLE_BRACKET_START | DOUBLE_BRACKET_END => 2 | _ => 1 end)%nat p.

(** crates/tombi-parser/src/parser.rs:144-152 *)
Definition eat (k : kind) (p : pst) : bool * pst :=
  if negb (at_ k p) then (false, p) else (true, do_bump_kind k p).

(** crates/tombi-parser/src/parser.rs:154-163 *)
Definition eat_ts (s : token_set) (p : pst) : bool * pst :=
  let k := p_current p in
  if negb (ts_contains s k) then (false, p) else (true, do_bump_kind k p).

(** crates/tombi-parser/src/parser.rs:178-182: the marker is the index of the pushed event. *)
Definition start (p : pst) : nat * pst := (length (p_events p), push_event (EStart TOMBSTONE) p).

(** [events[idx] = e]; the index is in bounds whenever the old event was read. *)
Fixpoint set_nth {A} (i : nat) (x : A) (l : list A) : list A :=
  match l, i with
  | [], _ => []
  | _ :: l', O => x :: l'
  | y :: l', S i' => y :: set_nth i' x l'
  end.

(** crates/tombi-parser/src/marker.rs:20-30 [complete] *)
Definition complete (m : nat) (k : kind) (p : pst) : res pst :=
  match nth_error (p_events p) m with
  | Some (EStart _) =>
      Done (MkP (p_src p) (p_seen p) (p_rest p) (p_depth p) (p_tokens p)
                (set_nth m (EStart k) (p_events p) ++ [EFinish]))
  | _ => Panic
  end.

(** crates/tombi-parser/src/parser.rs:185-188 *)
Definition p_bump (k : kind) (p : pst) : res pst :=
  let (eaten, p) := eat k p in if eaten then Done p else Panic.

(** crates/tombi-parser/src/parser.rs:191-197 *)
Definition bump_any (p : pst) : pst :=
  if kind_eqb (nth_kind 0 p) EOF then p else do_bump (nth_kind 0 p) 1 p.

(** crates/tombi-parser/src/parser.rs:205-211 *)
Definition bump_remap (k : kind) (p : pst) : pst :=
  if kind_eqb (nth_kind 0 p) EOF then p else do_bump k 1 p.

(** [&source[span]]: the first [n] bytes of a text, [None] when that is not on a character boundary. *)
Fixpoint text_take (n : N) (s : str) : option str :=
  if N.eqb n 0 then Some []
  else match s with
       | [] => None
       | c :: s' => if n <? len_utf8 c then None else option_map (cons c) (text_take (n - len_utf8 c) s')
       end.
(** An inverted span panics (in debug builds already in [Span::new], tombi-text/src/span.rs:40-47). *)
Definition text_slice (source : str) (from to : N) : option str :=
  if to <? from then None
  else match drop_bytes from source with
       | None => None
       | Some s => text_take (to - from) s
       end.

(** [str::split('.')] *)
Fixpoint split_dot (s : str) : list str :=
  match s with
  | [] => [[]]
  | c :: s' =>
      if N.eqb c 46 then [] :: split_dot s'
      else match split_dot s' with
           | [] => [[c]]
           | w :: ws => (c :: w) :: ws
           end
  end.

(** crates/tombi-parser/src/parser.rs:231-252, 257-280, 285-306: one synthetic token and its node.  The
    ranges of synthetic tokens are not modelled: no later step reads them (the builder reads spans
    only). *)
Definition push_synthetic (k : kind) (from to : N) (p : pst) : res pst :=
  let (m, p) := start p in
  let t := Tok k (MkSpan from to) (MkRange (Pos 0 0) (Pos 0 0)) in
  let p := MkP (p_src p) (p_seen p) (p_rest p) (p_depth p) (p_tokens p ++ [t]) (p_events p ++ [EToken k 1]) in
  complete m k p.

(** crates/tombi-parser/src/parser.rs:213-309 [bump_float_key].  The last step, [pos += 1], moves over the
    token at [pos], which is the float only when no trivia precedes it. *)
Definition bump_float_key (p : pst) : res pst :=
  if negb (kind_eqb (nth_kind 0 p) FLOAT) then Panic else
  let t := nth_token 0 p in
  match text_slice (p_src p) (sstart (tspan t)) (send (tspan t)) with
  | None => Panic
  | Some text =>
      if negb (existsb (N.eqb 46) text) then
        let (m, p) := start p in
        complete m BARE_KEY (bump_remap BARE_KEY p)
      else
        match split_dot text with
        | [part0; part1] =>
            let a := sstart (tspan t) in
            let b := a + len_bytes part0 in
            let c := b + 1 in
            let d := c + len_bytes part1 in
            do p <- push_synthetic BARE_KEY a b p;
            do p <- push_synthetic DOT b c p;
            do p <- push_synthetic BARE_KEY c d p;
            match p_rest p with
            | [] => Panic
            | x :: r => Done (MkP (p_src p) (x :: p_seen p) r (p_depth p) (p_tokens p) (p_events p))
            end
        | _ => Panic
        end
  end.

(** crates/tombi-parser/src/parser.rs:334-336 *)
Definition invalid_token (p : pst) : res pst := let (m, p) := start p in complete m INVALID_TOKEN p.

(** A Rust loop: the body says whether to go round again.  The bound is one more than the number of
    tokens left when the loop starts; a loop that goes round more often is [Diverge]. *)
Fixpoint loop_ (fuel : nat) (body : pst -> res (bool * pst)) (p : pst) : res pst :=
  match fuel with
  | O => Diverge
  | S f =>
      match body p with
      | Done (true, p') => loop_ f body p'
      | Done (false, p') => Done p'
      | Panic => Panic
      | Diverge => Diverge
      | Deep => Deep
      end
  end.
Definition loop (body : pst -> res (bool * pst)) (p : pst) : res pst := loop_ (S (length (p_rest p))) body p.
Definition again (p : pst) : res (bool * pst) := Done (true, p).
Definition break (p : pst) : res (bool * pst) := Done (false, p).

(** [while p.eat(kind) {}] and [while !p.at_ts(set) { p.bump_any() }] *)
Definition while_eat (k : kind) : pst -> res pst := loop (fun p => Done (eat k p)).
Definition skip_until (s : token_set) : pst -> res pst :=
  loop (fun p => if at_ts s p then break p else again (bump_any p)).

(** crates/tombi-parser/src/support/comment.rs:3-17 [peek_leading_comments] *)
Fixpoint peek_loop (fuel : nat) (n : nat) (p : pst) : res nat :=
  match fuel with
  | O => Diverge
  | S f =>
      if nth_at n LINE_BREAK p then peek_loop f (n + 1) p
      else if nth_at n COMMENT p && nth_at (n + 1) LINE_BREAK p && negb (nth_at (n + 2) LINE_BREAK p)
      then peek_loop f (n + 2) p
      else Done n
  end.
Definition peek_leading_comments (p : pst) : res nat := peek_loop (S (length (p_rest p))) 0 p.

(** crates/tombi-parser/src/support/comment.rs:20-22, 25-27 *)
Definition leading_comments : pst -> res pst := loop (fun p => Done (eat_ts TS_LEADING_COMMENTS_KINDS p)).
Definition trailing_comment : pst -> res pst := while_eat COMMENT.

(** crates/tombi-parser/src/parse.rs:21-27 *)
Definition invalid_line (k : perror_kind) (p : pst) : res pst :=
  do r <- current_range p;
  skip_until TS_LINE_END (bump_any (p_error k r p)).

(** crates/tombi-parser/src/parse.rs:29-31 *)
Definition is_group_separator (p : pst) : bool := at_ts TS_LINE_END p && nth_at_ts 1 TS_LINE_END p.

(** crates/tombi-parser/src/parse/comma.rs:6-18 *)
Definition comma (p : pst) : res pst :=
  let (m, p) := start p in
  do p <- leading_comments p;
  if negb (at_ COMMA p) then Panic else
  let (_, p) := eat COMMA p in
  do p <- trailing_comment p;
  complete m COMMA p.

(** crates/tombi-parser/src/parse/dangling_comment_group.rs:25-42 *)
Fixpoint dangling_len_loop (fuel : nat) (n : nat) (p : pst) : res (option nat) :=
  match fuel with
  | O => Diverge
  | S f =>
      if negb (nth_at_ts (n + 1) TS_LINE_END p) then Done None
      else if nth_at_ts (n + 2) TS_DANGLING_COMMENT_GROUP_END p then Done (Some (n + 1)%nat)
      else if negb (nth_at (n + 2) COMMENT p) then Done None
      else dangling_len_loop f (n + 2) p
  end.
Definition dangling_comment_group_len (p : pst) : res (option nat) :=
  if negb (nth_at 0 COMMENT p) then Done None else dangling_len_loop (S (length (p_rest p))) 0 p.

(** crates/tombi-parser/src/parse/dangling_comment_group.rs:19 *)
Fixpoint bump_any_times (n : nat) (p : pst) : pst :=
  match n with O => p | S n' => bump_any_times n' (bump_any p) end.

(** crates/tombi-parser/src/parse/dangling_comment_group.rs:9-23 *)
Definition dangling_comment_groups : pst -> res pst :=
  loop (fun p =>
    do p <- while_eat LINE_BREAK p;
    do g <- dangling_comment_group_len p;
    match g with
    | None => break p
    | Some len =>
        let (m, p) := start p in
        do p <- complete m DANGLING_COMMENT_GROUP (bump_any_times len p);
        again p
    end).

(** crates/tombi-parser/src/parse/key.rs:41-68 *)
Definition eat_key (p : pst) : res (bool * pst) :=
  match p_current p with
  | BARE_KEY | BASIC_STRING | LITERAL_STRING =>
      let k := p_current p in
      let (m, p) := start p in
      do p <- p_bump k p;
      do p <- complete m k p;
      Done (true, p)
  | INTEGER_DEC | INTEGER_HEX | INTEGER_OCT | INTEGER_BIN | BOOLEAN | LOCAL_DATE =>
      let (m, p) := start p in
      do p <- complete m BARE_KEY (bump_remap BARE_KEY p);
      Done (true, p)
  | FLOAT => do p <- bump_float_key p; Done (true, p)
  | _ =>
      let (m, p) := start p in
      do r <- current_range p;
      do p <- complete m INVALID_TOKEN (p_error ExpectedKey r p);
      Done (false, p)
  end.

(** crates/tombi-parser/src/parse/key.rs:20-35: the loop of the dotted keys mode, returning [!has_error]. *)
Fixpoint dotted_keys (fuel : nat) (has_error : bool) (p : pst) : res (bool * pst) :=
  match fuel with
  | O => Diverge
  | S f =>
      do (ok, p) <- eat_key p;
      let has_error := has_error || negb ok in
      let (dot, p) := eat DOT p in
      if negb dot then Done (negb has_error, p)
      else if negb (at_ts TS_KEY_FIRST p) then
        do r <- current_range p;
        Done (negb has_error, p_error ForbiddenKeysLastPeriod r p)
      else dotted_keys f has_error p
  end.

(** crates/tombi-parser/src/parse/key.rs:17-39 *)
Definition eat_keys (p : pst) : res (bool * pst) :=
  if nth_at 1 DOT p then dotted_keys (S (length (p_rest p))) false p else eat_key p.

(** crates/tombi-parser/src/parse/key.rs:6-15 *)
Definition keys (p : pst) : res pst :=
  let (m, p) := start p in
  do (ok, p) <- eat_keys p;
  complete m (if ok then KEYS else INVALID_TOKEN) p.

(** crates/tombi-parser/src/parse/value.rs:112-124 *)
Definition parse_literal_value (p : pst) : res pst :=
  let (m, p) := start p in
  do p <- leading_comments p;
  let k := p_current p in
  do p <- p_bump k p;
  do p <- trailing_comment p;
  complete m k p.

(** crates/tombi-parser/src/parse/value.rs:135-138: the loop, with [end_range]. *)
Fixpoint invalid_value_loop (fuel : nat) (end_range : range) (p : pst) : res (range * pst) :=
  match fuel with
  | O => Diverge
  | S f =>
      if at_ts TS_COMMENT_OR_LINE_END p then Done (end_range, p)
      else do r <- current_range p; invalid_value_loop f r (bump_any p)
  end.

(** crates/tombi-parser/src/parse/value.rs:126-144 *)
Definition parse_invalid_value (n : nat) (p : pst) : res pst :=
  let (m, p) := start p in
  do p <- (if Nat.ltb 1 n && nth_at n LINE_BREAK p then leading_comments p else Done p);
  do start_range <- current_range p;
  do (end_range, p) <- invalid_value_loop (S (length (p_rest p))) start_range p;
  let p := p_error ExpectedValue (range_add start_range end_range) p in
  do p <- trailing_comment p;
  complete m INVALID_TOKEN p.

(** crates/tombi-parser/src/parse/value.rs:79-100: the loop; [bracket_depth -= 1] panics at zero. *)
Fixpoint skip_deep_loop (fuel : nat) (end_range : range) (depth : nat) (p : pst) : res (range * pst) :=
  match fuel with
  | O => Diverge
  | S f =>
      match p_current p with
      | EOF => Done (end_range, p)
      | BRACKET_START | BRACE_START =>
          do r <- current_range p;
          skip_deep_loop f r (S depth) (bump_any p)
      | BRACKET_END | BRACE_END =>
          do r <- current_range p;
          let p := bump_any p in
          match depth with
          | O => Panic
          | S O => Done (r, p)
          | S d => skip_deep_loop f r d p
          end
      | _ =>
          do r <- current_range p;
          skip_deep_loop f r depth (bump_any p)
      end
  end.

(** crates/tombi-parser/src/parse/value.rs:71-110 *)
Definition skip_too_deep_value (p : pst) : res pst :=
  let (m, p) := start p in
  do p <- leading_comments p;
  do start_range <- current_range p;
  do (end_range, p) <- skip_deep_loop (S (length (p_rest p))) start_range 0 p;
  let p := p_error RecursionLimitExceeded (range_add start_range end_range) p in
  do p <- trailing_comment p;
  complete m INVALID_TOKEN p.

(** crates/tombi-parser/src/parse/value.rs:57-65 *)
Definition parse_nested (inner : pst -> res pst) (p : pst) : res pst :=
  if Nat.leb MAX_RECURSION_DEPTH (p_depth p) then skip_too_deep_value p
  else
    do p <- inner (enter_nested p);
    exit_nested p.

(** crates/tombi-parser/src/parse/value.rs:39-44: the inner marker is dropped, and its bomb goes off, when
    [eat_keys] fails. *)
Definition keys_or_bomb (p : pst) : res pst :=
  let (m, p) := start p in
  do (ok, p) <- eat_keys p;
  if ok then complete m KEYS p else Panic.

(** crates/tombi-parser/src/parse/value.rs:32-47: a key where a value is expected. *)
Definition key_as_value (n : nat) (p : pst) : res pst :=
  let p := p_error ExpectedValue (nth_range n p) p in
  let (m, p) := start p in
  do p <- leading_comments p;
  do p <- keys_or_bomb p;
  do p <- trailing_comment p;
  complete m KEY_VALUE p.

(** crates/tombi-parser/src/parse/key_value.rs:10-36; [value] is [Value::parse]. *)
Definition key_value (value : pst -> res pst) (p : pst) : res pst :=
  let (m, p) := start p in
  do p <- leading_comments p;
  do p <- keys p;
  let (eq, p) := eat EQUAL p in
  do p <- (if negb eq then do r <- current_range p; Done (p_error ExpectedEqual r p) else Done p);
  do p <- (if at_ts TS_LINE_END p then
             do p <- invalid_token p;
             do r <- current_range p;
             Done (p_error ExpectedValue r p)
           else if at_ COMMENT p then
             do p <- invalid_token p;
             Done (p_error ExpectedValue (previous_range p) p)
           else value p);
  do p <- trailing_comment p;
  complete m KEY_VALUE p.

(** crates/tombi-parser/src/parse/value_with_comma_group.rs:10-36 *)
Definition value_with_comma_group (value : pst -> res pst) (p : pst) : res pst :=
  let (m, p) := start p in
  do p <- loop (fun p =>
    if is_group_separator p then break p else
    do p <- value p;
    do n <- peek_leading_comments p;
    let next p :=
      do n <- peek_leading_comments p;
      if negb (nth_at_ts n TS_VALUE_FIRST p) then break p else again p in
    if nth_at n COMMA p then do p <- comma p; next p
    else if nth_at_ts n TS_ARRAY_END p then break p
    else next p) p;
  complete m VALUE_WITH_COMMA_GROUP p.

(** crates/tombi-parser/src/parse/key_value_with_comma_group.rs:10-36 *)
Definition key_value_with_comma_group (value : pst -> res pst) (p : pst) : res pst :=
  let (m, p) := start p in
  do p <- loop (fun p =>
    if is_group_separator p then break p else
    do p <- key_value value p;
    do n <- peek_leading_comments p;
    let next p :=
      do n <- peek_leading_comments p;
      if negb (nth_at_ts n TS_KEY_FIRST p) then break p else again p in
    if nth_at n COMMA p then do p <- comma p; next p
    else if nth_at_ts n TS_INLINE_TABLE_END p then break p
    else next p) p;
  complete m KEY_VALUE_WITH_COMMA_GROUP p.

(** crates/tombi-parser/src/parse/array.rs:11-44 and crates/tombi-parser/src/parse/inline_table.rs:11-44,
    which differ only in the brackets, the group parser, the error and the node kind. *)
Definition bracketed (open close : kind) (ends : token_set) (group : pst -> res pst)
    (e : perror_kind) (node : kind) (p : pst) : res pst :=
  let (m, p) := start p in
  do p <- leading_comments p;
  if negb (at_ open p) then Panic else
  let (_, p) := eat open p in
  do p <- trailing_comment p;
  do p <- loop (fun p =>
    do p <- while_eat LINE_BREAK p;
    do p <- dangling_comment_groups p;
    do n <- peek_leading_comments p;
    if nth_at_ts n ends p then break p
    else do p <- group p; again p) p;
  let (closed, p) := eat close p in
  do p <- (if negb closed then do r <- current_range p; Done (p_error e r p) else Done p);
  do p <- trailing_comment p;
  complete m node p.

Definition array (value : pst -> res pst) : pst -> res pst :=
  bracketed BRACKET_START BRACKET_END TS_ARRAY_END (value_with_comma_group value) ExpectedBracketEnd ARRAY.
Definition inline_table (value : pst -> res pst) : pst -> res pst :=
  bracketed BRACE_START BRACE_END TS_INLINE_TABLE_END (key_value_with_comma_group value) ExpectedBraceEnd INLINE_TABLE.

(** crates/tombi-parser/src/parse/value.rs:12-51 [Value::parse].  [stack] is the number of nested calls of
    [Value::parse] still allowed. *)
Fixpoint value (stack : nat) (p : pst) : res pst :=
  match stack with
  | O => Deep
  | S stack' =>
      do n <- peek_leading_comments p;
      match nth_kind n p with
      | BASIC_STRING | MULTI_LINE_BASIC_STRING | LITERAL_STRING | MULTI_LINE_LITERAL_STRING
      | INTEGER_DEC | INTEGER_BIN | INTEGER_OCT | INTEGER_HEX | FLOAT | BOOLEAN
      | OFFSET_DATE_TIME | LOCAL_DATE_TIME | LOCAL_DATE | LOCAL_TIME => parse_literal_value p
      | BRACKET_START => parse_nested (array (value stack')) p
      | BRACE_START => parse_nested (inline_table (value stack')) p
      | BARE_KEY => key_as_value n p
      | _ => parse_invalid_value n p
      end
  end.

(** crates/tombi-parser/src/parse/key_value_group.rs:10-38 *)
Definition key_value_group (value : pst -> res pst) (p : pst) : res pst :=
  let (m, p) := start p in
  do p <- loop (fun p =>
    if is_group_separator p then break p else
    do p <- key_value value p;
    do n <- peek_leading_comments p;
    do p <- (if nth_at n COMMA p then comma p else Done p);
    if negb (at_ LINE_BREAK p) then break p else
    do n <- peek_leading_comments p;
    if negb (nth_at_ts n TS_KEY_FIRST p) then break p else again p) p;
  complete m KEY_VALUE_GROUP p.

(** crates/tombi-parser/src/parse/table.rs:34-49, array_of_table.rs:34-49, root.rs:15-30: the lines of a
    section. *)
Definition section_lines (value : pst -> res pst) : pst -> res pst :=
  loop (fun p =>
    do p <- while_eat LINE_BREAK p;
    do p <- dangling_comment_groups p;
    do n <- peek_leading_comments p;
    if nth_at_ts n TS_NEXT_SECTION p then break p else
    do p <- key_value_group value p;
    do p <- (if negb (at_ts TS_LINE_END p) then invalid_line ExpectedLineBreak p else Done p);
    again p).

(** crates/tombi-parser/src/parse/table.rs:12-53 and crates/tombi-parser/src/parse/array_of_table.rs:12-53,
    which differ in the brackets, the error and the node kind. *)
Definition section (open close : kind) (e : perror_kind) (node : kind) (value : pst -> res pst) (p : pst) : res pst :=
  let (m, p) := start p in
  do p <- leading_comments p;
  if negb (at_ open p) then Panic else
  let (_, p) := eat open p in
  do p <- keys p;
  let (closed, p) := eat close p in
  do p <- (if negb closed then invalid_line e p else Done p);
  do p <- trailing_comment p;
  do p <- (if negb (at_ts TS_LINE_END p) then invalid_line ExpectedLineBreak p else Done p);
  do p <- section_lines value p;
  complete m node p.
Definition table : (pst -> res pst) -> pst -> res pst := section BRACKET_START BRACKET_END ExpectedBracketEnd TABLE.
Definition array_of_table : (pst -> res pst) -> pst -> res pst :=
  section DOUBLE_BRACKET_START DOUBLE_BRACKET_END ExpectedDoubleBracketEnd ARRAY_OF_TABLE.

(** crates/tombi-parser/src/parse/root.rs:51-64 *)
Definition unknown_line (p : pst) : res pst :=
  let (m, p) := start p in
  do p <- leading_comments p;
  do p <- skip_until TS_LINE_END p;
  do r <- current_range p;
  let p := p_error UnknownLine r p in
  do p <- trailing_comment p;
  complete m ERROR p.

(** crates/tombi-parser/src/parse/root.rs:11-49 *)
Definition root (value : pst -> res pst) (p : pst) : res pst :=
  let (m, p) := start p in
  do p <- section_lines value p;
  do p <- loop (fun p =>
    do p <- while_eat LINE_BREAK p;
    do n <- peek_leading_comments p;
    if nth_at n EOF p then break p
    else if nth_at n DOUBLE_BRACKET_START p then do p <- array_of_table value p; again p
    else if nth_at n BRACKET_START p then do p <- table value p; again p
    else do p <- unknown_line p; again p) p;
  complete m ROOT p.

(** crates/tombi-parser/src/output.rs:26-38 [Step].  The 32-bit encoding of the steps (output.rs:40-109) is
    not modelled: the output is the list of steps. *)
Inductive step := SToken (k : kind) (n : nat) | SEnter (k : kind) | SExit | SError (e : perror).

(** crates/tombi-parser/src/event.rs:38-87 [process] *)
Definition process (es : list event) : list step :=
  flat_map (fun e =>
    match e with
    | EStart k => if kind_eqb k TOMBSTONE then [] else [SEnter k]
    | EFinish => [SExit]
    | EToken k n => [SToken k n]
    | EError e => [SError e]
    end) es.

(** crates/tombi-rg-tree/src/green: a green element, without the cached hash and length. *)
Inductive tree := TNode (k : kind) (cs : list tree) | TToken (k : kind) (text : str).

(** crates/tombi-parser/src/builder.rs:100-106 *)
Inductive sink_step := AddToken (k : kind) (text : str) | StartNode (k : kind) | FinishNode | SinkError (e : perror).

(** crates/tombi-parser/src/builder.rs:22-27 *)
Inductive bstate := PendingEnter | Normal | PendingExit.

(** crates/tombi-parser/src/builder.rs:5-11; [b_rest] is [tokens[token_index..]], the sink is the list of
    the steps sent so far. *)
Record builder := MkB { b_src : str; b_rest : list token; b_state : bstate; b_out : list sink_step }.

Definition send_step (s : sink_step) (b : builder) : builder := MkB (b_src b) (b_rest b) (b_state b) (b_out b ++ [s]).
Definition set_state (s : bstate) (b : builder) : builder := MkB (b_src b) (b_rest b) s (b_out b).

(** crates/tombi-parser/src/builder.rs:88-97 [do_token] *)
Definition do_token (k : kind) (n : nat) (b : builder) : res builder :=
  match nth_error (b_rest b) 0, nth_error (b_rest b) n with
  | Some t0, Some tn =>
      match text_slice (b_src b) (sstart (tspan t0)) (sstart (tspan tn)) with
      | None => Panic
      | Some text => Done (MkB (b_src b) (skipn n (b_rest b)) (b_state b) (b_out b ++ [AddToken k text]))
      end
  | _, _ => Panic
  end.

(** crates/tombi-parser/src/builder.rs:78-86 [eat_trivias] *)
Fixpoint eat_trivias_ (fuel : nat) (b : builder) : res builder :=
  match fuel with
  | O => Diverge
  | S f =>
      match b_rest b with
      | [] => Done b
      | t :: _ => if negb (triv t) then Done b else do b <- do_token (tkind t) 1 b; eat_trivias_ f b
      end
  end.
Definition eat_trivias (b : builder) : res builder := eat_trivias_ (S (length (b_rest b))) b.

(** crates/tombi-parser/src/builder.rs:44-52 [token] *)
Definition b_token (k : kind) (n : nat) (b : builder) : res builder :=
  match b_state b with
  | PendingEnter => Panic
  | PendingExit => do b <- eat_trivias (send_step FinishNode (set_state Normal b)); do_token k n b
  | Normal => do b <- eat_trivias b; do_token k n b
  end.

(** crates/tombi-parser/src/builder.rs:54-68 [enter] *)
Definition b_enter (k : kind) (b : builder) : res builder :=
  match b_state b with
  | PendingEnter => Done (send_step (StartNode k) (set_state Normal b))
  | PendingExit =>
      do b <- eat_trivias (send_step FinishNode (set_state Normal b)); Done (send_step (StartNode k) b)
  | Normal => do b <- eat_trivias b; Done (send_step (StartNode k) b)
  end.

(** crates/tombi-parser/src/builder.rs:70-76 [exit] *)
Definition b_exit (b : builder) : res builder :=
  match b_state b with
  | PendingEnter => Panic
  | PendingExit => Done (send_step FinishNode (set_state PendingExit b))
  | Normal => Done (set_state PendingExit b)
  end.

(** crates/tombi-parser/src/builder.rs:116-128: the loop over the steps. *)
Fixpoint b_steps (ss : list step) (b : builder) : res builder :=
  match ss with
  | [] => Done b
  | s :: ss' =>
      do b <- match s with
              | SToken k n => b_token k n b
              | SEnter k => b_enter k b
              | SExit => b_exit b
              | SError e => Done (send_step (SinkError e) b)
              end;
      b_steps ss' b
  end.

(** crates/tombi-parser/src/builder.rs:108-137 [intersperse_trivia] *)
Definition intersperse_trivia (source : str) (ts : list token) (ss : list step) : res (list sink_step) :=
  do b <- b_steps ss (MkB source ts PendingEnter []);
  match b_state b with
  | PendingExit => do b <- eat_trivias (set_state Normal b); Done (b_out (send_step FinishNode b))
  | _ => Panic
  end.

(** crates/tombi-rg-tree/src/green/builder.rs:25-29, 49-68 and crates/tombi-syntax/src/builder.rs: the stack
    of open nodes.  [g_parents] holds the kind and the number of children before the node; [g_children]
    is latest first.  The node cache only shares equal nodes and is modelled apart. *)
Record gbuilder := MkG { g_parents : list (kind * nat); g_children : list tree; g_errors : list perror }.

Definition g_step (s : sink_step) (g : gbuilder) : res gbuilder :=
  match s with
  | AddToken k w => Done (MkG (g_parents g) (TToken k w :: g_children g) (g_errors g))
  | StartNode k => Done (MkG ((k, length (g_children g)) :: g_parents g) (g_children g) (g_errors g))
  | FinishNode =>
      match g_parents g with
      | [] => Panic
      | (k, first) :: ps =>
          let n := (length (g_children g) - first)%nat in
          Done (MkG ps (TNode k (rev (firstn n (g_children g))) :: skipn n (g_children g)) (g_errors g))
      end
  | SinkError e => Done (MkG (g_parents g) (g_children g) (g_errors g ++ [e]))
  end.

Fixpoint g_steps (ss : list sink_step) (g : gbuilder) : res gbuilder :=
  match ss with [] => Done g | s :: ss' => do g <- g_step s g; g_steps ss' g end.

(** crates/tombi-rg-tree/src/green/builder.rs:126-132 [finish] *)
Definition g_finish (g : gbuilder) : res (tree * list perror) :=
  match g_children g with
  | [TNode k cs] => Done (TNode k cs, g_errors g)
  | _ => Panic
  end.

(** crates/tombi-parser/src/lib.rs:44-63 [build_green_tree] *)
Definition build_green_tree (source : str) (ts : list token) (ss : list step) : res (tree * list perror) :=
  do steps <- intersperse_trivia source ts ss;
  do g <- g_steps steps (MkG [] [] []);
  g_finish g.

(** crates/tombi-parser/src/lib.rs:20-42 [parse]/[parse_as::<Root>]; [stack] bounds the nested calls of
    [Value::parse]. *)
Definition parse (seg : str -> list str) (stack : nat) (source : str) : res (tree * list perror) :=
  match lex seg source with
  | None => Panic
  | Some l =>
      do p <- root (value stack) (parser_new source (tokens l));
      let (ts, es) := finish p in
      do (t, errs) <- build_green_tree source ts (process es);
      Done (t, map (fun e => PErr (FromLexer (ekind e)) (erange e)) (errors l) ++ errs)
  end.
