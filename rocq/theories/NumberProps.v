(** Final theorems about number literals (C12, C36). *)
From Coq Require Import String Ascii List NArith ZArith Bool Arith Lia.
From Verif Require Import Base SyntaxKind TextModel Regex LexerModel LexerSpec LexerProofs TomlGrammar LexScalars LexSound LexNumbers LexerProps
  TomlTextModel NumberModel NumberSpec NumberProofs.
Import ListNotations.
Open Scope N_scope.
Open Scope list_scope.

(** * C12 *)
Lemma integer_literals_proof k w z : int_literal k w z ->
  (in_i64 z -> integer_of_token k w = Some (IOk z)) /\
  (~ in_i64 z -> exists e, integer_of_token k w = Some (IErr e) /\ e = if (z <? 0)%Z then INegOverflow else IPosOverflow).
Proof.
  intros H. rewrite (literal_converts _ _ _ H). unfold value_or_overflow. split; intros K.
  - apply fits_spec in K. rewrite K. reflexivity.
  - apply not_fits_spec in K. rewrite K. eauto.
Qed.
(** A literal that fits has its mathematical value; one that does not is an overflow error. *)
Theorem C12_integer_literals : forall k w z, int_literal k w z ->
  (in_i64 z -> integer_of_token k w = Some (IOk z)) /\
  (~ in_i64 z -> exists e, integer_of_token k w = Some (IErr e) /\ e = if (z <? 0)%Z then INegOverflow else IPosOverflow).
Proof. exact integer_literals_proof. Qed.
Print Assumptions C12_integer_literals.

Lemma token_text seg source l t w : lex seg source = Some l -> In t (tokens l) -> number_token_kind (tkind t) = true ->
  slice source (tspan t) = Some w -> text_ok (tkind t) w.
Proof.
  intros HL Hin HK HS. destruct (lex_token_text seg source l t HL Hin) as (w' & E & HT).
  - intros E; rewrite E in HK; discriminate.
  - intros E; rewrite E in HK; discriminate.
  - congruence.
Qed.
Lemma integer_tokens_proof seg source l t w :
  lex seg source = Some l -> In t (tokens l) -> int_kind (tkind t) -> slice source (tspan t) = Some w ->
  exists r, integer_of_token (tkind t) w = Some r /\ r <> IPanic /\ (forall z, r = IOk z <-> int_literal (tkind t) w z /\ in_i64 z).
Proof.
  intros HL Hin HK HS.
  assert (HT : text_ok (tkind t) w).
  { eapply token_text; eauto. destruct HK as [->|[->|[->| ->]]]; reflexivity. }
  assert (HE : exists r, integer_of_token (tkind t) w = Some r) by (destruct HK as [->|[->|[->| ->]]]; eexists; reflexivity).
  destruct HE as (r & E). exists r. split; auto. split.
  - intros ->. exact (token_no_panic _ _ HK HT E).
  - intros z. split.
    + intros ->. apply token_converts_literal; auto.
    + intros [H1 H2]. apply (proj1 (integer_literals_proof _ _ _ H1)) in H2. congruence.
Qed.
(** Conversely: of whatever text the lexer makes an integer token, the conversion does not panic, and it
    succeeds only for the literals of TOML in range, with their value. *)
Theorem C12_integer_tokens : forall seg source l t w,
  lex seg source = Some l -> In t (tokens l) -> int_kind (tkind t) -> slice source (tspan t) = Some w ->
  exists r, integer_of_token (tkind t) w = Some r /\ r <> IPanic /\ (forall z, r = IOk z <-> int_literal (tkind t) w z /\ in_i64 z).
Proof. exact integer_tokens_proof. Qed.
Print Assumptions C12_integer_tokens.

(** [int_literal] covers the integers of the grammar. *)
Theorem C12_every_integer_has_a_value : forall k w, int_kind k -> (scalar k w <-> exists z, int_literal k w z).
Proof. exact (fun k w H => scalar_denotes k w H). Qed.
Print Assumptions C12_every_integer_has_a_value.

Example C12_example :
  int_literal INTEGER_DEC (lit "-9_223_372_036_854_775_808") (-9223372036854775808)%Z /\
  int_literal INTEGER_HEX (lit "0xdead_BEEF") 3735928559%Z /\
  int_literal INTEGER_DEC (lit "9223372036854775808") 9223372036854775808%Z.
Proof.
  repeat match goal with |- _ /\ _ => split end.
  - apply (IL_minus (lit "9_223_372_036_854_775_808")). apply full_match_spec. vm_compute. reflexivity.
  - apply (IL_hex (lit "dead_BEEF")). apply full_match_spec. vm_compute. reflexivity.
  - apply (IL_dec (lit "9223372036854775808")). apply full_match_spec. vm_compute. reflexivity.
Qed.
Example C12_token_example : exists l t, lex seg1 (lit "a = 0b|") = Some l /\ In t (tokens l) /\ int_kind (tkind t) /\
  slice (lit "a = 0b|") (tspan t) = Some (lit "0b|").
Proof.
  eexists; eexists; split; [vm_compute; reflexivity|]. split; [right; right; right; right; left; reflexivity|].
  split; [right; right; right; reflexivity|vm_compute; reflexivity].
Qed.

(** * C36 *)
(** FULL STATEMENT (false): the conversion of a float token succeeds exactly for the floats of TOML, with the
    value of the text without underscores.  Missing: [zero_upper_exponent], see [C36_float_refuted]. *)
Lemma float_tokens_proof F (parse : str -> option F) seg source l t w :
  parses_documented parse ->
  lex seg source = Some l -> In t (tokens l) -> tkind t = FLOAT -> slice source (tspan t) = Some w ->
  try_from_float parse w <> FPanic /\
  (forall f, try_from_float parse w = FOk f <-> scalar FLOAT w /\ ~ zero_upper_exponent w /\ parse (filter (fun c => negb (N.eqb c 95)) w) = Some f).
Proof.
  intros HP HL Hin HK HS.
  assert (HT : text_ok FLOAT w) by (rewrite <- HK; eapply token_text; eauto; rewrite HK; reflexivity).
  split.
  - assert (HU : forall r, w <> 95 :: r).
    { intros r ->. assert (HN : tkind t <> EOF) by (rewrite HK; discriminate).
      destruct (lex_token_from _ _ _ _ HL Hin HN) as (b & c1 & rr & c2 & u & H1 & H2 & H3 & H4 & H5 & H6 & H7).
      rewrite H7, H2, H5, slice_app in HS. inversion HS; subst u.
      destruct rr as [t0|e]; simpl in H4; subst t; [|discriminate].
      rewrite (underscore_start _ _ _ _ H5 H3) in HK. discriminate. }
    rewrite try_from_float_eq. pose proof (any_misplaced_no_panic w HU).
    destruct (any_misplaced w _) as [[|]|]; [discriminate| |contradiction]. destruct (rejected_zero w); [discriminate|].
    destruct (parse _); discriminate.
  - intros f. split; [apply float_token_converts; auto|]. intros (H1 & H2 & H3).
    destruct (float_literal_converts parse w HP H1 H2) as (f' & E & ->). unfold without_underscores in E. congruence.
Qed.
Theorem C36_float_tokens_partial : forall F (parse : str -> option F) seg source l t w,
  parses_documented parse ->
  lex seg source = Some l -> In t (tokens l) -> tkind t = FLOAT -> slice source (tspan t) = Some w ->
  try_from_float parse w <> FPanic /\
  (forall f, try_from_float parse w = FOk f <-> scalar FLOAT w /\ ~ zero_upper_exponent w /\ parse (filter (fun c => negb (N.eqb c 95)) w) = Some f).
Proof. exact float_tokens_proof. Qed.
Print Assumptions C36_float_tokens_partial.

(** The zero [0E5] is a float of TOML that is always rejected. *)
Theorem C36_float_refuted : exists w, scalar FLOAT w /\ forall F (parse : str -> option F), try_from_float parse w = FErr FLeadingZero.
Proof. exists (lit "0E5"). split; [apply S_float; apply full_match_spec; vm_compute; reflexivity|]. reflexivity. Qed.
Print Assumptions C36_float_refuted.

Example C36_example : exists parse : str -> option str, parses_documented parse /\
  exists l t, lex seg1 (lit "-3_0.1_4e-1") = Some l /\ In t (tokens l) /\ tkind t = FLOAT /\ slice (lit "-3_0.1_4e-1") (tspan t) = Some (lit "-3_0.1_4e-1") /\
  try_from_float parse (lit "-3_0.1_4e-1") = FOk (lit "-30.14e-1").
Proof.
  exists (fun s => if full_match rust_float s then Some s else None). split.
  - intros s. rewrite <- full_match_spec. destruct (full_match rust_float s); split; congruence.
  - eexists; eexists; split; [vm_compute; reflexivity|]. split; [left; reflexivity|]. repeat split; vm_compute; reflexivity.
Qed.

(** Booleans. *)
Theorem C36_booleans : forall seg source l t w,
  lex seg source = Some l -> In t (tokens l) -> tkind t = BOOLEAN -> slice source (tspan t) = Some w ->
  exists b : bool, try_from_boolean w = Some b /\ w = lit (if b then "true" else "false").
Proof.
  intros seg source l t w HL Hin HK HS. destruct (lex_token_text seg source l t HL Hin) as (w' & E & HT); try (rewrite HK; discriminate).
  assert (w' = w) by congruence. subst. rewrite HK in HT. destruct HT as [->| ->]; [exists true|exists false]; split; reflexivity.
Qed.
Print Assumptions C36_booleans.
