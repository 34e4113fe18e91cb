(** What text a token of each kind can have. *)
From Coq Require Import String Ascii List NArith Bool Arith Lia ZifyBool.
From Verif Require Import Base SyntaxKind TextModel Regex LexerModel LexerSpec LexerProofs TomlGrammar LexScalars.
Import ListNotations.
Open Scope N_scope.
Open Scope list_scope.

(** An optional sign before a text of the language. *)
Definition signed (L : str -> Prop) (w : str) : Prop :=
  exists sg u, w = sg ++ u /\ (sg = [] \/ sg = [43] \/ sg = [45]) /\ L u.

Definition quoted (q : str) (w : str) : Prop := exists u, w = q ++ u ++ q.

Definition no_break_start (s : str) : Prop := match s with [] => True | x :: _ => is_line_break x = false end.
(** What stands between the quotes of a basic string token: no quote that is not escaped; a line break
    can only come first or right after an escaped quote or backslash. *)
Inductive basic_inner : str -> Prop :=
| bi_nil : basic_inner []
| bi_plain x b : x <> 34 -> x <> 92 -> no_break_start b -> basic_inner b -> basic_inner (x :: b)
| bi_escape y b : y = 34 \/ y = 92 -> basic_inner b -> basic_inner (92 :: y :: b)
| bi_backslash y b : y <> 34 -> y <> 92 -> is_line_break y = false -> basic_inner (y :: b) -> basic_inner (92 :: y :: b).
Definition literal_inner (u : str) : Prop := ~ In 39 u /\ forallb (fun x => negb (is_line_break x)) (tl u) = true.

(** The texts accepted for each kind. *)
Definition text_ok (k : kind) (w : str) : Prop :=
  match k with
  | WHITESPACE => w <> [] /\ forallb is_whitespace w = true
  | COMMENT => exists u, w = 35 :: u /\ forallb (fun x => negb (is_line_break x)) u = true
  | LINE_BREAK => w = [10] \/ w = [13; 10]
  | INTEGER_DEC => signed (lang REGEX_INTEGER_DEC) w
  | INTEGER_BIN => signed (lang REGEX_INTEGER_BIN) w
  | INTEGER_OCT => signed (lang REGEX_INTEGER_OCT) w
  | INTEGER_HEX => signed (lang REGEX_INTEGER_HEX) w
  | FLOAT => signed (fun u => lang REGEX_FLOAT u \/ u = lit "inf" \/ u = lit "nan") w
  | BOOLEAN => w = lit "true" \/ w = lit "false"
  | OFFSET_DATE_TIME => lang REGEX_OFFSET_DATE_TIME w
  | LOCAL_DATE_TIME => lang REGEX_LOCAL_DATE_TIME w
  | LOCAL_DATE => lang REGEX_LOCAL_DATE w
  | LOCAL_TIME => lang REGEX_LOCAL_TIME w
  | BASIC_STRING => exists u, w = [34] ++ u ++ [34] /\ basic_inner u
  | LITERAL_STRING => exists u, w = [39] ++ u ++ [39] /\ literal_inner u
  | MULTI_LINE_BASIC_STRING => quoted [34; 34; 34] w
  | MULTI_LINE_LITERAL_STRING => quoted [39; 39; 39] w
  | BARE_KEY => exists x u, w = x :: u /\
      (is_word_start x || is_ascii_digit x || N.eqb x 45) && forallb is_key_char u = true
  | BRACE_START => w = [123] | BRACE_END => w = [125]
  | BRACKET_START => w = [91] | BRACKET_END => w = [93]
  | COMMA => w = [44] | DOT => w = [46] | EQUAL => w = [61]
  | _ => False
  end.

Definition sound (c0 : cursor) (res : lex_result * cursor) : Prop :=
  forall t, fst res = inl t -> exists w, rest c0 = w ++ rest (snd res) /\ text_ok (tkind t) w.

Lemma sound_ok c0 w c k : adv c0 w c -> text_ok k w -> sound c0 (ok k c).
Proof. intros H1 H2 t Ht. simpl in *. inversion Ht; subst. exists w. split; auto. apply H1. Qed.
Lemma sound_err c0 e c : sound c0 (err e c).
Proof. intros t Ht. discriminate. Qed.

Lemma nz_ascii r w : chars_in r (fun c => c <? 128) -> lang r w -> len_bytes w = N.of_nat (length w).
Proof. intros H1 H2. apply plain_ascii_len, H1; auto. Qed.

Lemma adv_eat_match_full c u r :
  rest c = u ++ r -> forallb (fun c => c <? 128) (current c :: u) = true ->
  adv c u (eat_match (len_bytes (current c :: u)) c).
Proof.
  intros H HP. rewrite plain_ascii_len by auto. unfold eat_match.
  destruct u as [|y u].
  - simpl. apply adv_refl.
  - destruct (N.ltb_spec 1 (N.of_nat (length (current c :: y :: u)))); [|simpl length in *; lia].
    replace (N.to_nat (N.of_nat (length (current c :: y :: u)) - 1)) with (length (y :: u)) by (simpl length; lia).
    pose proof (adv_eat_n_firstn (length (y :: u)) c) as HA.
    rewrite H, firstn_app, firstn_all, Nat.sub_diag, app_nil_r in HA. exact HA.
Qed.

(** [adv] up to and including the current character. *)
Definition at_char (c0 : cursor) (p : str) (c : cursor) : Prop := adv c0 (p ++ [current c]) c.

Lemma at_char_step c0 p c u c' : at_char c0 p c -> adv c u c' -> adv c0 (p ++ current c :: u) c'.
Proof. intros H1 H2. pose proof (adv_trans _ _ _ _ _ H1 H2) as H. rewrite <- app_assoc in H. exact H. Qed.

Ltac ascii_of r := let H := fresh in assert (H : chars_in r (fun c => c <? 128)); [|exact H].

Lemma asc_float : chars_in REGEX_FLOAT (fun c => c <? 128).
Proof. unfold REGEX_FLOAT, colon_opt, RPlus, ROpt, RChr. ci. Qed.
Lemma asc_bin : chars_in REGEX_INTEGER_BIN (fun c => c <? 128).
Proof. unfold REGEX_INTEGER_BIN, colon_opt, opt_us, RPlus, ROpt, RChr. ci. Qed.
Lemma asc_oct : chars_in REGEX_INTEGER_OCT (fun c => c <? 128).
Proof. unfold REGEX_INTEGER_OCT, colon_opt, opt_us, RPlus, ROpt, RChr. ci. Qed.
Lemma asc_hex : chars_in REGEX_INTEGER_HEX (fun c => c <? 128).
Proof. unfold REGEX_INTEGER_HEX, colon_opt, opt_us, RPlus, ROpt, RChr. ci. Qed.
Lemma asc_dec : chars_in REGEX_INTEGER_DEC (fun c => c <? 128).
Proof. unfold REGEX_INTEGER_DEC, colon_opt, opt_us, RPlus, ROpt, RChr. ci. Qed.
Lemma asc_date : chars_in r_date (fun c => c <? 128).
Proof. unfold r_date, RRep, RChr. ci. Qed.
Lemma asc_time : chars_in r_time (fun c => c <? 128).
Proof. unfold r_time, RRep, RPlus, ROpt, RChr. ci. Qed.
Lemma asc_offset : chars_in r_offset (fun c => c <? 128).
Proof. unfold r_offset, RRep, RPlus, ROpt, RChr. ci. Qed.
Lemma asc_odt : chars_in REGEX_OFFSET_DATE_TIME (fun c => c <? 128).
Proof. apply ci_seq; [apply asc_date|apply ci_seq; [apply ci_cls; cls|apply ci_seq; [apply asc_time|apply asc_offset]]]. Qed.
Lemma asc_ldt : chars_in REGEX_LOCAL_DATE_TIME (fun c => c <? 128).
Proof. apply ci_seq; [apply asc_date|apply ci_seq; [apply ci_cls; cls|apply asc_time]]. Qed.

Lemma number_sound c0 sg c :
  at_char c0 sg c -> (sg = [] \/ sg = [43] \/ sg = [45]) -> sound c0 (number c).
Proof.
  intros HA Hs. unfold number. set (line := peek_with_current_while _ c).
  set (u := take_while (fun x => negb (is_token_separator x)) (rest c)).
  assert (HR : rest c = u ++ drop_while (fun x => negb (is_token_separator x)) (rest c)) by (symmetry; apply take_drop_while).
  assert (HB : forall k r, chars_in r (fun c => c <? 128) -> full_match r line = true ->
    (forall w, signed (lang r) w -> text_ok k w) -> sound c0 (number_branch k (len_bytes line) c)).
  { intros k r Hr Hm Hk. apply full_match_spec in Hm. unfold number_branch.
    destruct (is_token_separator_with_dot _); [|unfold number_fail; apply sound_err].
    eapply sound_ok.
    - eapply at_char_step; [exact HA|]. eapply adv_eat_match_full; [exact HR|]. apply Hr. exact Hm.
    - apply Hk. exists sg, line. auto. }
  unfold find_end.
  destruct (full_match REGEX_FLOAT line) eqn:E1.
  { eapply HB; eauto using asc_float. intros w (s & v & -> & Hv & HL). exists s, v. auto. }
  destruct (full_match REGEX_INTEGER_BIN line) eqn:E2; [eapply HB; eauto using asc_bin|].
  destruct (full_match REGEX_INTEGER_OCT line) eqn:E3; [eapply HB; eauto using asc_oct|].
  destruct (full_match REGEX_INTEGER_HEX line) eqn:E4; [eapply HB; eauto using asc_hex|].
  destruct (full_match REGEX_INTEGER_DEC line) eqn:E5; [eapply HB; eauto using asc_dec|].
  apply sound_err.
Qed.

Lemma time_sound c0 c : at_char c0 [] c -> sound c0 (time c).
Proof.
  intros HA. unfold time, find_end. set (line := peek_with_current_while _ c).
  destruct (full_match REGEX_LOCAL_TIME line) eqn:E; [|apply sound_err]. apply full_match_spec in E.
  eapply sound_ok.
  - eapply at_char_step; [exact HA|]. eapply adv_eat_match_full.
    + symmetry; apply (take_drop_while (fun x => negb (is_token_separator x))).
    + apply asc_time. exact E.
  - exact E.
Qed.

Lemma date_time_line_prefix i r : exists s, r = date_time_line i r ++ s.
Proof.
  revert i; induction r as [|x r IH]; intros i; simpl; [exists []; reflexivity|].
  destruct (_ || _); [|exists (x :: r); reflexivity]. destruct (IH (S i)) as [s Hs].
  exists s. simpl. f_equal. exact Hs.
Qed.

Lemma date_time_sound c0 c : at_char c0 [] c -> sound c0 (date_time c).
Proof.
  intros HA. unfold date_time, find_end. set (u := date_time_line 0 (rest c)).
  destruct (date_time_line_prefix 0 (rest c)) as [s HR]. fold u in HR.
  destruct (full_match REGEX_OFFSET_DATE_TIME _) eqn:E1.
  { apply full_match_spec in E1. destruct (is_token_separator_with_dot _); [|unfold date_time_fail; apply sound_err].
    eapply sound_ok; [eapply at_char_step; [exact HA|eapply adv_eat_match_full; [exact HR|apply asc_odt; exact E1]]|exact E1]. }
  destruct (full_match REGEX_LOCAL_DATE_TIME _) eqn:E2.
  { apply full_match_spec in E2. destruct (is_token_separator_with_dot _); [|unfold date_time_fail; apply sound_err].
    eapply sound_ok; [eapply at_char_step; [exact HA|eapply adv_eat_match_full; [exact HR|apply asc_ldt; exact E2]]|exact E2]. }
  destruct (full_match REGEX_LOCAL_DATE _) eqn:E3.
  { apply full_match_spec in E3. destruct (is_token_separator_with_dot _); [|unfold date_time_fail; apply sound_err].
    cbn [firstn] in E3 |- *.
    eapply sound_ok.
    - eapply at_char_step; [exact HA|]. eapply adv_eat_match_full; [|apply asc_date; exact E3].
      rewrite HR at 1. rewrite <- (firstn_skipn 9 u) at 1. rewrite <- app_assoc. reflexivity.
    - exact E3. }
  unfold date_time_fail. apply sound_err.
Qed.

Lemma key_sound c0 p c :
  at_char c0 p c ->
  (forall u, forallb is_key_char u = true -> text_ok BARE_KEY (p ++ current c :: u)) -> sound c0 (key c).
Proof.
  intros HA HK. unfold key. destruct (is_token_separator_with_dot _); [|apply sound_err].
  eapply sound_ok; [eapply at_char_step; [exact HA|apply adv_eat_while]|]. apply HK. apply take_while_all.
Qed.

(** * Strings *)
Lemma basic_loop_inner : forall n r c t, (length r <= n)%nat -> r = rest c -> fst (basic_string_loop r c) = inl t ->
  tkind t = BASIC_STRING /\ exists u, r = u ++ 34 :: rest (snd (basic_string_loop r c)) /\ basic_inner u.
Proof.
  induction n as [|n IH]; intros r c t Hn Er Ht.
  { destruct r; [|simpl in Hn; lia]. simpl in Ht. discriminate. }
  destruct r as [|x r]; [discriminate|]. cbn [basic_string_loop] in *.
  destruct (adv_bump_cons c x r (eq_sym Er)) as (HB & HR & HC).
  destruct (N.eqb_spec x c_dquote) as [->|N1].
  { simpl in Ht. inversion Ht; subst. split; [reflexivity|]. exists []. split; [|constructor]. reflexivity. }
  unfold c_dquote in N1.
  destruct (N.eqb x c_backslash && (N.eqb (peek 1 (bump c)) c_dquote || N.eqb (peek 1 (bump c)) c_backslash)) eqn:E.
  - destruct r as [|y r]; [discriminate|].
    destruct (adv_bump_cons (bump c) y r HR) as (HB2 & HR2 & HC2).
    destruct (IH r (bump (bump c)) t) as (K & u & Hu & HI); [simpl in Hn; lia|auto|exact Ht|].
    split; auto. unfold peek in E. rewrite HR in E. cbn [nth Nat.sub] in E. unfold c_backslash, c_dquote in E.
    assert (x = 92) by lia. clear HC. subst x. exists (92 :: y :: u). split; [rewrite Hu at 1; reflexivity|].
    apply bi_escape; auto. lia.
  - destruct (is_line_break (peek 1 (bump c))) eqn:EB; [discriminate|].
    destruct (IH r (bump c) t) as (K & u & Hu & HI); [simpl in Hn; lia|auto|exact Ht|].
    split; auto. exists (x :: u). split; [rewrite Hu at 1; reflexivity|].
    unfold peek in E, EB. rewrite HR in E, EB. cbn [Nat.sub] in E, EB. unfold c_dquote, c_backslash in E.
    destruct (N.eq_dec x 92) as [->|N2].
    + destruct u as [|y u]; rewrite Hu in E, EB; cbn [app nth] in E, EB; [simpl in E; discriminate|].
      apply bi_backslash; auto; intros ->; simpl in E; discriminate.
    + apply bi_plain; auto. destruct u as [|y u]; [exact I|]. rewrite Hu in EB. exact EB.
Qed.
Lemma basic_string_sound c0 c :
  adv c0 [34] c -> sound c0 (basic_string c).
Proof.
  intros HA t Ht. unfold basic_string in *.
  destruct (basic_loop_inner _ (rest c) c t (le_n _) eq_refl Ht) as (K & u & Hu & HI).
  exists ([34] ++ u ++ [34]). split.
  - rewrite (adv_rest _ _ _ HA). rewrite Hu at 1. cbn [app]. rewrite <- app_assoc. reflexivity.
  - rewrite K. exists u. auto.
Qed.

Lemma literal_loop_inner : forall r c t, r = rest c -> fst (literal_string_loop r c) = inl t ->
  tkind t = LITERAL_STRING /\ exists u, r = u ++ 39 :: rest (snd (literal_string_loop r c)) /\ literal_inner u.
Proof.
  induction r as [|x r IH]; intros c t Er Ht; [discriminate|]. cbn [literal_string_loop] in *.
  destruct (adv_bump_cons c x r (eq_sym Er)) as (HB & HR & HC).
  destruct (N.eqb_spec x c_squote) as [->|N1].
  { simpl in Ht. inversion Ht; subst. split; [reflexivity|]. exists []. split; [|split; [intros []|reflexivity]]. reflexivity. }
  destruct (is_line_break (peek 1 (bump c))) eqn:EB; [discriminate|].
  destruct (IH (bump c) t (eq_sym HR) Ht) as (K & u & Hu & H1 & H2).
  split; auto. exists (x :: u). split; [rewrite Hu at 1; reflexivity|]. split.
  - intros [->|Hin]; [apply N1; reflexivity|]. exact (H1 Hin).
  - cbn [tl]. destruct u as [|y u]; [reflexivity|]. cbn [forallb tl] in *. rewrite H2.
    unfold peek in EB. rewrite HR, Hu in EB. cbn [nth Nat.sub app] in EB. rewrite EB. reflexivity.
Qed.
Lemma literal_string_sound c0 c : adv c0 [39] c -> sound c0 (literal_string c).
Proof.
  intros HA t Ht. unfold literal_string in *.
  destruct (literal_loop_inner (rest c) c t eq_refl Ht) as (K & u & Hu & HI).
  exists ([39] ++ u ++ [39]). split.
  - rewrite (adv_rest _ _ _ HA). rewrite Hu at 1. cbn [app]. rewrite <- app_assoc. reflexivity.
  - rewrite K. exists u. auto.
Qed.

Lemma take_while_quotes q r : q <> 0 -> nth 0 r 0 = q -> nth 1 r 0 = q ->
  exists m, take_while (fun y => N.eqb y q) r = m ++ [q; q] /\ forallb (fun y => N.eqb y q) m = true.
Proof.
  intros Hq H0 H1. destruct r as [|a [|b r]]; simpl in H0, H1; try congruence. subst a b.
  simpl. rewrite N.eqb_refl. 
  set (v := take_while (fun y => N.eqb y q) r).
  assert (Hv : forallb (fun y => N.eqb y q) v = true) by apply take_while_all.
  exists v. split; auto. clearbody v. clear -Hv. 
  assert (E : v = repeat q (length v)).
  { induction v as [|y v IH]; simpl in *; auto. apply andb_true_iff in Hv as [H1 H2]. apply N.eqb_eq in H1. subst. f_equal. auto. }
  rewrite E. change (q :: q :: repeat q (length v)) with (repeat q (S (S (length v)))).
  change [q; q] with (repeat q 2). rewrite <- repeat_app. f_equal. lia.
Qed.

Lemma quotes_end q p m : forallb (fun y => N.eqb y q) m = true -> 
  exists u, p ++ [q] ++ m ++ [q; q] = p ++ u ++ [q; q; q].
Proof.
  intros Hm. assert (E : m = repeat q (length m)).
  { induction m as [|y m IH]; simpl in *; auto. apply andb_true_iff in Hm as [H1 H2]. apply N.eqb_eq in H1. subst. f_equal. auto. }
  exists m. f_equal. rewrite E. clear. induction (length m); simpl; auto. f_equal. exact IHn.
Qed.

Lemma ml_basic_sound c0 : forall r q p c,
  r = rest c -> adv c0 ([34;34;34] ++ p) c -> sound c0 (multi_line_basic_string_loop r q c).
Proof.
  induction r as [|x r IH]; intros q p c Er HA; simpl; [apply sound_err|].
  destruct (adv_bump_cons c x r (eq_sym Er)) as (HB & HR & HC).
  pose proof (adv_trans _ _ _ _ _ HA HB) as HA1. rewrite <- app_assoc in HA1.
  rewrite HC.
  destruct (negb q && N.eqb x c_dquote && N.eqb (peek 1 (bump c)) c_dquote && N.eqb (peek 2 (bump c)) c_dquote) eqn:E.
  - destruct (4 <? _); [apply sound_err|].
    apply andb_true_iff in E as [E E3]. apply andb_true_iff in E as [E E2]. apply andb_true_iff in E as [E0 E1].
    apply N.eqb_eq in E1, E2, E3. subst x. unfold peek in E2, E3.
    destruct (take_while_quotes c_dquote (rest (bump c))) as (m & Hm & Hm2); [discriminate|exact E2|exact E3|].
    eapply sound_ok; [eapply adv_trans; [exact HA1|apply adv_eat_while]|].
    rewrite Hm. destruct (quotes_end c_dquote ([34;34;34] ++ p) m Hm2) as (u & Hu).
    exists (p ++ u). rewrite <- !app_assoc in *. rewrite E1. exact Hu.
  - match goal with |- sound _ (if ?b then _ else _) => destruct b end;
    (eapply IH with (p := p ++ [x]); [symmetry; auto|exact HA1]).
Qed.
Lemma ml_literal_sound c0 : forall r p c,
  r = rest c -> adv c0 ([39;39;39] ++ p) c -> sound c0 (multi_line_literal_string_loop r c).
Proof.
  induction r as [|x r IH]; intros p c Er HA; simpl; [apply sound_err|].
  destruct (adv_bump_cons c x r (eq_sym Er)) as (HB & HR & HC).
  pose proof (adv_trans _ _ _ _ _ HA HB) as HA1. rewrite <- app_assoc in HA1.
  rewrite HC.
  destruct (N.eqb x c_squote && N.eqb (peek 1 (bump c)) c_squote && N.eqb (peek 2 (bump c)) c_squote) eqn:E.
  - destruct (4 <? _); [apply sound_err|].
    apply andb_true_iff in E as [E E3]. apply andb_true_iff in E as [E1 E2].
    apply N.eqb_eq in E1, E2, E3. subst x. unfold peek in E2, E3.
    destruct (take_while_quotes c_squote (rest (bump c))) as (m & Hm & Hm2); [discriminate|exact E2|exact E3|].
    eapply sound_ok; [eapply adv_trans; [exact HA1|apply adv_eat_while]|].
    rewrite Hm. destruct (quotes_end c_squote ([39;39;39] ++ p) m Hm2) as (u & Hu).
    exists (p ++ u). rewrite <- !app_assoc in *. rewrite E1. exact Hu.
  - eapply IH with (p := p ++ [x]); [symmetry; auto|exact HA1].
Qed.

Lemma matches3 q c : q <> 0 -> matches_str [q; q; q] c = true -> current c = q /\ exists r, rest c = q :: q :: r.
Proof.
  intros Hq H. unfold matches_str in H. simpl in H. apply andb_true_iff in H as [H1 H2]. apply N.eqb_eq in H1.
  split; auto. unfold peek in H2. simpl in H2.
  destruct (N.eqb_spec (nth 0 (rest c) EOF_CHAR) q) as [E1|]; [|discriminate].
  destruct (N.eqb_spec (nth 1 (rest c) EOF_CHAR) q) as [E2|]; [|discriminate].
  destruct (rest c) as [|a [|b r]]; simpl in *; unfold EOF_CHAR in *; try congruence. subst. eauto.
Qed.

Lemma keyword3 a b d c : a <> 0 -> b <> 0 -> d <> 0 -> is_keyword [a; b; d] c = true -> current c = a /\ exists r, rest c = b :: d :: r.
Proof.
  intros Ha Hb Hd H. unfold is_keyword in H. apply andb_true_iff in H as [H _]. unfold matches_str in H. simpl in H.
  apply andb_true_iff in H as [H1 H2]. apply N.eqb_eq in H1. split; auto. unfold peek in H2. simpl in H2.
  destruct (N.eqb_spec (nth 0 (rest c) EOF_CHAR) b) as [E1|]; [|discriminate].
  destruct (N.eqb_spec (nth 1 (rest c) EOF_CHAR) d) as [E2|]; [|discriminate].
  destruct (rest c) as [|x [|y r]]; simpl in *; unfold EOF_CHAR in *; try congruence. subst. eauto.
Qed.
Lemma keyword_true c : is_keyword (lit "true") c = true -> current c = 116 /\ exists r, rest c = 114 :: 117 :: 101 :: r.
Proof.
  intros H. unfold is_keyword in H. apply andb_true_iff in H as [H _]. unfold matches_str in H. simpl in H.
  apply andb_true_iff in H as [H1 H2]. apply N.eqb_eq in H1. split; auto. unfold peek in H2. simpl in H2.
  destruct (rest c) as [|x [|y [|z r]]]; simpl in *; try discriminate; 
  repeat match type of H2 with (if N.eqb ?a ?b then _ else _) = _ => destruct (N.eqb_spec a b); [|discriminate] end;
  try discriminate. subst. eauto.
Qed.
Lemma keyword_false c : is_keyword (lit "false") c = true -> current c = 102 /\ exists r, rest c = 97 :: 108 :: 115 :: 101 :: r.
Proof.
  intros H. unfold is_keyword in H. apply andb_true_iff in H as [H _]. unfold matches_str in H. simpl in H.
  apply andb_true_iff in H as [H1 H2]. apply N.eqb_eq in H1. split; auto. unfold peek in H2. simpl in H2.
  destruct (rest c) as [|x [|y [|z [|t r]]]]; simpl in *; try discriminate; 
  repeat match type of H2 with (if N.eqb ?a ?b then _ else _) = _ => destruct (N.eqb_spec a b); [|discriminate] end;
  try discriminate. subst. eauto.
Qed.

Lemma adv_eat_n_list c l r : rest c = l ++ r -> adv c l (eat_n (length l) c).
Proof.
  intros H. pose proof (adv_eat_n_firstn (length l) c) as HA.
  rewrite H, firstn_app, firstn_all, Nat.sub_diag, app_nil_r in HA. exact HA.
Qed.

Lemma advance_sound c res : advance_token c = Some res -> sound c res.
Proof.
  unfold advance_token. destruct (rest c) as [|x r] eqn:E0; [discriminate|].
  destruct (adv_bump_cons c x r E0) as (HB & HR & HC). cbv zeta. rewrite HC.
  assert (HA : at_char c [] (bump c)) by (unfold at_char; rewrite HC; exact HB).
  intros H. injection H as <-.
  destruct (is_whitespace x) eqn:E.
  { unfold whitespace. eapply sound_ok; [eapply at_char_step; [exact HA|apply adv_eat_while]|].
    rewrite HC. split; [discriminate|]. simpl. rewrite E. apply take_while_all. }
  clear E. destruct (is_line_break x) eqn:E.
  { unfold line_break. rewrite HC. destruct (N.eqb_spec x c_cr) as [->|N1].
    - destruct (N.eqb_spec (peek 1 (bump c)) c_nl) as [E1|]; [|apply sound_err].
      unfold peek in E1. simpl in E1.
      destruct (rest (bump c)) as [|y r'] eqn:ER; [discriminate|]. simpl in E1. subst y.
      eapply sound_ok; [eapply adv_trans; [eapply at_char_step; [exact HA|]|apply adv_set_ending]|].
      + apply (adv_eat_n_list _ [c_nl] r'). exact ER.
      + rewrite HC. right. reflexivity.
    - eapply sound_ok; [eapply at_char_step; [exact HA|apply adv_refl]|]. rewrite HC. left.
      unfold is_line_break in E. apply orb_true_iff in E as [E|E]; apply N.eqb_eq in E; [contradiction|]. rewrite E. reflexivity. }
  clear E. destruct (N.eqb_spec x c_hash) as [->|_].
  { unfold line_comment. eapply sound_ok; [eapply at_char_step; [exact HA|apply adv_eat_while]|].
    rewrite HC. eexists. split; [reflexivity|]. 
    eapply forallb_impl; [|apply take_while_all]. intros y. unfold is_line_break. rewrite (orb_comm (N.eqb y c_cr)). auto. }
  destruct (N.eqb_spec x c_dquote) as [->|_].
  { match goal with |- sound _ (if ?b then _ else _) => destruct b eqn:EM end.
    - apply matches3 in EM as (_ & r' & ER); [|discriminate]. unfold multi_line_basic_string.
      eapply ml_basic_sound with (p := []); [reflexivity|].
      change ([34;34;34] ++ []) with ([] ++ 34 :: [34;34]).
      pose proof (at_char_step _ _ _ [34;34] (eat_n 2 (bump c)) HA (adv_eat_n_list _ [34;34] r' ER)) as K.
      rewrite HC in K. exact K.
    - apply basic_string_sound.
      unfold at_char in HA. rewrite HC in HA. exact HA. }
  destruct (is_ascii_digit x) eqn:ED.
  { match goal with |- sound _ (if ?b then _ else _) => destruct b end; [apply date_time_sound; auto|].
    match goal with |- sound _ (if ?b then _ else _) => destruct b end; [apply time_sound; auto|].
    match goal with |- sound _ (if ?b then _ else _) => destruct b end.
    - eapply number_sound; eauto.
    - eapply key_sound; [exact HA|]. intros u Hu. rewrite HC. exists x, u. split; [reflexivity|].
      rewrite ED, Hu, orb_true_r. reflexivity. }
  destruct (N.eqb_spec x c_squote) as [->|_].
  { match goal with |- sound _ (if ?b then _ else _) => destruct b eqn:EM end.
    - apply matches3 in EM as (_ & r' & ER); [|discriminate]. unfold multi_line_literal_string.
      eapply ml_literal_sound with (p := []); [reflexivity|].
      pose proof (at_char_step _ _ _ [39;39] (eat_n 2 (bump c)) HA (adv_eat_n_list _ [39;39] r' ER)) as K.
      rewrite HC in K. exact K.
    - apply literal_string_sound.
      unfold at_char in HA. rewrite HC in HA. exact HA. }
  destruct (N.eqb_spec x c_plus) as [->|_].
  { destruct (rest (bump c)) as [|y r'] eqn:ER.
    - (* end of input after the sign *)
      assert (EB : current (bump (bump c)) = 0) by (unfold bump at 1; rewrite ER; reflexivity).
      assert (EI : is_keyword (lit "inf") (bump (bump c)) || is_keyword (lit "nan") (bump (bump c)) = false).
      { unfold is_keyword, matches_str. simpl. rewrite EB. reflexivity. }
      rewrite EI, EB. simpl. apply sound_err.
    - destruct (adv_bump_cons (bump c) y r' ER) as (HB2 & HR2 & HC2).
      assert (HA2 : at_char c [43] (bump (bump c))).
      { unfold at_char. pose proof (adv_trans _ _ _ _ _ HB HB2) as K. rewrite HC2. exact K. }
      destruct (is_keyword (lit "inf") _ || _) eqn:EK.
      + apply orb_true_iff in EK as [EK|EK]; apply keyword3 in EK as (Ea & r'' & ER3); try discriminate;
        (eapply sound_ok; [eapply at_char_step; [exact HA2|]|]);
        [apply (adv_eat_n_list _ [110;102] r''); exact ER3|rewrite Ea|apply (adv_eat_n_list _ [97;110] r''); exact ER3|rewrite Ea].
        * exists [43], (lit "inf"). auto.
        * exists [43], (lit "nan"). auto 6.
      + match goal with |- sound _ (if ?b then _ else _) => destruct b end; [eapply number_sound; eauto|apply sound_err]. }
  destruct (N.eqb_spec x c_minus) as [->|_].
  { match goal with |- sound _ (if ?b then _ else _) => destruct b eqn:EK end.
    - apply andb_true_iff in EK as [EK _].
      apply orb_true_iff in EK as [EK|EK]; apply str_eqb_eq in EK; unfold peeks in EK;
      (eapply sound_ok; [eapply at_char_step; [exact HA|apply (adv_eat_n_firstn 3)]|]); rewrite EK, HC.
      + exists [45], (lit "inf"). auto.
      + exists [45], (lit "nan"). auto 6.
    - match goal with |- sound _ (if ?b then _ else _) => destruct b eqn:ED2 end.
      + assert (exists y r', rest (bump c) = y :: r') as (y & r' & ER).
        { unfold peek in ED2. simpl in ED2. destruct (rest (bump c)); [discriminate|eauto]. }
        destruct (adv_bump_cons (bump c) y r' ER) as (HB2 & HR2 & HC2).
        assert (HA2 : at_char c [45] (bump (bump c))).
        { unfold at_char. pose proof (adv_trans _ _ _ _ _ HB HB2) as K. rewrite HC2. exact K. }
        match goal with |- sound _ (if ?b then _ else _) => destruct b end; [eapply number_sound; eauto|].
        eapply key_sound; [exact HA2|]. intros u Hu. rewrite HC2. exists 45, (y :: u). split; [reflexivity|].
        unfold peek in ED2. rewrite ER in ED2. cbn [nth Nat.sub] in ED2.
        assert (EK2 : is_key_char y = true) by (unfold is_key_char; unfold is_ascii_digit in ED2; rewrite ED2, !orb_true_r; reflexivity).
        cbn [forallb]. rewrite Hu, EK2, andb_true_r, orb_true_r. reflexivity.
      + eapply key_sound; [exact HA|]. intros u Hu. rewrite HC. exists 45, u. split; [reflexivity|].
        rewrite Hu. reflexivity. }
  Ltac punct HA HC := eapply sound_ok; [eapply at_char_step; [exact HA|apply adv_refl]|]; rewrite HC; reflexivity.
  destruct (N.eqb_spec x c_lbrace) as [->|_]; [punct HA HC|].
  destruct (N.eqb_spec x c_rbrace) as [->|_]; [punct HA HC|].
  destruct (N.eqb_spec x c_lbracket) as [->|_]; [punct HA HC|].
  destruct (N.eqb_spec x c_rbracket) as [->|_]; [punct HA HC|].
  destruct (N.eqb_spec x c_comma) as [->|_]; [punct HA HC|].
  destruct (N.eqb_spec x c_dot) as [->|_]; [punct HA HC|].
  destruct (N.eqb_spec x c_eq) as [->|_]; [punct HA HC|].
  destruct (is_word_start x) eqn:EW; [|apply sound_err].
  match goal with |- sound _ (if ?b then _ else _) => destruct b eqn:EK end.
  { apply orb_true_iff in EK as [EK|EK]; apply keyword3 in EK as (Ea & r'' & ER3); try discriminate;
    (eapply sound_ok; [eapply at_char_step; [exact HA|]|]);
    [apply (adv_eat_n_list _ [110;102] r''); exact ER3|rewrite Ea|apply (adv_eat_n_list _ [97;110] r''); exact ER3|rewrite Ea].
    - exists [], (lit "inf"). auto.
    - exists [], (lit "nan"). auto 6. }
  clear EK. match goal with |- sound _ (if ?b then _ else _) => destruct b eqn:EK end.
  { apply keyword_true in EK as (Ea & r'' & ER3).
    eapply sound_ok; [eapply at_char_step; [exact HA|apply (adv_eat_n_list _ [114;117;101] r''); exact ER3]|].
    rewrite Ea. left. reflexivity. }
  clear EK. match goal with |- sound _ (if ?b then _ else _) => destruct b eqn:EK end.
  { apply keyword_false in EK as (Ea & r'' & ER3).
    eapply sound_ok; [eapply at_char_step; [exact HA|apply (adv_eat_n_list _ [97;108;115;101] r''); exact ER3]|].
    rewrite Ea. right. reflexivity. }
  eapply key_sound; [exact HA|]. intros u Hu. rewrite HC. exists x, u. split; [reflexivity|].
  rewrite EW, Hu. reflexivity.
Qed.

(** * Tokens of a whole source *)
Lemma tokenize_from fuel : forall b c rs c',
  tokenize fuel c = Some (rs, c') -> at_pos b c ->
  forall r, In r rs -> exists b1 c1 c2, at_pos b1 c1 /\ b ++ rest c = b1 ++ rest c1 /\ advance_token c1 = Some (r, c2).
Proof.
  induction fuel as [|fuel IH]; intros b c rs c' H HP r Hr; [discriminate|]. simpl in H.
  destruct (advance_token c) as [[r0 c1]|] eqn:EA.
  2: { inversion H; subst. contradiction. }
  destruct (tokenize fuel c1) as [[rs1 c2]|] eqn:ET; [|discriminate]. inversion H; subst.
  destruct Hr as [<-|Hr].
  - exists b, c, c1. auto.
  - destruct (advance_token_lexes _ _ _ EA) as (x & w & HL).
    assert (HP1 : at_pos (b ++ x :: w) c1 /\ rest c = (x :: w) ++ rest c1).
    { destruct HL. destruct HP as (P1 & P2 & P3 & P4). cbn [snd fst] in *. split; auto.
      unfold at_pos. rewrite len_bytes_app, position_after_app. repeat split; try congruence. }
    destruct HP1 as [HP1 HR]. destruct (IH _ _ _ _ ET HP1 r Hr) as (b1 & ca & cb & K1 & K2 & K3).
    exists b1, ca, cb. split; auto. split; auto. rewrite <- K2, HR, <- app_assoc. reflexivity.
Qed.
