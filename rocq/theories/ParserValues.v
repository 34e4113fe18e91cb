(** Runs of the grammar functions, from values to whole documents. *)
From Coq Require Import String Ascii List NArith Bool Arith Lia.
From Verif Require Import Base SyntaxKind TextModel LexerModel LexerSpec LexerProofs ParserModel ParserInv ParserPrims ParserGrammar.
Import ListNotations.
Open Scope N_scope.
Open Scope list_scope.

Ltac node d H q A E := eapply runs_start with (din := d); [exact H|]; intros q A E.

(** * Values *)
Definition is_first (K : sks) : Prop := ts_contains TS_VALUE_FIRST (knth (peekK K) K) = true.
Definition is_first_key (K : sks) : Prop := is_key (knth (peekK K) K) = true.
Definition in_line (K : sks) : Prop := khd K <> LINE_BREAK /\ khd K <> EOF.

(** A value parser at nesting depth [d]. *)
Definition good (d : nat) (v : pst -> res pst) : Prop :=
  forall p, wf p -> p_depth p = d ->
    runs d p (v p) idp (fun _ K => in_line (K0 p) \/ is_first (K0 p) -> (length K < length (K0 p))%nat).

Lemma khd_ne K : khd K <> EOF -> K <> [].
Proof. intros H ->. apply H. reflexivity. Qed.
Lemma drop_tl_lt f K : khd (dropk f K) <> EOF -> (length (tl (dropk f K)) < length K)%nat.
Proof. intros H. pose proof (tl_lt _ (khd_ne _ H)). pose proof (dropk_le f K). lia. Qed.

Lemma parse_literal_runs d p : (d <= MAX_RECURSION_DEPTH)%nat -> wf p ->
  khd (dropk is_lc (K0 p)) <> EOF -> khd (dropk is_lc (K0 p)) <> TOMBSTONE -> weight (khd (dropk is_lc (K0 p))) = 0%nat ->
  runs d p (parse_literal_value p) idp (fun _ K => (length K < length (K0 p))%nat).
Proof.
  intros Hd HW H1 H2 H3. unfold parse_literal_value. node d HW p1 A1 E1.
  nb leading_comments_runs as p2 A2 E2. rewrite E1 in E2.
  assert (p_current p2 = khd (dropk is_lc (K0 p))) as EC by (unfold p_current; rewrite nth_kind_sig, E2; reflexivity).
  eapply runsN_bind; [apply p_bump_runs; auto; rewrite E2; exact H1|]. intros p3 A3 E3. unfold idp in *. rewrite E2 in E3.
  nb trailing_comment_runs as p4 A4 E4. rewrite EC. apply runsN_complete; auto; [rewrite H3; auto|].
  pose proof (after_len _ _ A4) as L. rewrite E3 in L. pose proof (drop_tl_lt _ _ H1). lia.
Qed.

Lemma invalid_value_loop_runs d fuel : (d <= MAX_RECURSION_DEPTH)%nat -> forall r p, wf p -> (length (K0 p) < fuel)%nat ->
  runs d p (invalid_value_loop fuel r p) snd (fun _ K => K = dropk (fun x => negb (ts_contains TS_COMMENT_OR_LINE_END x)) (K0 p)).
Proof.
  intros Hd. induction fuel as [|fuel IH]; intros r p HW HL; [lia|]. cbn [invalid_value_loop].
  rewrite at_ts_sig. destruct (ts_contains TS_COMMENT_OR_LINE_END (khd (K0 p))) eqn:EA.
  - apply runs_ret; auto. rewrite dropk_stop; auto. rewrite EA. reflexivity.
  - apply current_range_runs; auto. intros r'.
    change (invalid_value_loop fuel r' (bump_any p)) with (do q <- Done (bump_any p); invalid_value_loop fuel r' q).
    rb bump_any_runs as q A E.
    assert (khd (K0 p) <> EOF) as HE by (intros HE; rewrite HE in EA; discriminate).
    apply kind_eqb_neq in HE. rewrite HE in E. pose proof (tl_lt _ (sig_ne p HW)). eapply runs_mono; [apply IH; auto; rewrite E; lia|].
    intros a _ ->. rewrite E. rewrite <- dropk_go; auto; [apply sig_ne; auto|]. rewrite EA. reflexivity.
Qed.

Lemma parse_invalid_runs d p : (d <= MAX_RECURSION_DEPTH)%nat -> wf p ->
  runs d p (parse_invalid_value (peekK (K0 p)) p) idp (fun _ K => in_line (K0 p) -> (length K < length (K0 p))%nat).
Proof.
  intros Hd HW. unfold parse_invalid_value. node d HW p1 A1 E1.
  rewrite nth_at_sig by reflexivity. rewrite E1.
  pose proof (peekK_not_break (K0 p)) as HB. apply kind_eqb_neq in HB. rewrite HB, andb_false_r. clear HB. cbn [bind].
  apply current_range_runsN; auto. intros r.
  eapply runsN_bind; [apply invalid_value_loop_runs; auto; pose proof (sig_le (p_rest p1)); lia|].
  intros [r' p2] A2 E2. cbn [snd] in *. rewrite E1 in E2.
  change (runsN d d p p2 (do q <- Done (p_error ExpectedValue (range_add r r') p2); do q <- trailing_comment q; complete (length (p_events p)) INVALID_TOKEN q)
    (fun K => in_line (K0 p) -> (length K < length (K0 p))%nat)).
  nb p_error_runs as p3 A3 E3. nb trailing_comment_runs as p4 A4 E4. apply runsN_complete; auto; [discriminate|].
  intros [H1 H2]. rewrite E4, E3, E2. pose proof (sig_ne p HW) as HN.
  destruct (kind_eqb (khd (K0 p)) COMMENT) eqn:EC.
  - rewrite (dropk_stop _ (K0 p)) by (apply kind_eqb_eq in EC; rewrite EC; reflexivity).
    rewrite dropk_go; auto. pose proof (tl_lt _ HN). pose proof (dropk_le (fun x => kind_eqb x COMMENT) (tl (K0 p))). lia.
  - rewrite (dropk_go _ (K0 p)); auto.
    + pose proof (tl_lt _ HN). pose proof (dropk_le (fun x => negb (ts_contains TS_COMMENT_OR_LINE_END x)) (tl (K0 p))) as HX.
      pose proof (dropk_le (fun x => kind_eqb x COMMENT) (dropk (fun x => negb (ts_contains TS_COMMENT_OR_LINE_END x)) (tl (K0 p)))). lia.
    + apply negb_true_iff. cbn [ts_contains TS_COMMENT_OR_LINE_END existsb]. rewrite EC.
      apply kind_eqb_neq in H1. apply kind_eqb_neq in H2. rewrite H1, H2. reflexivity.
Qed.

Definition opens (k : kind) : bool := match k with BRACKET_START | BRACE_START => true | _ => false end.

Lemma skip_deep_runs d fuel : (d <= MAX_RECURSION_DEPTH)%nat -> forall r n p, wf p -> (length (K0 p) < fuel)%nat ->
  (1 <= n)%nat \/ opens (khd (K0 p)) = true ->
  runs d p (skip_deep_loop fuel r n p) snd (fun _ K => khd (K0 p) <> EOF -> (length K < length (K0 p))%nat).
Proof.
  intros Hd. induction fuel as [|fuel IH]; intros r n p HW HL HN; [lia|].
  assert (p_current p = khd (K0 p)) as EC by (unfold p_current; rewrite nth_kind_sig; reflexivity).
  assert (forall n' r', khd (K0 p) <> EOF -> (1 <= n')%nat ->
    runs d p (skip_deep_loop fuel r' n' (bump_any p)) snd (fun _ K => khd (K0 p) <> EOF -> (length K < length (K0 p))%nat)) as HG.
  { intros n' r' HE Hn. change (skip_deep_loop fuel r' n' (bump_any p)) with (do q <- Done (bump_any p); skip_deep_loop fuel r' n' q).
    rb bump_any_runs as q A E. apply kind_eqb_neq in HE. rewrite HE in E. pose proof (tl_lt _ (sig_ne p HW)).
    eapply runs_mono; [apply IH; auto; rewrite E; lia|]. intros a A2 _ _. pose proof (after_len _ _ A2) as HL2. rewrite E in HL2. lia. }
  cbn [skip_deep_loop].
  destruct (p_current p) eqn:EP; rewrite <- EC in *; cbn [opens] in HN.
  all: try (apply current_range_runs; auto; intros r'; apply HG; [discriminate|first [lia | destruct HN as [HN|HN]; [lia|discriminate]]]).
  all: try (apply runs_ret; auto; congruence).
  all: apply current_range_runs; auto; intros r'; destruct HN as [HN|HN]; [|discriminate HN];
    destruct n as [|[|n]]; [lia| |apply HG; [discriminate|lia]].
  all: change (Done (r', bump_any p)) with (do q <- Done (bump_any p); Done (r', q));
    rb bump_any_runs as q A E; apply runs_ret; auto; intros _; cbn [snd]; rewrite E, <- EC;
    cbn [kind_eqb]; apply tl_lt, sig_ne; auto.
Qed.

Lemma skip_too_deep_runs d p : (d <= MAX_RECURSION_DEPTH)%nat -> wf p -> opens (khd (dropk is_lc (K0 p))) = true ->
  runs d p (skip_too_deep_value p) idp (fun _ K => (length K < length (K0 p))%nat).
Proof.
  intros Hd HW HK. unfold skip_too_deep_value. node d HW p1 A1 E1.
  nb leading_comments_runs as p2 A2 E2. rewrite E1 in E2. apply current_range_runsN; auto. intros r.
  eapply runsN_bind; [apply skip_deep_runs; auto; [pose proof (sig_le (p_rest p2)); lia|right; rewrite E2; exact HK]|].
  intros [r' p3] A3 E3. cbn [snd] in *. rewrite E2 in E3.
  change (runsN d d p p3 (do q <- Done (p_error RecursionLimitExceeded (range_add r r') p3); do q <- trailing_comment q; complete (length (p_events p)) INVALID_TOKEN q)
    (fun K => (length K < length (K0 p))%nat)).
  nb p_error_runs as p4 A4 E4. nb trailing_comment_runs as p5 A5 E5. apply runsN_complete; auto; [discriminate|].
  pose proof (after_len _ _ A5) as L. rewrite E4 in L. pose proof (dropk_le is_lc (K0 p)).
  assert (length (K0 p3) < length (dropk is_lc (K0 p)))%nat; [|lia]. apply E3. intros E. rewrite E in HK. discriminate.
Qed.

Lemma parse_nested_runs d p inner : wf p -> p_depth p = d -> opens (khd (dropk is_lc (K0 p))) = true ->
  ((S d <= MAX_RECURSION_DEPTH)%nat -> forall q, wf q -> p_depth q = S d -> K0 q = K0 p ->
     runs d q (inner q) idp (fun _ K => (length K < length (K0 p))%nat)) ->
  runs d p (parse_nested inner p) idp (fun _ K => (length K < length (K0 p))%nat).
Proof.
  intros HW HD HO HI. unfold parse_nested. destruct (Nat.leb_spec MAX_RECURSION_DEPTH (p_depth p)) as [HL|HL].
  - apply skip_too_deep_runs; auto. rewrite <- HD. apply HW.
  - assert (wf (enter_nested p)) as HW2. { destruct HW. split; auto. }
    destruct (HI ltac:(lia) (enter_nested p) HW2) as (a & tr & H1 & H2 & H3 & H4 & H5); auto; [simpl; congruence|].
    rewrite H1. cbn [bind]. unfold idp in *. unfold exit_nested. rewrite (ext_depth _ _ _ H2). cbn [enter_nested p_depth].
    eexists _, tr. split; [reflexivity|]. destruct H2 as [e1 e2 e3 e4]. cbn [enter_nested p_src p_depth p_events p_tokens p_rest] in *.
    split; [split; auto|]. split; [destruct H3; split; auto; simpl; apply HW|]. split; [exact H4|exact H5].
Qed.

Lemma key_as_value_runs d p : (d <= MAX_RECURSION_DEPTH)%nat -> wf p -> khd (dropk is_lc (K0 p)) = BARE_KEY -> forall n,
  runs d p (key_as_value n p) idp (fun _ K => (length K < length (K0 p))%nat).
Proof.
  intros Hd HW HK n. unfold key_as_value.
  change (runs d p (do p0 <- Done (p_error ExpectedValue (nth_range n p) p); let (m, p0) := start p0 in
    do p <- leading_comments p0; do p <- keys_or_bomb p; do p <- trailing_comment p; complete m KEY_VALUE p)
    idp (fun _ K => (length K < length (K0 p))%nat)).
  rb p_error_runs as p1 A1 E1. assert (wf p1) as HW1 by auto. node d HW1 p2 A2 E2. rewrite E1 in E2.
  nb leading_comments_runs as p3 A3 E3. rewrite E2 in E3.
  eapply runsN_bind; [apply keys_or_bomb_runs; auto; rewrite E3, HK; reflexivity|]. intros p4 A4 E4. unfold idp in *.
  nb trailing_comment_runs as p5 A5 E5. apply runsN_complete; auto; [discriminate|].
  pose proof (after_len _ _ A5). rewrite E3 in E4. pose proof (dropk_le is_lc (K0 p)). lia.
Qed.

(** * Key-values *)
Lemma after_depth p q : after p q -> p_depth q = p_depth p.
Proof. intros (_ & D & _). exact D. Qed.

Lemma ts_line_end k : ts_contains TS_LINE_END k = false <-> k <> LINE_BREAK /\ k <> EOF.
Proof.
  cbn [ts_contains TS_LINE_END existsb]. rewrite orb_false_r, orb_false_iff, !kind_eqb_neq. reflexivity.
Qed.

Lemma key_value_runs d v p : (d <= MAX_RECURSION_DEPTH)%nat -> good d v -> wf p -> p_depth p = d ->
  runs d p (key_value v p) idp (fun _ K => in_line (K0 p) \/ is_first_key (K0 p) -> (length K < length (K0 p))%nat).
Proof.
  intros Hd HV HW HD. unfold key_value. node d HW p1 A1 E1.
  nb leading_comments_runs as p2 A2 E2. rewrite E1 in E2.
  nb keys_runs as p3 A3 E3.
  eapply runsN_let; [apply eat_runs; auto; discriminate|]. intros b p4 A4 E4. unfold eaten in E4.
  eapply runsN_bind with (st := idp) (Q := fun _ K => K = K0 p4).
  { destruct (negb b); [|apply runs_ret; auto]. apply current_range_runs; auto. intros r. apply p_error_runs; auto. }
  intros p5 A5 E5. unfold idp in *.
  eapply runsN_bind with (st := idp) (Q := fun _ K => in_line (K0 p5) -> khd (K0 p5) <> COMMENT -> (length K < length (K0 p5))%nat).
  { rewrite at_ts_sig. destruct (ts_contains TS_LINE_END (khd (K0 p5))) eqn:EL.
    - assert (~ in_line (K0 p5)) as HN. { intros [H1 H2]. rewrite (proj2 (ts_line_end _)) in EL; [discriminate|auto]. }
      eapply runs_bind; [unfold invalid_token; apply runs_start with (din := d) (Q := fun _ => True); auto; intros q B F; apply runsN_complete; auto; discriminate|].
      intros q B F. unfold idp in *. apply current_range_runs; auto. intros r.
      eapply runs_mono; [apply p_error_runs; auto|]. intros; contradiction.
    - unfold at_. rewrite nth_at_sig by reflexivity. fold (khd (K0 p5)). destruct (kind_eqb (khd (K0 p5)) COMMENT) eqn:EC.
      + eapply runs_bind; [unfold invalid_token; apply runs_start with (din := d) (Q := fun _ => True); auto; intros q B F; apply runsN_complete; auto; discriminate|].
        intros q B F. unfold idp in *. eapply runs_mono; [apply p_error_runs; auto|].
        intros a C F2 _ HC. apply kind_eqb_eq in EC. contradiction.
      + eapply runs_mono; [apply HV; auto|].
        * rewrite (after_depth _ _ A5), (after_depth _ _ A4), (after_depth _ _ A3), (after_depth _ _ A2), (after_depth _ _ A1). exact HD.
        * intros a C F HI _. apply F. left. exact HI. }
  intros p6 A6 E6. unfold idp in *. nb trailing_comment_runs as p7 A7 E7. apply runsN_complete; auto; [discriminate|].
  intros HI.
  pose proof (after_len _ _ A7) as L7. pose proof (after_len _ _ A6) as L6. pose proof (after_len _ _ A5) as L5.
  pose proof (after_len _ _ A4) as L4. pose proof (after_len _ _ A3) as L3. pose proof (dropk_le is_lc (K0 p)) as L2. rewrite <- E2 in L2.
  destruct (Nat.lt_ge_cases (length (K0 p7)) (length (K0 p))) as [HX|HX]; [exact HX|exfalso].
  assert (K0 p3 = K0 p2) as F3 by (apply after_eq; auto; lia).
  assert (K0 p4 = K0 p3) as F4 by (apply after_eq; auto; lia).
  assert (is_key (khd (K0 p2)) = false) as HK.
  { destruct (is_key (khd (K0 p2))); [|reflexivity]. specialize (E3 eq_refl). lia. }
  assert (dropk is_lc (K0 p) = K0 p) as FD.
  { destruct (is_lc (khd (K0 p))) eqn:EL; [|apply dropk_stop; auto]. exfalso.
    pose proof (sig_ne p HW) as HN. pose proof (dropk_go is_lc _ HN EL) as G. pose proof (tl_lt _ HN).
    pose proof (dropk_le is_lc (tl (K0 p))). rewrite G in E2. rewrite E2 in *. lia. }
  rewrite FD in E2. rewrite E5, F4, F3, E2 in *.
  assert (in_line (K0 p)) as HI2.
  { destruct HI as [HI|HI]; [exact HI|]. unfold is_first_key in HI.
    pose proof (khd_drop_peek (K0 p)) as HP. rewrite FD in HP. rewrite HP in HK; [congruence|].
    destruct (knth (peekK (K0 p)) (K0 p)); try reflexivity; discriminate. }
  assert (length (K0 p6) < length (K0 p))%nat; [|lia]. apply E6; auto. intros HC.
  assert (is_lc (khd (K0 p)) = true) as HC2 by (rewrite HC; reflexivity).
  pose proof (dropk_go is_lc _ (sig_ne p HW) HC2) as G. pose proof (tl_lt _ (sig_ne p HW)).
  pose proof (dropk_le is_lc (tl (K0 p))). rewrite FD in G. apply (f_equal (@length _)) in G. lia.
Qed.

(** * Groups *)
Lemma not_separator q : in_line (K0 q) -> is_group_separator q = false.
Proof.
  intros H. unfold is_group_separator. rewrite at_ts_sig. rewrite (proj2 (ts_line_end _)); [reflexivity|exact H].
Qed.

Lemma comma_at n p : n = peekK (K0 p) -> nth_at n COMMA p = true -> khd (dropk is_lc (K0 p)) = COMMA.
Proof.
  intros -> H. rewrite nth_at_sig in H by reflexivity. apply kind_eqb_eq in H. rewrite khd_drop_peek; [exact H|].
  rewrite H. reflexivity.
Qed.

Lemma vwcg_runs d v p : (d <= MAX_RECURSION_DEPTH)%nat -> good d v -> wf p -> p_depth p = d -> in_line (K0 p) ->
  runs d p (value_with_comma_group v p) idp (fun _ K => (length K < length (K0 p))%nat).
Proof.
  intros Hd HV HW HD HI. unfold value_with_comma_group. node d HW p1 A1 E1.
  set (L := length (K0 p)).
  eapply runsN_bind with (st := idp).
  - apply loop_runs with (I := fun K => (in_line K /\ length K = L) \/ (is_first K /\ (length K < L)%nat))
      (Q := fun K => (length K < L)%nat); auto.
    2: { left. rewrite E1. auto. }
    intros q A HQ.
    destruct (is_group_separator q) eqn:ES.
    { apply runs_ret; auto. cbn [fst]. destruct HQ as [[H1 _]|[_ H2]]; [|exact H2].
      rewrite (not_separator q H1) in ES. discriminate. }
    assert (p_depth q = d) as HDq by (rewrite (after_depth _ _ A), (after_depth _ _ A1); exact HD).
    eapply runs_bind; [apply HV; auto|]. intros q1 B1 F1. unfold idp in *.
    assert (length (K0 q1) < length (K0 q))%nat as G1 by (apply F1; tauto). clear F1.
    assert (length (K0 q) <= L)%nat as GL by (destruct HQ as [[_ H]|[_ H]]; lia).
    rewrite peek_ok. cbn [bind]. 
    assert (forall q2, after q1 q2 -> runs d q2 (do n <- peek_leading_comments q2; if negb (nth_at_ts n TS_VALUE_FIRST q2) then break q2 else again q2)
      snd (fun a K => if fst a then (length K < length (K0 q))%nat /\ ((in_line K /\ length K = L) \/ (is_first K /\ (length K < L)%nat)) else (length K < L)%nat)) as HN.
    { intros q2 C. pose proof (after_len _ _ C). rewrite peek_ok. cbn [bind]. rewrite nth_at_ts_sig.
      destruct (ts_contains TS_VALUE_FIRST (knth (peekK (K0 q2)) (K0 q2))) eqn:EF; cbn [negb].
      - apply runs_ret; auto. cbn [fst snd]. split; [lia|]. right. split; [exact EF|lia].
      - apply runs_ret; auto. cbn [fst snd]. lia. }
    destruct (nth_at (peekK (K0 q1)) COMMA q1) eqn:EC.
    + eapply runs_bind; [apply comma_runs; auto; eapply comma_at; eauto|]. intros q2 C F. unfold idp in *. apply HN; auto.
    + destruct (nth_at_ts (peekK (K0 q1)) TS_ARRAY_END q1).
      * apply runs_ret; auto. cbn [fst snd]. lia.
      * pose proof (HN q1 (after_refl q1 (proj1 B1))) as HN'. rewrite peek_ok in HN'. exact HN'.
  - intros p2 A2 E2. unfold idp in *. apply runsN_complete; auto. discriminate.
Qed.

Lemma kvwcg_runs d v p : (d <= MAX_RECURSION_DEPTH)%nat -> good d v -> wf p -> p_depth p = d -> in_line (K0 p) ->
  runs d p (key_value_with_comma_group v p) idp (fun _ K => (length K < length (K0 p))%nat).
Proof.
  intros Hd HV HW HD HI. unfold key_value_with_comma_group. node d HW p1 A1 E1.
  set (L := length (K0 p)).
  eapply runsN_bind with (st := idp).
  - apply loop_runs with (I := fun K => (in_line K /\ length K = L) \/ (is_first_key K /\ (length K < L)%nat))
      (Q := fun K => (length K < L)%nat); auto.
    2: { left. rewrite E1. auto. }
    intros q A HQ.
    destruct (is_group_separator q) eqn:ES.
    { apply runs_ret; auto. cbn [fst]. destruct HQ as [[H1 _]|[_ H2]]; [|exact H2].
      rewrite (not_separator q H1) in ES. discriminate. }
    assert (p_depth q = d) as HDq by (rewrite (after_depth _ _ A), (after_depth _ _ A1); exact HD).
    eapply runs_bind; [apply key_value_runs; eauto|]. intros q1 B1 F1. unfold idp in *.
    assert (length (K0 q1) < length (K0 q))%nat as G1 by (apply F1; tauto). clear F1.
    assert (length (K0 q) <= L)%nat as GL by (destruct HQ as [[_ H]|[_ H]]; lia).
    rewrite peek_ok. cbn [bind]. 
    assert (forall q2, after q1 q2 -> runs d q2 (do n <- peek_leading_comments q2; if negb (nth_at_ts n TS_KEY_FIRST q2) then break q2 else again q2)
      snd (fun a K => if fst a then (length K < length (K0 q))%nat /\ ((in_line K /\ length K = L) \/ (is_first_key K /\ (length K < L)%nat)) else (length K < L)%nat)) as HN.
    { intros q2 C. pose proof (after_len _ _ C). rewrite peek_ok. cbn [bind]. rewrite nth_at_ts_sig.
      destruct (ts_contains TS_KEY_FIRST (knth (peekK (K0 q2)) (K0 q2))) eqn:EF; cbn [negb].
      - apply runs_ret; auto. cbn [fst snd]. split; [lia|]. right. split; [exact EF|lia].
      - apply runs_ret; auto. cbn [fst snd]. lia. }
    destruct (nth_at (peekK (K0 q1)) COMMA q1) eqn:EC.
    + eapply runs_bind; [apply comma_runs; auto; eapply comma_at; eauto|]. intros q2 C F. unfold idp in *. apply HN; auto.
    + destruct (nth_at_ts (peekK (K0 q1)) TS_INLINE_TABLE_END q1).
      * apply runs_ret; auto. cbn [fst snd]. lia.
      * pose proof (HN q1 (after_refl q1 (proj1 B1))) as HN'. rewrite peek_ok in HN'. exact HN'.
  - intros p2 A2 E2. unfold idp in *. apply runsN_complete; auto. discriminate.
Qed.

Lemma kvg_runs d v p : (d <= MAX_RECURSION_DEPTH)%nat -> good d v -> wf p -> p_depth p = d -> in_line (K0 p) ->
  runs d p (key_value_group v p) idp (fun _ K => (length K < length (K0 p))%nat).
Proof.
  intros Hd HV HW HD HI. unfold key_value_group. node d HW p1 A1 E1.
  set (L := length (K0 p)).
  eapply runsN_bind with (st := idp).
  - apply loop_runs with (I := fun K => (in_line K /\ length K = L) \/ (is_first_key K /\ (length K < L)%nat))
      (Q := fun K => (length K < L)%nat); auto.
    2: { left. rewrite E1. auto. }
    intros q A HQ.
    destruct (is_group_separator q) eqn:ES.
    { apply runs_ret; auto. cbn [fst]. destruct HQ as [[H1 _]|[_ H2]]; [|exact H2].
      rewrite (not_separator q H1) in ES. discriminate. }
    assert (p_depth q = d) as HDq by (rewrite (after_depth _ _ A), (after_depth _ _ A1); exact HD).
    eapply runs_bind; [apply key_value_runs; eauto|]. intros q1 B1 F1. unfold idp in *.
    assert (length (K0 q1) < length (K0 q))%nat as G1 by (apply F1; tauto). clear F1.
    assert (length (K0 q) <= L)%nat as GL by (destruct HQ as [[_ H]|[_ H]]; lia).
    rewrite peek_ok. cbn [bind].
    eapply runs_bind with (st := idp) (Q := fun _ _ => True).
    { destruct (nth_at (peekK (K0 q1)) COMMA q1) eqn:EC; [|apply runs_ret; auto].
      eapply runs_mono; [apply comma_runs; auto; eapply comma_at; eauto|]. auto. }
    intros q2 C _. unfold idp in *. pose proof (after_len _ _ C).
    destruct (negb (at_ LINE_BREAK q2)); [apply runs_ret; auto; cbn [fst snd]; lia|].
    rewrite peek_ok. cbn [bind]. rewrite nth_at_ts_sig.
    destruct (ts_contains TS_KEY_FIRST (knth (peekK (K0 q2)) (K0 q2))) eqn:EF; cbn [negb].
    + apply runs_ret; auto. cbn [fst snd]. split; [lia|]. right. split; [exact EF|lia].
    + apply runs_ret; auto. cbn [fst snd]. lia.
  - intros p2 A2 E2. unfold idp in *. apply runsN_complete; auto. discriminate.
Qed.

(** * Arrays and inline tables *)
Lemma settled_line K : settled K -> forall s, ts_contains s EOF = true -> ts_contains s (knth (peekK K) K) = false -> in_line K.
Proof.
  intros [H1 _] s Hs H. split; [exact H1|]. intros E. rewrite peekK_zero in H; [|exact H1|rewrite E; discriminate].
  change (knth 0 K) with (khd K) in H. rewrite E in H. congruence.
Qed.

Lemma bracketed_runs d p open close ends group e node :
  (S d <= MAX_RECURSION_DEPTH)%nat -> wf p -> p_depth p = S d -> khd (dropk is_lc (K0 p)) = open ->
  opens open = true -> plain_kind close = true -> close <> EOF -> ts_contains ends EOF = true ->
  node <> TOMBSTONE -> weight node = 1%nat ->
  (forall q, wf q -> p_depth q = S d -> in_line (K0 q) -> runs (S d) q (group q) idp (fun _ K => (length K < length (K0 q))%nat)) ->
  runs d p (bracketed open close ends group e node p) idp (fun _ K => (length K < length (K0 p))%nat).
Proof.
  intros Hd HW HD HK Ho Hc He Hs Hn Hw HG. unfold bracketed. eapply runs_start with (din := S d); [exact HW|]. intros p1 A1 E1.
  nb leading_comments_runs as p2 A2 E2. rewrite E1 in E2.
  assert (plain_kind open = true /\ open <> EOF) as [Ho1 Ho2] by (destruct open; try discriminate Ho; split; auto; discriminate).
  unfold at_. rewrite nth_at_sig by exact Ho1. fold (khd (K0 p2)). rewrite E2, HK, kind_eqb_refl. cbn [negb].
  eapply runsN_let; [apply eat_runs; auto|]. intros b p3 A3 E3. unfold eaten in E3.
  rewrite E2, HK, kind_eqb_refl in E3. destruct E3 as [_ E3].
  nb trailing_comment_runs as p4 A4 E4.
  assert (p_depth p4 = S d) as HD4 by (rewrite (after_depth _ _ A4), (after_depth _ _ A3), (after_depth _ _ A2), (after_depth _ _ A1); exact HD).
  eapply runsN_bind with (st := idp).
  { apply loop_runs with (I := fun _ => True) (Q := fun _ => True); auto.
    intros q A _. assert (p_depth q = S d) as HDq by (rewrite (after_depth _ _ A); exact HD4).
    rb while_eat_runs as q1 B1 F1. rb dangling_groups_runs as q2 B2 F2.
    rewrite peek_ok. cbn [bind]. rewrite nth_at_ts_sig. destruct (ts_contains ends (knth (peekK (K0 q2)) (K0 q2))) eqn:EE.
    - apply runs_ret; auto. cbn [fst]. exact I.
    - eapply runs_bind; [apply HG; auto|].
      + rewrite (after_depth _ _ B2), (after_depth _ _ B1). exact HDq.
      + eapply settled_line; eauto.
      + intros q3 B3 F3. unfold idp in *. apply runs_ret; auto. cbn [fst snd]. split; auto.
        pose proof (after_len _ _ B1). pose proof (after_len _ _ B2). lia. }
  intros p5 A5 _. unfold idp in *. 
  eapply runsN_let; [apply eat_runs; auto|]. intros b2 p6 A6 E6.
  eapply runsN_bind with (st := idp) (Q := fun _ K => K = K0 p6).
  { destruct (negb b2); [|apply runs_ret; auto]. apply current_range_runs; auto. intros r. apply p_error_runs; auto. }
  intros p7 A7 E7. unfold idp in *. nb trailing_comment_runs as p8 A8 E8. apply runsN_complete; auto; [rewrite Hw; lia|].
  pose proof (after_len _ _ A8). pose proof (after_len _ _ A7). pose proof (after_len _ _ A6). pose proof (after_len _ _ A5).
  pose proof (after_len _ _ A4) as L. rewrite E3 in L.
  assert (khd (dropk is_lc (K0 p)) <> EOF) as HX by (rewrite HK; exact Ho2). pose proof (drop_tl_lt _ _ HX). lia.
Qed.

(** * Values, at any depth *)
Lemma value_runs d stack : (d <= MAX_RECURSION_DEPTH)%nat -> (MAX_RECURSION_DEPTH < stack + d)%nat -> good d (value stack).
Proof.
  revert d. induction stack as [|stack IH]; intros d Hd HS; [lia|]. intros p HW HD. cbn [value].
  rewrite peek_ok. cbn [bind]. rewrite nth_kind_sig.
  pose proof (khd_drop_peek (K0 p)) as HP.
  destruct (knth (peekK (K0 p)) (K0 p)) eqn:EK.
  all: try (eapply runs_mono; [apply parse_literal_runs; auto; rewrite HP; auto; discriminate|auto]; fail).
  all: try (eapply runs_mono; [apply key_as_value_runs; auto; fail|auto]; fail).
  all: try (eapply runs_mono; [apply parse_invalid_runs; auto; fail|
    intros a A H [HI|HI]; [apply H; exact HI|unfold is_first in HI; rewrite EK in HI; discriminate]]; fail).
  - eapply runs_mono; [apply parse_nested_runs; auto; [rewrite HP; reflexivity|]|auto].
    intros Hd' q HWq HDq EQ. rewrite <- EQ. apply bracketed_runs; auto; try discriminate.
    + rewrite EQ. apply HP. reflexivity.
    + intros q2 HW2 HD2 HI. apply vwcg_runs; auto. apply IH; auto. lia.
  - eapply runs_mono; [apply parse_nested_runs; auto; [rewrite HP; reflexivity|]|auto].
    intros Hd' q HWq HDq EQ. rewrite <- EQ. apply bracketed_runs; auto; try discriminate.
    + rewrite EQ. apply HP. reflexivity.
    + intros q2 HW2 HD2 HI. apply kvwcg_runs; auto. apply IH; auto. lia.
Qed.

(** * Sections and the root *)
Definition at_section (K : sks) : Prop := settled K /\ ts_contains TS_NEXT_SECTION (knth (peekK K) K) = true.

Lemma section_lines_runs d v p : (d <= MAX_RECURSION_DEPTH)%nat -> good d v -> wf p -> p_depth p = d ->
  runs d p (section_lines v p) idp (fun _ => at_section).
Proof.
  intros Hd HV HW HD. unfold section_lines. apply loop_runs with (I := fun _ => True); auto.
  intros q A _. assert (p_depth q = d) as HDq by (rewrite (after_depth _ _ A); exact HD).
  rb while_eat_runs as q1 B1 F1. rb dangling_groups_runs as q2 B2 F2.
  rewrite peek_ok. cbn [bind]. rewrite nth_at_ts_sig.
  destruct (ts_contains TS_NEXT_SECTION (knth (peekK (K0 q2)) (K0 q2))) eqn:EE.
  - apply runs_ret; auto. cbn [fst]. split; auto.
  - eapply runs_bind; [apply (kvg_runs d v); auto|].
    + rewrite (after_depth _ _ B2), (after_depth _ _ B1). exact HDq.
    + eapply settled_line; eauto. reflexivity.
    + intros q3 B3 F3. unfold idp in *.
      eapply runs_bind with (st := idp) (Q := fun _ _ => True).
      { destruct (negb (at_ts TS_LINE_END q3)); [|apply runs_ret; auto].
        eapply runs_mono; [apply invalid_line_runs; auto|]. auto. }
      intros q4 B4 _. unfold idp in *. apply runs_ret; auto. cbn [fst snd]. split; auto.
      pose proof (after_len _ _ B1). pose proof (after_len _ _ B2). pose proof (after_len _ _ B4). lia.
Qed.

Lemma section_runs d v p open close e node : (d <= MAX_RECURSION_DEPTH)%nat -> good d v -> wf p -> p_depth p = d ->
  (open = BRACKET_START /\ close = BRACKET_END /\ khd (dropk is_lc (K0 p)) = BRACKET_START) \/
  (open = DOUBLE_BRACKET_START /\ close = DOUBLE_BRACKET_END /\ composite 0 BRACKET_START (dropk is_lc (K0 p)) = true) ->
  node <> TOMBSTONE -> weight node = 0%nat ->
  runs d p (section open close e node v p) idp (fun _ K => at_section K /\ (length K < length (K0 p))%nat).
Proof.
  intros Hd HV HW HD HO Hn Hw. unfold section. node d HW p1 A1 E1.
  nb leading_comments_runs as p2 A2 E2. rewrite E1 in E2.
  assert (at_ open p2 = true) as HA.
  { destruct HO as [(-> & _ & H)|(-> & _ & H)].
    - unfold at_. rewrite nth_at_sig by reflexivity. fold (khd (K0 p2)). rewrite E2, H. reflexivity.
    - change (at_ DOUBLE_BRACKET_START p2) with (at_composite2 0 BRACKET_START BRACKET_START p2).
      rewrite composite_sig, E2. exact H. }
  rewrite HA. cbn [negb].
  assert (khd (dropk is_lc (K0 p)) = BRACKET_START) as HK.
  { destruct HO as [(_ & _ & H)|(_ & _ & H)]; [exact H|]. unfold composite in H.
    apply andb_true_iff in H as [H _]. apply andb_true_iff in H as [H _]. apply kind_eqb_eq in H. exact H. }
  assert (khd (dropk is_lc (K0 p)) <> EOF) as HX by (rewrite HK; discriminate). pose proof (drop_tl_lt _ _ HX) as HT.
  eapply runsN_let with (Q := fun _ K => (length K < length (K0 p))%nat).
  { destruct HO as [(-> & _ & H)|(-> & _ & H)].
    - eapply runs_mono; [apply eat_runs; auto; discriminate|]. intros a A E. unfold eaten in E. rewrite E2, H in E.
      destruct E as [_ E]. rewrite E. exact HT.
    - eapply runs_mono; [apply eat_pair_runs; auto|]. intros a A E. cbn beta in E. rewrite E2, H in E. destruct E as [_ E].
      rewrite E. destruct (dropk is_lc (K0 p)) as [|x [|y l]]; cbn [skipn tl length] in *; lia. }
  intros b p3 A3 E3.
  nb keys_runs as p4 A4 E4.
  eapply runsN_let with (Q := fun _ _ => True).
  { destruct HO as [(_ & -> & _)|(_ & -> & _)].
    - eapply runs_mono; [apply eat_runs; auto; discriminate|]. auto.
    - eapply runs_mono; [apply eat_pair_runs; auto|]. auto. }
  intros b2 p5 A5 _.
  eapply runsN_bind with (st := idp) (Q := fun _ _ => True).
  { destruct (negb b2); [|apply runs_ret; auto]. eapply runs_mono; [apply invalid_line_runs; auto|]. auto. }
  intros p6 A6 _. unfold idp in *. nb trailing_comment_runs as p7 A7 E7.
  eapply runsN_bind with (st := idp) (Q := fun _ _ => True).
  { destruct (negb (at_ts TS_LINE_END p7)); [|apply runs_ret; auto]. eapply runs_mono; [apply invalid_line_runs; auto|]. auto. }
  intros p8 A8 _. unfold idp in *.
  eapply runsN_bind; [apply (section_lines_runs d v); auto|].
  { rewrite (after_depth _ _ A8), (after_depth _ _ A7), (after_depth _ _ A6), (after_depth _ _ A5), (after_depth _ _ A4),
      (after_depth _ _ A3), (after_depth _ _ A2), (after_depth _ _ A1). exact HD. }
  intros p9 A9 E9. unfold idp in *. apply runsN_complete; auto; [rewrite Hw; auto|]. split; [exact E9|].
  pose proof (after_len _ _ A9). pose proof (after_len _ _ A8). pose proof (after_len _ _ A7). pose proof (after_len _ _ A6).
  pose proof (after_len _ _ A5). pose proof (after_len _ _ A4). lia.
Qed.

Lemma knth_plain K n : wk K -> plain_kind (knth n K) = true.
Proof.
  intros (K' & j & -> & HF). unfold knth. destruct (Nat.lt_ge_cases n (length K')) as [H|H].
  - rewrite app_nth1 by exact H. rewrite Forall_forall in HF. apply HF. apply nth_In. exact H.
  - rewrite app_nth2 by exact H. destruct (n - length K')%nat as [|[|m]]; reflexivity.
Qed.

Lemma composite_drop n K : n = peekK K -> composite n BRACKET_START K = true -> composite 0 BRACKET_START (dropk is_lc K) = true.
Proof.
  intros -> H. assert (knth (peekK K) K = BRACKET_START) as E.
  { unfold composite in H. apply andb_true_iff in H as [H _]. apply andb_true_iff in H as [H _]. apply kind_eqb_eq in H. exact H. }
  rewrite peekK_drop by (rewrite E; reflexivity). unfold composite in *. rewrite !knth_skipn, Nat.add_0_r.
  rewrite nth_skipn. change (skipn 0 (skipn (peekK K) K)) with (skipn (peekK K) K). rewrite nth_skipn in H.
  rewrite Nat.add_0_l. exact H.
Qed.

Lemma root_runs v p : good 0 v -> wf p -> p_depth p = 0%nat ->
  exists tr p', root v p = Done p' /\ ext p [PNd ROOT tr] p' /\ tree_ok 0 (PNd ROOT tr) /\ exists j, K0 p' = [(EOF, j)].
Proof.
  intros HV HW HD.
  assert (runs 0 (snd (start p)) (do p <- section_lines v (snd (start p));
     loop (fun p =>
    do p <- while_eat LINE_BREAK p;
    do n <- peek_leading_comments p;
    if nth_at n EOF p then break p
    else if nth_at n DOUBLE_BRACKET_START p then do p <- array_of_table v p; again p
    else if nth_at n BRACKET_START p then do p <- table v p; again p
    else do p <- unknown_line p; again p) p) idp (fun _ K => exists j, K = [(EOF, j)])) as HR.
  { assert (wf (snd (start p))) as HW1. { destruct HW. split; auto. }
    eapply runs_bind; [apply (section_lines_runs 0 v); auto; apply Nat.le_0_l|]. intros p1 A1 E1. unfold idp in *.
    assert (p_depth p1 = 0%nat) as HD1 by (rewrite (after_depth _ _ A1); exact HD).
    apply loop_runs with (I := at_section); auto.
    intros q A [HS HN]. assert (p_depth q = 0%nat) as HDq by (rewrite (after_depth _ _ A); exact HD1).
    eapply runs_bind; [apply while_eat_runs; auto; [apply Nat.le_0_l|discriminate]|]. intros q1 B1 F1. unfold idp in *.
    rewrite dropk_stop in F1 by (apply kind_eqb_neq, HS).
    rewrite <- F1 in HS, HN. assert (wf q1) as HWq by auto. pose proof (wf_wk _ HWq) as HK.
    assert (p_depth q1 = 0%nat) as HDq1 by (rewrite (after_depth _ _ B1); exact HDq).
    rewrite peek_ok. cbn [bind]. rewrite nth_at_sig by reflexivity.
    destruct (kind_eqb (knth (peekK (K0 q1)) (K0 q1)) EOF) eqn:EE.
    { apply runs_ret; auto. cbn [fst]. apply kind_eqb_eq in EE. destruct HS as [H1 H2]. apply (chain_to_eof (K0 q1)); auto. }
    change (nth_at (peekK (K0 q1)) DOUBLE_BRACKET_START q1) with (at_composite2 (peekK (K0 q1)) BRACKET_START BRACKET_START q1).
    rewrite composite_sig. destruct (composite (peekK (K0 q1)) BRACKET_START (K0 q1)) eqn:EC.
    { eapply runs_bind; [apply section_runs; auto; [apply Nat.le_0_l| |discriminate]; right; split; [reflexivity|]; split; [reflexivity|]; eapply composite_drop; eauto|].
      intros q2 B2 F2. unfold idp in *. apply runs_ret; auto. cbn [fst snd]. rewrite <- F1. tauto. }
    rewrite nth_at_sig by reflexivity. destruct (kind_eqb (knth (peekK (K0 q1)) (K0 q1)) BRACKET_START) eqn:EB.
    { eapply runs_bind; [apply section_runs; auto; [apply Nat.le_0_l| |discriminate]; left; split; [reflexivity|]; split; [reflexivity|]|].
      { apply kind_eqb_eq in EB. rewrite khd_drop_peek; rewrite EB; reflexivity. }
      intros q2 B2 F2. unfold idp in *. apply runs_ret; auto. cbn [fst snd]. rewrite <- F1. tauto. }
    exfalso. pose proof (knth_plain (K0 q1) (peekK (K0 q1)) HK) as HP.
    cbn [ts_contains TS_NEXT_SECTION existsb] in HN. rewrite EE, EB in HN.
    destruct (kind_eqb (knth (peekK (K0 q1)) (K0 q1)) DOUBLE_BRACKET_START) eqn:ED; [|discriminate HN].
    apply kind_eqb_eq in ED. rewrite ED in HP. discriminate HP. }
  destruct HR as (p2 & tr & H1 & H2 & H3 & H4 & j & H5). unfold idp in *.
  destruct H2 as [e1 e2 e3 (c & new & e4 & e5 & e6 & e7 & e8)]. cbn [start snd push_event p_src p_depth p_events p_tokens p_rest] in *.
  assert (root v p = complete (length (p_events p)) ROOT p2) as HRoot.
  { unfold root. cbn [start push_event]. unfold bind in H1 |- *. cbn [start snd push_event] in H1.
    match type of H1 with match ?x with _ => _ end = _ => destruct x; try discriminate H1 end. rewrite H1. reflexivity. }
  rewrite HRoot. unfold complete. rewrite e3, <- app_assoc. cbn [app].
  rewrite nth_error_app2, Nat.sub_diag by lia. cbn [nth_error]. rewrite set_nth_app.
  eexists tr, _. split; [reflexivity|]. split; [|split].
  - split; cbn [p_src p_depth p_events p_tokens p_rest]; auto.
    + rewrite <- app_assoc. unfold flats. simpl. rewrite !app_nil_r. reflexivity.
    + exists c, new. cbn [flat_map leaves]. rewrite app_nil_r. split; [exact e4|]. split; [exact e5|]. split; [exact e6|]. split; [exact e7|exact e8].
  - apply tree_ok_node with (din := 0%nat); auto; [discriminate|apply Nat.le_0_l].
  - exists j. exact H5.
Qed.
