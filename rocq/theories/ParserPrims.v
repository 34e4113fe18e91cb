(** Runs of the parser primitives. *)
From Coq Require Import String Ascii List NArith Bool Arith Lia.
From Verif Require Import Base SyntaxKind TextModel LexerModel LexerSpec LexerProofs ParserModel ParserInv.
Import ListNotations.
Open Scope N_scope.
Open Scope list_scope.

Notation K0 p := (sig (p_rest p)).

Lemma ends_eof_prefix ts c r : ends_eof ts -> c ++ r = ts -> r <> [] -> Forall (fun t => tkind t <> EOF) c.
Proof.
  intros (a & e & -> & H2 & H3) E Hr. revert a E H3. induction c as [|t c IH]; intros a E H3; [constructor|].
  destruct a as [|t' a].
  - simpl in E. injection E as <- E. destruct c, r; try discriminate; contradiction.
  - simpl in E. injection E as <- E. inversion H3 as [|? ? [H4 _] H5]; subst. constructor; eauto.
Qed.

Lemma tree_ok_tk d k n : (d <= MAX_RECURSION_DEPTH)%nat -> tree_ok d (PTk k n).
Proof. intros H. split; [reflexivity|exact H]. Qed.
Lemma tree_ok_er d e : (d <= MAX_RECURSION_DEPTH)%nat -> tree_ok d (PEr e).
Proof. intros H. split; [reflexivity|exact H]. Qed.

Lemma do_bump_runs d p k n : (d <= MAX_RECURSION_DEPTH)%nat -> wf p ->
  (1 <= n)%nat -> skipn n (K0 p) <> [] -> cov (fst (nth_split n (p_rest p))) [n] ->
  runs d p (Done (do_bump k n p)) idp (fun _ K => K = skipn n (K0 p)).
Proof.
  intros Hd HW Hn HS HC. exists (do_bump k n p), [PTk k n]. split; [reflexivity|]. unfold idp.
  assert (p_rest (do_bump k n p) = snd (nth_split n (p_rest p))) as ER by (unfold do_bump; destruct nth_split; reflexivity).
  assert (p_src (do_bump k n p) = p_src p) as ES by (unfold do_bump; destruct nth_split; reflexivity).
  assert (p_depth (do_bump k n p) = p_depth p) as ED by (unfold do_bump; destruct nth_split; reflexivity).
  pose proof (nth_split_app n (p_rest p)) as HA. pose proof (nth_split_head n (p_rest p)) as HH.
  assert (Forall (fun t => tkind t <> EOF) (fst (nth_split n (p_rest p)))) as HF.
  { eapply ends_eof_prefix; [apply HW|exact HA|]. intros E. apply HS. rewrite <- nth_split_sig, E. reflexivity. }
  split; [|split; [|split]].
  - split; auto.
    + unfold do_bump. destruct nth_split; reflexivity.
    + exists (fst (nth_split n (p_rest p))), (fst (nth_split n (p_rest p))). rewrite ER. repeat split; auto.
      unfold do_bump. destruct nth_split; reflexivity.
  - eapply wf_suffix with (c := fst (nth_split n (p_rest p))); eauto; rewrite ER; auto.
    eapply calm_after_bump; [exact HH|]. rewrite HA. apply HW.
  - constructor; auto. apply tree_ok_tk; auto.
  - rewrite ER. apply nth_split_sig.
Qed.

Lemma khd_cons k j r : khd ((k, j) :: r) = k.
Proof. reflexivity. Qed.

Lemma wk_tail k j r : wk ((k, j) :: r) -> k <> EOF -> r <> [] /\ wk r.
Proof.
  intros H Hk. apply wk_cons in H as [[-> _]|(_ & _ & H)]; [contradiction|]. split; auto.
  intros ->. apply wk_not_nil in H. exact H.
Qed.

Lemma bump1_runs d p k0 j r k : (d <= MAX_RECURSION_DEPTH)%nat -> wf p -> K0 p = (k0, j) :: r -> k0 <> EOF ->
  runs d p (Done (do_bump k 1 p)) idp (fun _ K => K = r).
Proof.
  intros Hd HW E Hk. pose proof (wf_wk _ HW) as HK. rewrite E in HK. destruct (wk_tail _ _ _ HK Hk) as [Hr _].
  eapply runs_mono; [apply do_bump_runs; auto|].
  - rewrite E. exact Hr.
  - eapply cov_split1; eauto.
  - intros a _ ->. rewrite E. reflexivity.
Qed.

Lemma sig_nonempty p : wf p -> exists k j r, K0 p = (k, j) :: r.
Proof. intros H. apply wf_wk in H. destruct (K0 p) as [|[k j] r]; [apply wk_not_nil in H; contradiction|eauto]. Qed.

(** [eat] of a kind that is one token. *)
Lemma do_bump_kind_plain k p : plain_kind k = true -> do_bump_kind k p = do_bump k 1 p.
Proof. destruct k; try reflexivity; discriminate. Qed.

Definition eaten (k : kind) (K1 : sks) (b : bool) (K : sks) : Prop :=
  if kind_eqb (khd K1) k then b = true /\ K = tl K1 else b = false /\ K = K1.

Lemma eat_runs d p k : (d <= MAX_RECURSION_DEPTH)%nat -> wf p -> plain_kind k = true -> k <> EOF ->
  runs d p (Done (eat k p)) snd (fun a => eaten k (K0 p) (fst a)).
Proof.
  intros Hd HW Hp Hk. unfold eat, at_, eaten. rewrite nth_at_sig by exact Hp. fold (khd (K0 p)).
  destruct (kind_eqb (khd (K0 p)) k) eqn:E; cbn [negb].
  - rewrite do_bump_kind_plain by exact Hp. destruct (sig_nonempty p HW) as (k0 & j & r & EK).
    rewrite EK in E |- *. rewrite khd_cons in E. apply kind_eqb_eq in E. subst k0.
    destruct (bump1_runs d p k j r k Hd HW EK Hk) as (a & tr & H1 & H2 & H3 & H4 & H5).
    inversion H1; subst a. exists (true, do_bump k 1 p), tr. split; [reflexivity|]. split; [exact H2|].
    split; [exact H3|]. split; [exact H4|]. split; [reflexivity|exact H5].
  - apply runs_ret; auto.
Qed.

(** [eat] of a pair of brackets. *)
Lemma eat_pair_runs d p k b : (d <= MAX_RECURSION_DEPTH)%nat -> wf p ->
  (k = DOUBLE_BRACKET_START /\ b = BRACKET_START) \/ (k = DOUBLE_BRACKET_END /\ b = BRACKET_END) ->
  runs d p (Done (eat k p)) snd (fun a K =>
    if composite 0 b (K0 p) then fst a = true /\ K = skipn 2 (K0 p) else fst a = false /\ K = K0 p).
Proof.
  intros Hd HW Hk. assert (at_ k p = composite 0 b (K0 p)) as EA.
  { destruct Hk as [[-> ->]|[-> ->]]; apply composite_sig. }
  assert (do_bump_kind k p = do_bump k 2 p) as EB by (destruct Hk as [[-> ->]|[-> ->]]; reflexivity).
  assert (b <> EOF) as Hb by (destruct Hk as [[_ ->]|[_ ->]]; discriminate).
  unfold eat. rewrite EA, EB. destruct (composite 0 b (K0 p)) eqn:E; cbn [negb].
  - unfold composite in E. apply andb_true_iff in E as [E E3]. apply andb_true_iff in E as [E1 E2].
    apply kind_eqb_eq in E1, E2. pose proof (wf_wk _ HW) as HK. unfold knth in *.
    destruct (K0 p) as [|[k1 j1] [|[k2 j2] r]] eqn:EK; simpl in E1, E2, E3; subst; try contradiction.
    destruct (wk_tail _ _ _ HK Hb) as [_ HK2]. destruct (wk_tail _ _ _ HK2 Hb) as [Hr _].
    destruct (do_bump_runs d p k 2) as (a & tr & H1 & H2 & H3 & H4 & H5); auto.
    { rewrite EK. exact Hr. } { eapply cov_split2; eauto. }
    inversion H1; subst a. exists (true, do_bump k 2 p), tr. split; [reflexivity|]. split; [exact H2|].
    split; [exact H3|]. split; [exact H4|]. split; [reflexivity|]. unfold idp in H5. rewrite EK in H5. exact H5.
  - apply runs_ret; auto.
Qed.

Lemma eat_ts_runs d p s : (d <= MAX_RECURSION_DEPTH)%nat -> wf p -> ts_contains s EOF = false ->
  runs d p (Done (eat_ts s p)) snd (fun a K =>
    if ts_contains s (khd (K0 p)) then fst a = true /\ K = tl (K0 p) else fst a = false /\ K = K0 p).
Proof.
  intros Hd HW Hs. unfold eat_ts, p_current. rewrite nth_kind_sig. fold (khd (K0 p)).
  destruct (ts_contains s (khd (K0 p))) eqn:E; cbn [negb].
  - destruct (sig_nonempty p HW) as (k0 & j & r & EK). rewrite EK in E |- *. rewrite khd_cons in *.
    assert (k0 <> EOF) as Hk by congruence.
    pose proof (wf_wk _ HW) as HK. rewrite EK in HK. apply wk_cons in HK as [[? _]|(_ & Hp & _)]; [contradiction|].
    rewrite do_bump_kind_plain by exact Hp.
    destruct (bump1_runs d p k0 j r k0 Hd HW EK Hk) as (a & tr & H1 & H2 & H3 & H4 & H5).
    inversion H1; subst a. exists (true, do_bump k0 1 p), tr. split; [reflexivity|]. split; [exact H2|].
    split; [exact H3|]. split; [exact H4|]. split; [reflexivity|exact H5].
  - apply runs_ret; auto.
Qed.

Lemma bump_any_runs d p : (d <= MAX_RECURSION_DEPTH)%nat -> wf p ->
  runs d p (Done (bump_any p)) idp (fun _ K => K = if kind_eqb (khd (K0 p)) EOF then K0 p else tl (K0 p)).
Proof.
  intros Hd HW. unfold bump_any. rewrite nth_kind_sig. fold (khd (K0 p)).
  destruct (kind_eqb (khd (K0 p)) EOF) eqn:E.
  - apply runs_ret; auto.
  - destruct (sig_nonempty p HW) as (k0 & j & r & EK). rewrite EK in E |- *. rewrite khd_cons in *.
    eapply runs_mono; [eapply bump1_runs; eauto; apply kind_eqb_neq; auto|]. auto.
Qed.

Lemma bump_remap_runs d p k : (d <= MAX_RECURSION_DEPTH)%nat -> wf p -> khd (K0 p) <> EOF ->
  runs d p (Done (bump_remap k p)) idp (fun _ K => K = tl (K0 p)).
Proof.
  intros Hd HW Hk. unfold bump_remap. rewrite nth_kind_sig. fold (khd (K0 p)). apply kind_eqb_neq in Hk as Hk'. rewrite Hk'.
  destruct (sig_nonempty p HW) as (k0 & j & r & EK). rewrite EK in Hk |- *. rewrite khd_cons in *.
  eapply runs_mono; [eapply bump1_runs; eauto|]. auto.
Qed.

Lemma p_bump_runs d p : (d <= MAX_RECURSION_DEPTH)%nat -> wf p -> khd (K0 p) <> EOF ->
  runs d p (p_bump (p_current p) p) idp (fun _ K => K = tl (K0 p)).
Proof.
  intros Hd HW Hk. destruct (sig_nonempty p HW) as (k0 & j & r & EK).
  assert (p_current p = k0) as EC by (unfold p_current; rewrite nth_kind_sig, EK; reflexivity).
  rewrite EK, khd_cons in Hk. pose proof (wf_wk _ HW) as HK. rewrite EK in HK.
  apply wk_cons in HK as [[? _]|(_ & Hp & _)]; [contradiction|].
  unfold p_bump. rewrite EC. eapply runs_let; [apply eat_runs; auto|]. intros b p' A. unfold eaten.
  rewrite EK, khd_cons, kind_eqb_refl. intros [-> HE]. apply runs_ret; auto. apply A.
Qed.

Lemma p_error_runs d p k r : (d <= MAX_RECURSION_DEPTH)%nat -> wf p ->
  runs d p (Done (p_error k r p)) idp (fun _ K => K = K0 p).
Proof.
  intros Hd HW. exists (p_error k r p), [PEr (PErr k r)]. split; [reflexivity|]. unfold idp, p_error, push_event. simpl.
  split; [|split; [|split]]; auto.
  - split; simpl; auto. exists [], []. simpl. rewrite app_nil_r. repeat split; auto. apply cov_nil. reflexivity.
  - destruct HW. split; auto.
  - constructor; auto. apply tree_ok_er; auto.
Qed.

Lemma current_range_runs {B} d p (f : range -> res B) st R : wf p -> (forall r, runs d p (f r) st R) ->
  runs d p (do r <- current_range p; f r) st R.
Proof.
  intros HW H. unfold current_range. destruct (wf_end _ HW) as (r & e & E & _). destruct (p_rest p) as [|t ts] eqn:ER.
  - destruct r; discriminate.
  - simpl. apply H.
Qed.
Lemma current_range_runsN di d p0 p (f : range -> res pst) R : wf p -> (forall r, runsN di d p0 p (f r) R) ->
  runsN di d p0 p (do r <- current_range p; f r) R.
Proof.
  intros HW H. unfold current_range. destruct (wf_end _ HW) as (r & e & E & _). destruct (p_rest p) as [|t ts] eqn:ER.
  - destruct r; discriminate.
  - simpl. apply H.
Qed.

(** * Loops over one kind of token *)
Definition dropk (f : kind -> bool) (K : sks) : sks := drop_while (fun x => f (fst x)) K.
Lemma dropk_cons f k j r : dropk f ((k, j) :: r) = if f k then dropk f r else (k, j) :: r.
Proof. reflexivity. Qed.
Lemma dropk_stop f K : f (khd K) = false -> dropk f K = K.
Proof. destruct K as [|[k j] r]; [reflexivity|]. rewrite khd_cons, dropk_cons. intros ->. reflexivity. Qed.
Lemma dropk_go f K : K <> [] -> f (khd K) = true -> dropk f K = dropk f (tl K).
Proof. destruct K as [|[k j] r]; [contradiction|]. rewrite khd_cons, dropk_cons. intros _ ->. reflexivity. Qed.
Lemma dropk_le f K : (length (dropk f K) <= length K)%nat.
Proof. induction K as [|[k j] r IH]; [auto|]. rewrite dropk_cons. destruct (f k); simpl in *; lia. Qed.
Lemma dropk_head f K : f EOF = false -> f (khd (dropk f K)) = false.
Proof. intros H. induction K as [|[k j] r IH]; [exact H|]. rewrite dropk_cons. destruct (f k) eqn:E; auto. Qed.

Lemma sig_ne p : wf p -> K0 p <> [].
Proof. intros H E. destruct (sig_nonempty p H) as (k & j & r & E'). congruence. Qed.
Lemma tl_lt (K : sks) : K <> [] -> (length (tl K) < length K)%nat.
Proof. destruct K; [contradiction|]. simpl. lia. Qed.

Lemma while_eat_runs d p k : (d <= MAX_RECURSION_DEPTH)%nat -> wf p -> plain_kind k = true -> k <> EOF ->
  runs d p (while_eat k p) idp (fun _ K => K = dropk (fun x => kind_eqb x k) (K0 p)).
Proof.
  intros Hd HW Hp Hk.
  apply loop_runs with (I := fun K => dropk (fun x => kind_eqb x k) K = dropk (fun x => kind_eqb x k) (K0 p)); auto.
  intros q HA HI. eapply runs_mono; [apply eat_runs; auto; apply HA|].
  intros [b q'] HA' HE. unfold eaten in HE. cbn [fst snd] in *.
  pose proof (sig_ne q (proj1 HA)) as Hn. destruct (kind_eqb (khd (K0 q)) k) eqn:E.
  - destruct HE as [-> ->]. split; [apply tl_lt; auto|]. rewrite <- HI. symmetry. apply dropk_go; auto.
  - destruct HE as [-> ->]. rewrite <- HI. symmetry. apply dropk_stop. exact E.
Qed.

Lemma trailing_comment_runs d p : (d <= MAX_RECURSION_DEPTH)%nat -> wf p ->
  runs d p (trailing_comment p) idp (fun _ K => K = dropk (fun x => kind_eqb x COMMENT) (K0 p)).
Proof. intros. apply while_eat_runs; auto. discriminate. Qed.

Definition is_lc (k : kind) : bool := ts_contains TS_LEADING_COMMENTS_KINDS k.
Lemma leading_comments_runs d p : (d <= MAX_RECURSION_DEPTH)%nat -> wf p ->
  runs d p (leading_comments p) idp (fun _ K => K = dropk is_lc (K0 p)).
Proof.
  intros Hd HW. apply loop_runs with (I := fun K => dropk is_lc K = dropk is_lc (K0 p)); auto.
  intros q HA HI. eapply runs_mono; [apply eat_ts_runs; auto; apply HA|].
  intros [b q'] HA' HE. cbn [fst snd] in *.
  pose proof (sig_ne q (proj1 HA)) as Hn. destruct (ts_contains TS_LEADING_COMMENTS_KINDS (khd (K0 q))) eqn:E.
  - destruct HE as [-> ->]. split; [apply tl_lt; auto|]. rewrite <- HI. symmetry. apply dropk_go; auto.
  - destruct HE as [-> ->]. rewrite <- HI. symmetry. apply dropk_stop. exact E.
Qed.

Lemma skip_until_runs d p s : (d <= MAX_RECURSION_DEPTH)%nat -> wf p -> ts_contains s EOF = true ->
  runs d p (skip_until s p) idp (fun _ K => K = dropk (fun x => negb (ts_contains s x)) (K0 p)).
Proof.
  intros Hd HW Hs. set (f := fun x => negb (ts_contains s x)).
  apply loop_runs with (I := fun K => dropk f K = dropk f (K0 p)); auto.
  intros q HA HI. rewrite at_ts_sig. destruct (ts_contains s (khd (K0 q))) eqn:E.
  - apply runs_ret; auto; [apply HA|]. simpl. rewrite <- HI. symmetry. apply dropk_stop. unfold f. rewrite E. reflexivity.
  - destruct (bump_any_runs d q Hd (proj1 HA)) as (a & tr & H1 & H2 & H3 & H4 & H5). unfold again.
    inversion H1; subst a. exists (true, bump_any q), tr. split; [reflexivity|]. split; [exact H2|].
    split; [exact H3|]. split; [exact H4|]. simpl. unfold idp in H5. rewrite H5.
    destruct (kind_eqb (khd (K0 q)) EOF) eqn:E2.
    + apply kind_eqb_eq in E2. rewrite E2 in E. congruence.
    + pose proof (sig_ne q (proj1 HA)) as Hn. split; [apply tl_lt; auto|]. rewrite <- HI. symmetry. apply dropk_go; auto.
      unfold f. rewrite E. reflexivity.
Qed.

(** * Looking ahead *)
Fixpoint peekK (K : sks) : nat :=
  match K with
  | (LINE_BREAK, _) :: r => S (peekK r)
  | (COMMENT, _) :: (LINE_BREAK, _) :: r => if kind_eqb (khd r) LINE_BREAK then 0 else S (S (peekK r))
  | _ => 0
  end.

Lemma knth_skipn n m K : knth m (skipn n K) = knth (n + m) K.
Proof.
  unfold knth. revert n. induction K as [|x K IH]; intros [|n]; simpl; try reflexivity.
  - destruct m; reflexivity.
  - apply IH.
Qed.

Lemma peekK_eq K :
  peekK K = if kind_eqb (knth 0 K) LINE_BREAK then S (peekK (tl K))
            else if kind_eqb (knth 0 K) COMMENT && kind_eqb (knth 1 K) LINE_BREAK && negb (kind_eqb (knth 2 K) LINE_BREAK)
            then S (S (peekK (tl (tl K)))) else 0%nat.
Proof.
  destruct K as [|[k j] r]; [reflexivity|]. destruct k; try reflexivity.
  destruct r as [|[k2 j2] r]; [reflexivity|]. destruct k2; try reflexivity.
  cbn [peekK]. change (knth 2 ((COMMENT, j) :: (LINE_BREAK, j2) :: r)) with (khd r).
  destruct (kind_eqb (khd r) LINE_BREAK); reflexivity.
Qed.

Lemma tl_skipn {A} n (l : list A) : tl (skipn n l) = skipn (S n) l.
Proof. revert n. induction l as [|x l IH]; intros [|n]; simpl; try reflexivity. apply (IH n). Qed.

Lemma peek_loop_ok fuel : forall n p, (length (K0 p) < n + fuel)%nat -> (n <= length (K0 p))%nat ->
  peek_loop fuel n p = Done (n + peekK (skipn n (K0 p)))%nat.
Proof.
  induction fuel as [|fuel IH]; intros n p HL HN; [lia|]. cbn [peek_loop].
  rewrite !nth_at_sig by reflexivity. rewrite (peekK_eq (skipn n (K0 p))), !knth_skipn, Nat.add_0_r.
  assert (forall m k, kind_eqb (knth m (K0 p)) k = true -> k <> EOF -> (m < length (K0 p))%nat) as HX.
  { intros m k Hm Hk. destruct (Nat.lt_ge_cases m (length (K0 p))) as [|HG]; auto. unfold knth in Hm.
    rewrite nth_overflow in Hm by lia. apply kind_eqb_eq in Hm. simpl in Hm. congruence. }
  destruct (kind_eqb (knth n (K0 p)) LINE_BREAK) eqn:E1.
  - apply HX in E1; [|discriminate]. rewrite IH by lia. rewrite tl_skipn. f_equal.
    replace (n + 1)%nat with (S n) by lia. lia.
  - destruct (_ && _ && _) eqn:E2; [|f_equal; lia].
    apply andb_true_iff in E2 as [E2 _]. apply andb_true_iff in E2 as [_ E2]. apply HX in E2; [|discriminate].
    rewrite IH by lia. rewrite !tl_skipn. f_equal. replace (n + 2)%nat with (S (S n)) by lia. lia.
Qed.
Lemma peek_ok p : peek_leading_comments p = Done (peekK (K0 p)).
Proof. unfold peek_leading_comments. pose proof (sig_le (p_rest p)). rewrite peek_loop_ok by lia. reflexivity. Qed.

(** What the look-ahead passes over is comments and line breaks, and it does not stop at a line break. *)
Lemma peekK_drop K : is_lc (knth (peekK K) K) = false -> dropk is_lc K = skipn (peekK K) K.
Proof.
  remember (length K) as n eqn:E. assert (length K <= n)%nat as HL by lia. clear E. revert K HL.
  induction n as [|n IH]; intros K HL.
  - destruct K; [reflexivity|simpl in HL; lia].
  - destruct K as [|[k j] r]; [reflexivity|]. rewrite peekK_eq. change (knth 0 ((k, j) :: r)) with k.
    destruct (kind_eqb k LINE_BREAK) eqn:E1.
    + apply kind_eqb_eq in E1. subst. cbn [tl]. change (knth (S (peekK r)) ((LINE_BREAK, j) :: r)) with (knth (peekK r) r).
      intros H. rewrite dropk_cons. simpl. apply IH; auto. simpl in HL. lia.
    + destruct (_ && _ && _) eqn:E2.
      * apply andb_true_iff in E2 as [E2 E4]. apply andb_true_iff in E2 as [E2 E3]. apply kind_eqb_eq in E2, E3. subst.
        destruct r as [|[k2 j2] r]; [discriminate|]. change (knth 1 ((COMMENT, j) :: (k2, j2) :: r)) with k2 in E3. subst.
        cbn [tl]. change (knth (S (S (peekK r))) ((COMMENT, j) :: (LINE_BREAK, j2) :: r)) with (knth (peekK r) r).
        intros H. rewrite !dropk_cons. simpl. apply IH; auto. simpl in HL. lia.
      * intros H. simpl skipn. apply dropk_stop. exact H.
Qed.
Lemma peekK_not_break K : knth (peekK K) K <> LINE_BREAK.
Proof.
  remember (length K) as n eqn:E. assert (length K <= n)%nat as HL by lia. clear E. revert K HL.
  induction n as [|n IH]; intros K HL.
  - destruct K; [discriminate|simpl in HL; lia].
  - destruct K as [|[k j] r]; [discriminate|]. rewrite peekK_eq. change (knth 0 ((k, j) :: r)) with k.
    destruct (kind_eqb k LINE_BREAK) eqn:E1.
    + cbn [tl]. change (knth (S (peekK r)) ((k, j) :: r)) with (knth (peekK r) r). apply IH. simpl in HL. lia.
    + destruct (_ && _ && _) eqn:E2.
      * destruct r as [|[k2 j2] r]; [discriminate|]. cbn [tl].
        change (knth (S (S (peekK r))) ((k, j) :: (k2, j2) :: r)) with (knth (peekK r) r). apply IH. simpl in HL. lia.
      * change (knth 0 ((k, j) :: r)) with k. apply kind_eqb_neq. exact E1.
Qed.
Lemma peekK_zero K : khd K <> LINE_BREAK -> khd K <> COMMENT -> peekK K = 0%nat.
Proof.
  intros H1 H2. rewrite peekK_eq. fold (khd K). apply kind_eqb_neq in H1, H2. rewrite H1, H2. reflexivity.
Qed.
Lemma khd_drop_peek K : is_lc (knth (peekK K) K) = false -> khd (dropk is_lc K) = knth (peekK K) K.
Proof. intros H. rewrite peekK_drop by exact H. unfold khd. rewrite knth_skipn, Nat.add_0_r. reflexivity. Qed.

(** * Dangling comments *)
Fixpoint dlenK (K : sks) : option nat :=
  match K with
  | _ :: y :: r =>
      if negb (ts_contains TS_LINE_END (fst y)) then None
      else if ts_contains TS_DANGLING_COMMENT_GROUP_END (khd r) then Some 1%nat
      else if negb (kind_eqb (khd r) COMMENT) then None
      else option_map (fun n => (2 + n)%nat) (dlenK r)
  | _ => Some 1%nat
  end.

Lemma dlenK_eq K :
  dlenK K = if negb (ts_contains TS_LINE_END (knth 1 K)) then None
            else if ts_contains TS_DANGLING_COMMENT_GROUP_END (knth 2 K) then Some 1%nat
            else if negb (kind_eqb (knth 2 K) COMMENT) then None
            else option_map (fun n => (2 + n)%nat) (dlenK (tl (tl K))).
Proof. destruct K as [|x [|y r]]; reflexivity. Qed.

Lemma dangling_loop_ok fuel : forall n p, (length (K0 p) < n + fuel)%nat -> (n <= length (K0 p))%nat ->
  dangling_len_loop fuel n p = Done (option_map (fun m => (n + m)%nat) (dlenK (skipn n (K0 p)))).
Proof.
  induction fuel as [|fuel IH]; intros n p HL HN; [lia|]. cbn [dangling_len_loop].
  rewrite !nth_at_ts_sig, nth_at_sig by reflexivity. rewrite (dlenK_eq (skipn n (K0 p))), !knth_skipn.
  destruct (ts_contains TS_LINE_END (knth (n + 1) (K0 p))); [cbn [negb]|reflexivity].
  destruct (ts_contains TS_DANGLING_COMMENT_GROUP_END (knth (n + 2) (K0 p))); [reflexivity|].
  destruct (kind_eqb (knth (n + 2) (K0 p)) COMMENT) eqn:E; [cbn [negb]|reflexivity].
  assert (n + 2 < length (K0 p))%nat as HX.
  { destruct (Nat.lt_ge_cases (n + 2) (length (K0 p))) as [|HG]; auto. unfold knth in E.
    rewrite nth_overflow in E by lia. discriminate. }
  rewrite IH by lia. rewrite !tl_skipn. f_equal. replace (n + 2)%nat with (S (S n)) by lia.
  destruct (dlenK (skipn (S (S n)) (K0 p))); simpl; f_equal. lia.
Qed.
Lemma dangling_ok p : dangling_comment_group_len p = Done (if kind_eqb (khd (K0 p)) COMMENT then dlenK (K0 p) else None).
Proof.
  unfold dangling_comment_group_len. rewrite nth_at_sig by reflexivity. fold (khd (K0 p)).
  destruct (kind_eqb (khd (K0 p)) COMMENT); [cbn [negb]|reflexivity].
  pose proof (sig_le (p_rest p)). rewrite dangling_loop_ok by lia. change (skipn 0 (K0 p)) with (K0 p).
  destruct (dlenK (K0 p)); reflexivity.
Qed.
Lemma dlenK_pos K n : dlenK K = Some n -> (1 <= n)%nat.
Proof.
  rewrite dlenK_eq. destruct (negb _); [discriminate|]. destruct (ts_contains _ _); [intros H; inversion H; lia|].
  destruct (negb _); [discriminate|]. destruct (dlenK _); simpl; intros H; inversion H; lia.
Qed.

(** A chain of comments that leads to the end of the text dangles. *)
Lemma chain_to_eof K : wk K -> khd K <> LINE_BREAK -> (khd K = COMMENT -> dlenK K = None) ->
  knth (peekK K) K = EOF -> exists j, K = [(EOF, j)].
Proof.
  remember (length K) as n eqn:E. assert (length K <= n)%nat as HL by lia. clear E. revert K HL.
  induction n as [|n IH]; intros K HL HK H1 H2 H3.
  - destruct K; [apply wk_not_nil in HK; contradiction|simpl in HL; lia].
  - destruct (kind_eqb (khd K) COMMENT) eqn:EC.
    + apply kind_eqb_eq in EC. specialize (H2 EC). rewrite dlenK_eq in H2. rewrite peekK_eq in H3. fold (khd K) in H3. rewrite EC in H3.
      change (kind_eqb COMMENT LINE_BREAK) with false in H3. change (kind_eqb COMMENT COMMENT) with true in H3. cbn iota beta in H3.
      destruct K as [|[k j] r]; [discriminate|]. rewrite khd_cons in EC. subst k.
      destruct r as [|[k2 j2] r].
      { apply wk_cons in HK as [[? _]|(_ & _ & HK)]; [discriminate|]. apply wk_not_nil in HK. contradiction. }
      change (knth 1 ((COMMENT, j) :: (k2, j2) :: r)) with k2 in *. change (knth 2 ((COMMENT, j) :: (k2, j2) :: r)) with (khd r) in *.
      destruct (kind_eqb k2 LINE_BREAK) eqn:E2.
      * apply kind_eqb_eq in E2. subst. simpl negb in H2. cbn iota in H2.
        destruct (ts_contains TS_DANGLING_COMMENT_GROUP_END (khd r)) eqn:E3; [discriminate|].
        destruct (kind_eqb (khd r) LINE_BREAK) eqn:E4.
        { apply kind_eqb_eq in E4. rewrite E4 in E3. discriminate. }
        simpl in H3. change (knth (S (S (peekK r))) ((COMMENT, j) :: (LINE_BREAK, j2) :: r)) with (knth (peekK r) r) in H3.
        apply wk_cons in HK as [[? _]|(_ & _ & HK)]; [discriminate|]. apply wk_cons in HK as [[? _]|(_ & _ & HK)]; [discriminate|].
        destruct (IH r) as (j3 & ->); auto.
        -- simpl in HL. lia.
        -- apply kind_eqb_neq. exact E4.
        -- intros E5. rewrite E5 in H2. simpl in H2. destruct (dlenK r); [discriminate|reflexivity].
        -- discriminate.
      * simpl in H3. discriminate.
    + apply kind_eqb_neq in EC. rewrite peekK_zero in H3 by auto. fold (khd K) in H3.
      destruct K as [|[k j] r]; [apply wk_not_nil in HK; contradiction|]. rewrite khd_cons in H3. subst.
      apply wk_cons in HK as [[_ ->]|(HH & _ & _)]; [eauto|contradiction].
Qed.
