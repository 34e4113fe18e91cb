(** Runs of the grammar functions: they end, do not panic, and account for every token. *)
From Coq Require Import String Ascii List NArith Bool Arith Lia.
From Verif Require Import Base SyntaxKind TextModel LexerModel LexerSpec LexerProofs ParserModel ParserInv ParserPrims.
Import ListNotations.
Open Scope N_scope.
Open Scope list_scope.

(** * Float keys *)
Lemma split_dot_none w : existsb (N.eqb 46) w = false -> split_dot w = [w].
Proof.
  induction w as [|c w IH]; [reflexivity|]. cbn [existsb split_dot]. intros H. apply orb_false_iff in H as [H1 H2].
  rewrite N.eqb_sym in H1. rewrite H1, (IH H2). reflexivity.
Qed.
Lemma split_dot_one w : existsb (N.eqb 46) w = true -> (dots w <= 1)%nat ->
  exists a b, w = a ++ 46 :: b /\ split_dot w = [a; b].
Proof.
  unfold dots. induction w as [|c w IH]; [discriminate|]. cbn [existsb filter split_dot]. rewrite (N.eqb_sym 46 c).
  destruct (N.eqb_spec c 46) as [->|Hc]; cbn [orb].
  - intros _ H. cbn [length] in H. assert (filter (N.eqb 46) w = []) as E by (destruct (filter (N.eqb 46) w); [reflexivity|simpl in H; lia]).
    exists [], w. split; [reflexivity|]. rewrite split_dot_none; [reflexivity|].
    destruct (existsb (N.eqb 46) w) eqn:EE; [|reflexivity]. apply existsb_exists in EE as (x & Hx & Hx2).
    assert (In x (filter (N.eqb 46) w)) as HI by (apply filter_In; auto). rewrite E in HI. contradiction.
  - intros H1 H2. destruct (IH H1 H2) as (a & b & -> & E). exists (c :: a), b. rewrite E. auto.
Qed.

Lemma push_synthetic_eq k a b p : push_synthetic k a b p =
  Done (MkP (p_src p) (p_seen p) (p_rest p) (p_depth p)
            (p_tokens p ++ [Tok k (MkSpan a b) (MkRange (Pos 0 0) (Pos 0 0))])
            (p_events p ++ [EStart k; EToken k 1; EFinish])).
Proof.
  unfold push_synthetic, start, push_event, complete. simpl. rewrite <- !app_assoc. simpl.
  rewrite nth_error_app2, Nat.sub_diag by lia. simpl. rewrite set_nth_app, <- app_assoc. reflexivity.
Qed.

Lemma calm_float src p t : wf p -> src = p_src p -> nth_token 0 p = t -> dotted src t = true ->
  exists r, p_rest p = t :: r /\ calm src r.
Proof.
  intros HW -> HT HD. destruct (wf_calm _ HW) as (o & Ho & HZ). unfold nth_token in HT.
  destruct (p_rest p) as [|x r] eqn:ER.
  - subst t. discriminate HD.
  - assert (forall l b, triv t = false -> snd (nth_split 0 l) <> [] \/ True -> match snd (nth_split 0 l) with [] => token_eof | t :: _ => t end = t ->
      b = true -> hazard (p_src p) true b l = false -> False) as HX.
    { induction l as [|y l IH]; intros b H1 H2 H3 -> H5.
      - simpl in H3. rewrite <- H3 in HD. discriminate HD.
      - cbn [nth_split hazard] in *. destruct (triv y) eqn:EY.
        + apply (IH true); auto. destruct (nth_split 0 l); exact H3.
        + simpl in H3. subst y. rewrite HD in H5. discriminate. }
    destruct (triv x) eqn:EX.
    + exfalso. rewrite (Ho eq_refl) in HZ. cbn [hazard] in HZ. rewrite EX in HZ. eapply (HX r true); eauto.
      * unfold dotted in HD. apply andb_true_iff in HD as [HD _]. apply kind_eqb_eq in HD. unfold triv. rewrite HD. reflexivity.
      * cbn [nth_split] in HT. rewrite EX in HT. destruct (nth_split 0 r); exact HT.
    + cbn [nth_split] in HT. rewrite EX in HT. simpl in HT. subst x. exists r. split; [reflexivity|].
      cbn [hazard] in HZ. rewrite EX, HD in HZ. apply orb_false_iff in HZ as [_ HZ]. exists true. split; auto.
      destruct r; auto.
Qed.

Lemma nth_token_in p n : nth_token n p <> token_eof -> In (nth_token n p) (p_rest p).
Proof.
  unfold nth_token. pose proof (nth_split_app n (p_rest p)) as H. destruct (snd (nth_split n (p_rest p))) as [|t r]; [contradiction|].
  intros _. rewrite <- H. apply in_or_app. right. left. reflexivity.
Qed.

Lemma tiles_in b s ts t src e : tiles b s ts -> src = b ++ s ++ e -> In t ts ->
  exists w, text_slice src (sstart (tspan t)) (send (tspan t)) = Some w.
Proof.
  induction 1 as [b|b w s t0 ts H1 H2 IH]; intros HS Hin; [contradiction|]. destruct Hin as [<-|Hin].
  - exists w. rewrite H1. simpl. subst src. rewrite <- app_assoc. apply text_slice_app.
  - apply IH; auto. rewrite HS, <- !app_assoc. reflexivity.
Qed.

Lemma bump_float_key_runs d p : (d <= MAX_RECURSION_DEPTH)%nat -> wf p -> khd (K0 p) = FLOAT ->
  runs d p (bump_float_key p) idp (fun _ K => K = tl (K0 p)).
Proof.
  intros Hd HW HK. unfold bump_float_key. rewrite nth_kind_sig. fold (khd (K0 p)). rewrite HK, kind_eqb_refl. cbn [negb].
  remember (nth_token 0 p) as t eqn:ET.
  assert (tkind t = FLOAT) as EK. { subst t. change (nth_kind 0 p = FLOAT). rewrite nth_kind_sig. exact HK. }
  assert (In t (p_rest p)) as Hin. { subst t. apply nth_token_in. intros E. rewrite E in EK. discriminate. }
  destruct (wf_tiles _ HW) as (b & s & HS & HT).
  destruct (tiles_in b s (p_rest p) t (p_src p) [] HT) as (w & EW); [rewrite app_nil_r; exact HS|exact Hin|].
  rewrite EW. destruct (existsb (N.eqb 46) w) eqn:EX; cbn [negb].
  - destruct (split_dot_one w EX (wf_floats _ HW _ _ Hin EK EW)) as (x & y & -> & ->).
    assert (dotted (p_src p) t = true) as HD. { unfold dotted. rewrite EK, kind_eqb_refl, EW. exact EX. }
    destruct (calm_float (p_src p) p t HW eq_refl (eq_sym ET) HD) as (r & ER & HC).
    rewrite !push_synthetic_eq. cbn [bind p_rest]. rewrite push_synthetic_eq. cbn [bind p_rest]. rewrite push_synthetic_eq.
    cbn [bind p_rest p_src p_seen p_depth p_tokens p_events]. rewrite ER.
    eexists _, [PNd BARE_KEY [PTk BARE_KEY 1]; PNd DOT [PTk DOT 1]; PNd BARE_KEY [PTk BARE_KEY 1]].
    split; [reflexivity|]. unfold idp. cbn [p_rest p_src p_seen p_depth p_tokens p_events].
    assert (Forall (fun t => tkind t <> EOF) [t]) as HF by (constructor; auto; rewrite EK; discriminate).
    split; [|split; [|split]].
    + split; cbn [p_rest p_src p_seen p_depth p_tokens p_events]; auto.
      * rewrite <- !app_assoc. reflexivity.
      * exists [t]. eexists. rewrite <- !app_assoc. split; [rewrite ER; reflexivity|]. split; [reflexivity|].
        split; [|split; [exact HF|]].
        -- simpl. repeat (match goal with |- cov (?a :: ?l) (?n :: ?ns) => apply (cov_cons [] [a] l n ns); auto; try discriminate end).
           apply cov_nil. reflexivity.
        -- intros b0 s0 e0 HS0 HT0. inversion HT0 as [|b' w' s' t' ts' H1 H2]; subst. inversion H2; subst.
           rewrite app_nil_r in HS0. rewrite H1 in *. cbn [sstart send] in *. rewrite HS0 in EW.
           rewrite text_slice_app in EW. inversion EW; subst w'. rewrite app_nil_r.
           apply (tiles_cons b0 x (46 :: y)); [simpl; rewrite len_bytes_app; reflexivity|].
           apply (tiles_cons (b0 ++ x) [46] y); [simpl; rewrite !len_bytes_app; simpl; f_equal; lia|].
           rewrite <- (app_nil_r y) at 1. constructor; [|constructor]. simpl. rewrite !len_bytes_app. simpl. f_equal; lia.
    + eapply wf_suffix with (c := [t]); eauto.
    + repeat (apply Forall_cons; [split; [reflexivity|exact Hd]|]). constructor.
    + cbn [sig]. unfold triv. rewrite EK. reflexivity.
  - change (let (m, p0) := start p in complete m BARE_KEY (bump_remap BARE_KEY p0))
      with (let (m, p0) := start p in bind (Done (bump_remap BARE_KEY p0)) (fun p0 => complete m BARE_KEY p0)).
    eapply runs_start with (din := d); [exact HW|]. intros p1 A1 E1.
    eapply runsN_bind with (st := idp); [apply bump_remap_runs; auto; [apply A1|rewrite E1, HK; discriminate]|].
    intros p2 A2 E2. apply runsN_complete; auto; [discriminate|]. unfold idp in *. congruence.
Qed.

(** * Keys *)
Definition is_key (k : kind) : bool := ts_contains TS_KEY_FIRST k.

Lemma reassoc (f : pst -> res pst) k b p :
  (let (m, p1) := start p in do p1 <- f p1; do p2 <- complete m k p1; Done (b, p2)) =
  (do p2 <- (let (m, p1) := start p in do p1 <- f p1; complete m k p1); Done (b : bool, p2)).
Proof. simpl. destruct (f (push_event (EStart TOMBSTONE) p)); reflexivity. Qed.

Lemma node_runs d p (f : pst -> res pst) k Q :
  (d <= MAX_RECURSION_DEPTH)%nat -> wf p -> k <> TOMBSTONE -> weight k = 0%nat ->
  (forall p1, after p p1 -> K0 p1 = K0 p -> runs d p1 (f p1) idp (fun _ => Q)) ->
  runs d p (let (m, p1) := start p in do p1 <- f p1; complete m k p1) idp (fun _ => Q).
Proof.
  intros Hd HW H1 H2 HF. eapply runs_start with (din := d); [exact HW|]. intros p1 A1 E1.
  eapply runsN_bind; [apply HF; auto|]. intros p2 A2 HQ. apply runsN_complete; auto. rewrite H2. lia.
Qed.

Lemma eat_key_runs d p : (d <= MAX_RECURSION_DEPTH)%nat -> wf p ->
  runs d p (eat_key p) snd (fun a K =>
    if is_key (khd (K0 p)) then fst a = true /\ K = tl (K0 p) else fst a = false /\ K = K0 p).
Proof.
  intros Hd HW.
  assert (p_current p = khd (K0 p)) as EC by (unfold p_current; rewrite nth_kind_sig; reflexivity).
  assert (forall f k', is_key (khd (K0 p)) = true -> k' <> TOMBSTONE -> weight k' = 0%nat ->
    (forall p1, after p p1 -> K0 p1 = K0 p -> runs d p1 (f p1) idp (fun _ K => K = tl (K0 p))) ->
    runs d p (let (m, p1) := start p in do p1 <- f p1; do p2 <- complete m k' p1; Done (true, p2)) snd
      (fun a K => if is_key (khd (K0 p)) then fst a = true /\ K = tl (K0 p) else fst a = false /\ K = K0 p)) as HG.
  { intros f k' E1 E2 E3 HF. rewrite reassoc. eapply runs_bind with (st := idp) (Q := fun _ K => K = tl (K0 p)).
    - apply node_runs; auto.
    - intros p2 A2 H2. unfold idp in *. apply runs_ret; auto; [apply A2|]. rewrite E1. auto. }
  unfold eat_key. destruct (p_current p) eqn:EP.
  all: try (match goal with |- runs _ _ (let (m, p) := start _ in do p0 <- p_bump ?k p; _) _ _ =>
    apply (HG (fun p => p_bump k p) k); [rewrite <- EC; reflexivity|discriminate|reflexivity|];
    intros p1 A1 E1; rewrite <- E1; assert (p_current p1 = k) as <- by (unfold p_current; rewrite nth_kind_sig, E1; fold (khd (K0 p)); rewrite <- EC; reflexivity);
    apply p_bump_runs; auto; [apply A1|]; rewrite E1, <- EC; discriminate end).
  all: try (match goal with |- runs _ _ (let (m, p) := start _ in do p0 <- complete m BARE_KEY (bump_remap BARE_KEY p); _) _ _ =>
    apply (HG (fun p => Done (bump_remap BARE_KEY p)) BARE_KEY); [rewrite <- EC; reflexivity|discriminate|reflexivity|];
    intros p1 A1 E1; rewrite <- E1; apply bump_remap_runs; auto; [apply A1|]; rewrite E1, <- EC; discriminate end).
  all: try (match goal with |- runs _ _ (bind (bump_float_key _) _) _ _ =>
    eapply runs_bind; [apply bump_float_key_runs; auto|]; intros p2 A2 H2; apply runs_ret; auto; [apply A2|]; rewrite <- EC; exact (conj eq_refl H2) end).
  all: match goal with |- runs _ _ ?M _ _ => replace M with
         (do p2 <- (let (m, p1) := start p in do p1 <- (do r <- current_range p1; Done (p_error ExpectedKey r p1)); complete m INVALID_TOKEN p1); Done (false, p2))
         by (unfold start, current_range; cbn [push_event p_rest]; destruct (p_rest p); reflexivity) end.
  all: eapply runs_bind with (st := idp) (Q := fun _ K => K = K0 p);
    [apply node_runs; auto; [discriminate|]; intros p1 A1 E1; apply current_range_runs; [apply A1|]; intros r;
       rewrite <- E1; apply p_error_runs; auto; apply A1
    |intros p2 A2 E2; apply runs_ret; auto; [apply A2|]; rewrite <- EC; exact (conj eq_refl E2)].
Qed.

Ltac aft := match goal with
  | H : after ?p ?q |- wf ?q => exact (proj1 H)
  | H : after ?p ?q |- context [p_depth ?q] => idtac
  end.
#[export] Hint Extern 1 (wf _) => aft : core.

(** Bind the run of [m] with the lemma [L]. *)
Tactic Notation "nb" uconstr(L) "as" ident(q) ident(A) ident(E) :=
  eapply runsN_bind; [eapply L; eauto; try discriminate; fail|]; intros q A E; unfold idp in A, E |- *; cbn [fst snd] in A, E; cbn beta in E |- *.
Tactic Notation "rb" uconstr(L) "as" ident(q) ident(A) ident(E) :=
  eapply runs_bind; [eapply L; eauto; try discriminate; fail|]; intros q A E; unfold idp in A, E |- *; cbn [fst snd] in A, E; cbn beta in E |- *.

Lemma key_not_eof k : is_key k = true -> k <> EOF.
Proof. intros H ->. discriminate H. Qed.

Lemma dotted_keys_runs d fuel : (d <= MAX_RECURSION_DEPTH)%nat -> forall he p, wf p -> (length (K0 p) < fuel)%nat ->
  runs d p (dotted_keys fuel he p) snd (fun a K =>
    is_key (khd (K0 p)) = true -> fst a = negb he /\ (length K < length (K0 p))%nat).
Proof.
  intros Hd. induction fuel as [|fuel IH]; intros he p HW HL; [lia|]. cbn [dotted_keys].
  eapply runs_bind; [apply eat_key_runs; auto|]. intros [ok p1] A1 E1. cbn [fst snd] in *.
  eapply runs_let; [apply eat_runs; auto; discriminate|]. intros b p2 A2 E2. unfold eaten in E2.
  assert ((is_key (khd (K0 p)) = true -> ok = true /\ length (K0 p2) < length (K0 p))%nat) as HP.
  { intros H. rewrite H in E1. destruct E1 as [E1 E1']. split; [exact E1|]. pose proof (after_len _ _ A2).
    rewrite E1' in *. pose proof (tl_lt (K0 p) (sig_ne p HW)). lia. }
  destruct b; cbn [negb].
  - destruct (at_ts TS_KEY_FIRST p2) eqn:EA; cbn [negb].
    + eapply runs_mono; [apply IH; auto|].
      * destruct (kind_eqb (khd (K0 p1)) DOT); [|destruct E2; discriminate]. destruct E2 as [_ E2].
        rewrite E2. pose proof (tl_lt (K0 p1) (sig_ne p1 (proj1 A1))). pose proof (after_len _ _ A1). lia.
      * intros [a p3] A3 H H1. cbn [fst snd] in *. pose proof (after_len _ _ A3). rewrite at_ts_sig in EA.
        destruct (HP H1) as [-> HP2]. destruct (H EA) as [-> _]. destruct he; split; auto; lia.
    + apply current_range_runs; auto. intros r.
      change (Done (negb (he || negb ok), p_error ForbiddenKeysLastPeriod r p2))
        with (bind (Done (p_error ForbiddenKeysLastPeriod r p2)) (fun p3 => Done (negb (he || negb ok), p3))).
      rb p_error_runs as p3 A3 E3. apply runs_ret; auto. intros H1. cbn [fst snd]. rewrite E3.
      destruct (HP H1) as [-> HP2]. destruct he; auto.
  - apply runs_ret; auto. intros H1. cbn [fst snd]. destruct (HP H1) as [-> HP2]. destruct he; auto.
Qed.

Lemma eat_keys_runs d p : (d <= MAX_RECURSION_DEPTH)%nat -> wf p ->
  runs d p (eat_keys p) snd (fun a K => is_key (khd (K0 p)) = true -> fst a = true /\ (length K < length (K0 p))%nat).
Proof.
  intros Hd HW. unfold eat_keys. destruct (nth_at 1 DOT p).
  - apply (dotted_keys_runs d); auto. pose proof (sig_le (p_rest p)). lia.
  - eapply runs_mono; [apply eat_key_runs; auto|]. intros a A E H. rewrite H in E. destruct E as [E1 ->].
    split; auto. apply tl_lt, sig_ne, HW.
Qed.

Lemma keys_runs d p : (d <= MAX_RECURSION_DEPTH)%nat -> wf p ->
  runs d p (keys p) idp (fun _ K => is_key (khd (K0 p)) = true -> (length K < length (K0 p))%nat).
Proof.
  intros Hd HW. unfold keys. eapply runs_start with (din := d); [exact HW|]. intros p1 A1 E1.
  eapply runsN_bind; [apply eat_keys_runs; auto|]. intros [ok p2] A2 E2. cbn [fst snd] in *. rewrite E1 in E2.
  apply runsN_complete; auto.
  - destruct ok; discriminate.
  - destruct ok; simpl; auto.
  - intros H. apply E2; auto.
Qed.

Lemma keys_or_bomb_runs d p : (d <= MAX_RECURSION_DEPTH)%nat -> wf p -> is_key (khd (K0 p)) = true ->
  runs d p (keys_or_bomb p) idp (fun _ K => (length K < length (K0 p))%nat).
Proof.
  intros Hd HW HK. unfold keys_or_bomb. eapply runs_start with (din := d); [exact HW|]. intros p1 A1 E1.
  eapply runsN_bind; [apply eat_keys_runs; auto|]. intros [ok p2] A2 E2. cbn [fst snd] in *. rewrite E1 in E2.
  destruct (E2 HK) as [-> E3]. apply runsN_complete; auto. discriminate.
Qed.

(** * Commas, comments and skipped lines *)
Lemma comma_runs d p : (d <= MAX_RECURSION_DEPTH)%nat -> wf p -> khd (dropk is_lc (K0 p)) = COMMA ->
  runs d p (comma p) idp (fun _ K => (length K < length (K0 p))%nat).
Proof.
  intros Hd HW HK. unfold comma. eapply runs_start with (din := d); [exact HW|]. intros p1 A1 E1.
  nb leading_comments_runs as p2 A2 E2.
  unfold at_. rewrite nth_at_sig by reflexivity. fold (khd (K0 p2)). rewrite E2, E1, HK. cbn [kind_eqb negb].
  eapply runsN_let; [apply eat_runs; auto; discriminate|]. intros b p3 A3 E3. unfold eaten in E3.
  rewrite E2, E1, HK in E3. cbn [kind_eqb] in E3. destruct E3 as [_ E3].
  nb trailing_comment_runs as p4 A4 E4. apply runsN_complete; auto; [discriminate|].
  pose proof (after_len _ _ A4). pose proof (dropk_le is_lc (K0 p)). rewrite E3 in H.
  pose proof (tl_lt (dropk is_lc (K0 p))). destruct (dropk is_lc (K0 p)) eqn:ED; [discriminate|].
  cbn [tl length] in *. lia.
Qed.

Lemma bump_any_times_runs d n : (d <= MAX_RECURSION_DEPTH)%nat -> forall p, wf p ->
  runs d p (Done (bump_any_times n p)) idp (fun _ K => (1 <= n)%nat -> khd (K0 p) <> EOF -> (length K < length (K0 p))%nat).
Proof.
  intros Hd. induction n as [|n IH]; intros p HW; cbn [bump_any_times].
  - apply runs_ret; auto. lia.
  - change (Done (bump_any_times n (bump_any p))) with (bind (Done (bump_any p)) (fun q => Done (bump_any_times n q))).
    rb bump_any_runs as q A E. eapply runs_mono; [apply IH; auto|]. intros a B _ _ HK.
    pose proof (after_len _ _ B). apply kind_eqb_neq in HK. rewrite HK in E. rewrite E in H.
    pose proof (tl_lt (K0 p) (sig_ne p HW)). unfold idp in *. lia.
Qed.

(** No line break, and no comments that stand alone. *)
Definition settled (K : sks) : Prop := khd K <> LINE_BREAK /\ (khd K = COMMENT -> dlenK K = None).

Lemma dangling_groups_runs d p : (d <= MAX_RECURSION_DEPTH)%nat -> wf p ->
  runs d p (dangling_comment_groups p) idp (fun _ => settled).
Proof.
  intros Hd HW. unfold dangling_comment_groups. apply loop_runs with (I := fun _ => True); auto.
  intros q A _. assert (wf q) by auto. rb (while_eat_runs d q LINE_BREAK) as q1 A1 E1.
  rewrite dangling_ok. cbn [bind].
  assert (khd (K0 q1) <> LINE_BREAK) as HB.
  { rewrite E1. intros E. pose proof (dropk_head (fun x => kind_eqb x LINE_BREAK) (K0 q) eq_refl) as HH.
    rewrite E in HH. discriminate. }
  destruct (kind_eqb (khd (K0 q1)) COMMENT) eqn:EC.
  - apply kind_eqb_eq in EC. destruct (dlenK (K0 q1)) as [n|] eqn:EL.
    + change (let (m, p0) := start q1 in do p1 <- complete m DANGLING_COMMENT_GROUP (bump_any_times n p0); again p1)
        with (bind (let (m, p0) := start q1 in do p1 <- Done (bump_any_times n p0); complete m DANGLING_COMMENT_GROUP p1) again).
      eapply runs_bind.
      * apply (node_runs d q1 (fun p0 => Done (bump_any_times n p0)) DANGLING_COMMENT_GROUP (fun K => length K < length (K0 q1))%nat);
          auto; [discriminate|].
        intros p1 A3 E3. eapply runs_mono; [apply bump_any_times_runs; auto|]. intros a B HH. unfold idp in *.
        rewrite <- E3. apply HH; [eapply dlenK_pos; eauto|]. rewrite E3, EC. discriminate.
      * intros q2 A2 E2. unfold idp in *. apply runs_ret; auto. cbn [fst snd]. pose proof (after_len _ _ A1). split; auto. lia.
    + apply runs_ret; auto. cbn [fst snd]. split; auto.
  - apply runs_ret; auto. cbn [fst snd]. split; auto. intros E. rewrite E in EC. discriminate.
Qed.

Lemma invalid_line_runs d p k : (d <= MAX_RECURSION_DEPTH)%nat -> wf p ->
  runs d p (invalid_line k p) idp (fun _ K => ts_contains TS_LINE_END (khd K) = true).
Proof.
  intros Hd HW. unfold invalid_line. apply current_range_runs; auto. intros r.
  change (skip_until TS_LINE_END (bump_any (p_error k r p)))
    with (do p1 <- Done (p_error k r p); do p2 <- Done (bump_any p1); skip_until TS_LINE_END p2).
  rb p_error_runs as p1 A1 E1. rb bump_any_runs as p2 A2 E2.
  eapply runs_mono; [apply skip_until_runs; auto|]. intros a B H. unfold idp in *. rewrite H.
  apply negb_false_iff. apply (dropk_head (fun x => negb (ts_contains TS_LINE_END x))). reflexivity.
Qed.
