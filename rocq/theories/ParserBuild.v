(** The tree builder: the tree holds every token once, in order. *)
From Coq Require Import String Ascii List NArith Bool Arith Lia.
From Verif Require Import Base SyntaxKind TextModel LexerModel LexerSpec LexerProofs ParserModel ParserInv.
Import ListNotations.
Open Scope N_scope.
Open Scope list_scope.

(** * Trees *)
(** The text of a tree: the texts of its leaves, in order. *)
Fixpoint ttext (t : tree) : str :=
  match t with
  | TToken _ w => w
  | TNode _ cs => flat_map ttext cs
  end.
Definition ttexts (ts : list tree) : str := flat_map ttext ts.

(** How many arrays and inline tables are inside one another. *)
Fixpoint tnest (t : tree) : nat :=
  match t with
  | TNode k cs => weight k + fold_right (fun c m => Nat.max (tnest c) m) 0%nat cs
  | TToken _ _ => 0
  end.
Definition tnests (ts : list tree) : nat := fold_right (fun c m => Nat.max (tnest c) m) 0%nat ts.
Definition nests (ts : list ptree) : nat := fold_right (fun c m => Nat.max (nest c) m) 0%nat ts.

(** The trees [cs] are the event trees [ts], without the errors and with trivia added. *)
Inductive grown : list ptree -> list tree -> Prop :=
| gr_nil : grown [] []
| gr_trivia k w ts cs : is_trivia k = true -> grown ts cs -> grown ts (TToken k w :: cs)
| gr_token k n w ts cs : grown ts cs -> grown (PTk k n :: ts) (TToken k w :: cs)
| gr_error e ts cs : grown ts cs -> grown (PEr e :: ts) cs
| gr_node k c1 c2 ts cs : grown c1 c2 -> grown ts cs -> grown (PNd k c1 :: ts) (TNode k c2 :: cs).

Lemma grown_app a b c d : grown a b -> grown c d -> grown (a ++ c) (b ++ d).
Proof.
  induction 1; intros; simpl; auto; [apply gr_trivia|apply gr_token|apply gr_error|apply gr_node]; auto.
Qed.
Lemma grown_nests a b : grown a b -> tnests b = nests a.
Proof.
  induction 1; cbn [tnests nests fold_right tnest nest] in *; auto; try (unfold tnests, nests in *; lia).
Qed.
Lemma grown_trivia ws cs : Forall (fun c => exists k w, c = TToken k w /\ is_trivia k = true) cs -> ws = [] -> grown ws cs.
Proof. intros H ->. induction H as [|c cs (k & w & -> & Hk) _ IH]; constructor; auto. Qed.

Fixpoint errs (t : ptree) : list perror :=
  match t with PTk _ _ => [] | PEr e => [e] | PNd _ cs => flat_map errs cs end.

(** * The texts of tokens *)
Definition wtext (src : str) (t : token) : str :=
  match text_slice src (sstart (tspan t)) (send (tspan t)) with Some w => w | None => [] end.
Definition wtexts (src : str) (ts : list token) : str := flat_map (wtext src) ts.

Definition trivia_tokens (src : str) (ws : list token) : list tree := map (fun t => TToken (tkind t) (wtext src t)) ws.
(** The trees [cs] are the event trees [tr], over the tokens [x], with the trivia before the tokens and the nodes. *)
Inductive grown_over (src : str) : list ptree -> list token -> list tree -> Prop :=
| go_nil : grown_over src [] [] []
| go_token ws k n grp tr x cs : forallb triv ws = true -> Forall (fun t => triv t = false) grp -> length grp = n -> grown_over src tr x cs ->
    grown_over src (PTk k n :: tr) (ws ++ grp ++ x) (trivia_tokens src ws ++ TToken k (wtexts src grp) :: cs)
| go_error e tr x cs : grown_over src tr x cs -> grown_over src (PEr e :: tr) x cs
| go_node ws k c1 x1 c2 tr x cs : forallb triv ws = true -> grown_over src c1 x1 c2 -> grown_over src tr x cs ->
    grown_over src (PNd k c1 :: tr) (ws ++ x1 ++ x) (trivia_tokens src ws ++ TNode k c2 :: cs).
Lemma grown_over_app src a x u b y v : grown_over src a x u -> grown_over src b y v -> grown_over src (a ++ b) (x ++ y) (u ++ v).
Proof.
  induction 1; intros HB; cbn [app]; auto.
  - rewrite <- !app_assoc. apply go_token; auto.
  - apply go_error. auto.
  - rewrite <- !app_assoc. apply go_node; auto.
Qed.
Lemma tiles_wtexts src b s ts e : tiles b s ts -> src = b ++ s ++ e -> wtexts src ts = s.
Proof.
  intros H. revert e. induction H as [b|b w s t ts H1 H2 IH]; intros e HS; [reflexivity|]. unfold wtexts. cbn [flat_map]. fold (wtexts src ts).
  rewrite (IH e) by (rewrite HS, <- !app_assoc; reflexivity). f_equal. unfold wtext. rewrite H1. cbn [sstart send]. rewrite HS, <- app_assoc, text_slice_app. reflexivity.
Qed.
Lemma tiles_one src b w t e : tspan t = MkSpan (len_bytes b) (len_bytes (b ++ w)) -> src = b ++ w ++ e -> wtext src t = w.
Proof. intros H HS. unfold wtext. rewrite H. cbn [sstart send]. rewrite HS, text_slice_app. reflexivity. Qed.

(** * The steps of an event tree *)
Fixpoint steps (t : ptree) : list step :=
  match t with
  | PTk k n => [SToken k n]
  | PEr e => [SError e]
  | PNd k cs => SEnter k :: flat_map steps cs ++ [SExit]
  end.

Lemma process_app a b : process (a ++ b) = process a ++ process b.
Proof. unfold process. apply flat_map_app. Qed.

Fixpoint ptree_ind' (P : ptree -> Prop) (H1 : forall k n, P (PTk k n)) (H2 : forall e, P (PEr e))
    (H3 : forall k cs, Forall P cs -> P (PNd k cs)) (t : ptree) : P t :=
  match t with
  | PTk k n => H1 k n
  | PEr e => H2 e
  | PNd k cs => H3 k cs ((fix go (l : list ptree) : Forall P l :=
      match l with [] => Forall_nil P | x :: r => Forall_cons x (ptree_ind' P H1 H2 H3 x) (go r) end) cs)
  end.

Lemma process_flat t : kinds_ok t = true -> process (flat t) = steps t.
Proof.
  induction t as [k n|e|k cs IH] using ptree_ind'; intros H; try reflexivity.
  cbn [kinds_ok] in H. apply andb_true_iff in H as [H1 H2]. apply negb_true_iff in H1.
  cbn [flat steps]. change (process (EStart k :: flat_map flat cs ++ [EFinish]))
    with ((if kind_eqb k TOMBSTONE then [] else [SEnter k]) ++ process (flat_map flat cs ++ [EFinish])).
  rewrite H1, process_app. cbn [app]. f_equal. f_equal.
  induction IH as [|c cs HC _ IH2]; [reflexivity|]. cbn [forallb] in H2. apply andb_true_iff in H2 as [H2 H3].
  cbn [flat_map]. rewrite process_app, HC, IH2; auto.
Qed.

(** * What the green tree builder makes of the steps sent so far *)
Definition pending (b : builder) : list sink_step :=
  b_out b ++ match b_state b with PendingExit => [FinishNode] | _ => [] end.
Definition g0 : gbuilder := MkG [] [] [].

Lemma g_steps_app a b g : g_steps (a ++ b) g = do g <- g_steps a g; g_steps b g.
Proof. revert g. induction a as [|s a IH]; intros g; [reflexivity|]. simpl. destruct (g_step s g); simpl; auto. Qed.

Lemma error_finish e g g' : g_step FinishNode g = Done g' ->
  (do g <- g_step (SinkError e) g; g_step FinishNode g) = Done (MkG (g_parents g') (g_children g') (g_errors g' ++ [e])).
Proof.
  simpl. destruct (g_parents g) as [|[k n] ps]; [discriminate|]. intros H. inversion H; subst. reflexivity.
Qed.

(** * One token *)
Lemma tiles_head b s t ts : tiles b s (t :: ts) -> sstart (tspan t) = len_bytes b.
Proof. inversion 1 as [|? ? ? ? ? H1 H2]; subst. rewrite H1. reflexivity. Qed.

Lemma do_token_ok k n pre s1 s2 grp r b : b_src b = pre ++ s1 ++ s2 -> tiles pre s1 grp -> tiles (pre ++ s1) s2 r ->
  b_rest b = grp ++ r -> grp <> [] -> r <> [] -> length grp = n ->
  do_token k n b = Done (MkB (b_src b) r (b_state b) (b_out b ++ [AddToken k s1])).
Proof.
  intros HS T1 T2 HR Hg Hr Hn. unfold do_token. rewrite HR. destruct grp as [|t0 g]; [contradiction|]. destruct r as [|tn r]; [contradiction|].
  cbn [nth_error app]. change (t0 :: g ++ tn :: r) with ((t0 :: g) ++ tn :: r). rewrite nth_error_app2 by lia.
  rewrite Hn, Nat.sub_diag. cbn [nth_error]. rewrite (tiles_head _ _ _ _ T1), (tiles_head _ _ _ _ T2), HS, text_slice_app.
  rewrite <- Hn. rewrite <- HS. rewrite skipn_app, skipn_all, Nat.sub_diag. reflexivity.
Qed.

(** * Trivia *)
Definition trivia_trees (cs : list tree) : Prop := Forall (fun c => exists k w, c = TToken k w /\ is_trivia k = true) cs.
Definition adds (cs : list tree) : list sink_step := flat_map (fun c => match c with TToken k w => [AddToken k w] | TNode _ _ => [] end) cs.

Lemma adds_run cs g : trivia_trees cs -> g_steps (adds cs) g = Done (MkG (g_parents g) (rev cs ++ g_children g) (g_errors g)).
Proof.
  intros H. revert g. induction H as [|c cs (k & w & -> & Hk) _ IH]; intros g; simpl; [destruct g; reflexivity|].
  rewrite IH. simpl. rewrite <- app_assoc. reflexivity.
Qed.

Lemma eat_trivias_ok fuel : forall ws r pre s1 s2 b, b_src b = pre ++ s1 ++ s2 -> tiles pre s1 ws -> tiles (pre ++ s1) s2 r ->
  b_rest b = ws ++ r -> forallb triv ws = true -> match r with [] => False | t :: _ => triv t = false end ->
  (length ws < fuel)%nat ->
  exists cs, eat_trivias_ fuel b = Done (MkB (b_src b) r (b_state b) (b_out b ++ adds cs)) /\ trivia_trees cs /\ ttexts cs = s1 /\
    cs = trivia_tokens (b_src b) ws.
Proof.
  induction fuel as [|fuel IH]; intros ws r pre s1 s2 b HS T1 T2 HR HW Hr HF; [lia|]. cbn [eat_trivias_].
  destruct ws as [|t ws].
  - inversion T1; subst. rewrite HR. cbn [app]. destruct r as [|x r]; [contradiction|]. rewrite Hr. cbn [negb].
    exists []. split; [|split; [constructor|split; reflexivity]]. simpl. rewrite app_nil_r. destruct b; simpl in *; subst; reflexivity.
  - rewrite HR. cbn [app]. cbn [forallb] in HW. apply andb_true_iff in HW as [HT HW]. rewrite HT. cbn [negb].
    inversion T1 as [|b' w s' t' ts' H1 H2]; subst.
    assert (tiles (pre ++ w) (s' ++ s2) (ws ++ r)) as T3.
    { apply tiles_join; auto. rewrite <- app_assoc. exact T2. }
    rewrite (do_token_ok (tkind t) 1 pre w (s' ++ s2) [t] (ws ++ r) b); auto; try discriminate.
    + cbn [bind].
      destruct (IH ws r (pre ++ w) s' s2 (MkB (b_src b) (ws ++ r) (b_state b) (b_out b ++ [AddToken (tkind t) w]))) as (cs & E & Hcs & Ht & Hc); auto.
      * cbn [b_src]. rewrite HS, <- !app_assoc. reflexivity.
      * rewrite <- app_assoc. exact T2.
      * simpl in HF. lia.
      * exists (TToken (tkind t) w :: cs). cbn [b_src b_rest b_state b_out] in E. rewrite E. split; [|split; [|split]].
        -- simpl. rewrite <- app_assoc. reflexivity.
        -- constructor; auto. exists (tkind t), w. auto.
        -- simpl. congruence.
        -- cbn [trivia_tokens map]. f_equal; [|exact Hc]. f_equal. symmetry. apply (tiles_one _ pre w t (s' ++ s2)); auto. rewrite HS, <- app_assoc. reflexivity.
    + rewrite HS, <- app_assoc. reflexivity.
    + rewrite <- (app_nil_r w). constructor; auto. constructor.
    + destruct ws; [destruct r; [contradiction|]|]; discriminate.
Qed.

(** Leading trivia of what the leaves [ns] cover. *)
Lemma cov_trivia x ns : cov x ns -> exists ws x', x = ws ++ x' /\ forallb triv ws = true /\ cov x' ns /\
  match x' with [] => ns = [] | t :: _ => triv t = false end.
Proof.
  destruct 1 as [ws Hw|ws grp r n ns Hw Hg Hl Hn Hc].
  - exists ws, []. rewrite app_nil_r. repeat split; auto. apply cov_nil. reflexivity.
  - exists ws, (grp ++ r). repeat split; auto.
    + apply (cov_cons [] grp r n ns); auto.
    + destruct grp as [|t grp]; [contradiction|]. inversion Hg; auto.
Qed.

(** The builder, before it looks at the event trees that are left. *)
Record binv (b : builder) (src : str) (done : str) (x : list token) (eof : token) (g : gbuilder) : Prop := MkBinv {
  bi_state : b_state b <> PendingEnter;
  bi_src : b_src b = src;
  bi_rest : b_rest b = x ++ [eof];
  bi_tiles : exists s, src = done ++ s /\ tiles done s (x ++ [eof]);
  bi_eof : triv eof = false;
  bi_g : g_steps (pending b) g0 = Done g }.

Definition g_add (cs : list tree) (g : gbuilder) : gbuilder := MkG (g_parents g) (rev cs ++ g_children g) (g_errors g).

(** Both [token] and [enter] close a pending node and take the trivia. *)
Definition settle (b : builder) : res builder :=
  match b_state b with
  | PendingExit => eat_trivias (send_step FinishNode (set_state Normal b))
  | _ => eat_trivias b
  end.
Lemma b_token_settle k n b : b_state b <> PendingEnter -> b_token k n b = do b <- settle b; do_token k n b.
Proof. unfold b_token, settle. destruct (b_state b); intros; congruence. Qed.
Lemma b_enter_settle k b : b_state b <> PendingEnter -> b_enter k b = do b <- settle b; Done (send_step (StartNode k) b).
Proof. unfold b_enter, settle. destruct (b_state b); intros; congruence. Qed.

Lemma settle_ok b src done x eof g ns : binv b src done x eof g -> cov x ns ->
  exists b' cs x', settle b = Done b' /\ trivia_trees cs /\ binv b' src (done ++ ttexts cs) x' eof (g_add cs g) /\
    b_state b' = Normal /\ cov x' ns /\ match x' with [] => ns = [] | t :: _ => triv t = false end /\
    exists ws, x = ws ++ x' /\ forallb triv ws = true /\ cs = trivia_tokens src ws.
Proof.
  intros [i1 i2 i3 (s & i4 & i4') i5 i6] HC. apply cov_trivia in HC as (ws & x' & -> & Hw & HC & Hh).
  assert (exists b1, settle b = eat_trivias b1 /\ b_state b1 = Normal /\ b_src b1 = src /\ b_rest b1 = b_rest b /\ b_out b1 = pending b) as (b1 & E1 & E2 & E3 & E4 & E5).
  { unfold settle, pending. destruct (b_state b) eqn:ES; [contradiction| |].
    - exists b. rewrite app_nil_r. auto.
    - eexists. split; [reflexivity|]. auto. }
  rewrite <- app_assoc in i4'. apply tiles_split in i4' as (s1 & s2 & -> & T1 & T2).
  destruct (eat_trivias_ok (S (length (b_rest b1))) ws (x' ++ [eof]) done s1 s2 b1) as (cs & F1 & F2 & F3 & F6); auto.
  - rewrite E3. exact i4.
  - rewrite E4, i3, <- app_assoc. reflexivity.
  - destruct x'; [exact i5|exact Hh].
  - rewrite E4, i3, !app_length. lia.
  - rewrite E1. unfold eat_trivias. rewrite F1. eexists _, cs, x'. split; [reflexivity|]. split; [exact F2|].
    split; [|split; [exact E2|split; [exact HC|split; [exact Hh|exists ws; rewrite <- E3; auto]]]]. rewrite F3. split; cbn [b_state b_src b_rest b_out]; auto.
    + rewrite E2. discriminate.
    + exists s2. rewrite <- app_assoc. auto.
    + unfold pending. cbn [b_state b_out]. rewrite E2, app_nil_r, g_steps_app, E5, i6. cbn [bind]. apply adds_run. exact F2.
Qed.

Definition g_err (es : list perror) (g : gbuilder) : gbuilder := MkG (g_parents g) (g_children g) (g_errors g ++ es).

Lemma b_steps_app a c b : b_steps (a ++ c) b = do b <- b_steps a b; b_steps c b.
Proof.
  revert b. induction a as [|s a IH]; intros b; [reflexivity|]. cbn [b_steps app].
  match goal with |- bind ?m _ = _ => destruct m; cbn [bind]; auto end.
Qed.

Definition good_tree (t : ptree) : Prop := forall b src done x eof g ns,
  binv b src done x eof g -> cov x (leaves t ++ ns) ->
  exists b' cs x', b_steps (steps t) b = Done b' /\ grown [t] cs /\
    binv b' src (done ++ ttexts cs) x' eof (g_err (errs t) (g_add cs g)) /\ cov x' ns /\
    exists y, x = y ++ x' /\ grown_over src [t] y cs.

Definition good_trees (ts : list ptree) : Prop := forall b src done x eof g ns,
  binv b src done x eof g -> cov x (flat_map leaves ts ++ ns) ->
  exists b' cs x', b_steps (flat_map steps ts) b = Done b' /\ grown ts cs /\
    binv b' src (done ++ ttexts cs) x' eof (g_err (flat_map errs ts) (g_add cs g)) /\ cov x' ns /\
    exists y, x = y ++ x' /\ grown_over src ts y cs.

Lemma ttexts_app a b : ttexts (a ++ b) = ttexts a ++ ttexts b.
Proof. apply flat_map_app. Qed.

Lemma good_trees_of ts : Forall good_tree ts -> good_trees ts.
Proof.
  induction 1 as [|t ts HT _ IH]; intros b src done x eof g ns HB HC.
  - exists b, [], x. split; [reflexivity|]. split; [constructor|]. split; [|split; [exact HC|exists []; split; [reflexivity|constructor]]].
    destruct HB as [i1 i2 i3 i4 i5 i6]. simpl. rewrite app_nil_r. split; auto. rewrite i6. destruct g; simpl. unfold g_err, g_add. simpl. rewrite app_nil_r. reflexivity.
  - cbn [flat_map] in HC. rewrite <- app_assoc in HC. destruct (HT _ _ _ _ _ _ _ HB HC) as (b1 & c1 & x1 & E1 & G1 & B1 & C1 & y1 & X1 & O1).
    destruct (IH _ _ _ _ _ _ _ B1 C1) as (b2 & c2 & x2 & E2 & G2 & B2 & C2 & y2 & X2 & O2).
    exists b2, (c1 ++ c2), x2. split; [cbn [flat_map]; rewrite b_steps_app, E1; exact E2|].
    split; [apply (grown_app [t]); auto|]. split; [|split; [exact C2|exists (y1 ++ y2); split; [rewrite X1, X2, app_assoc; reflexivity|apply (grown_over_app src [t]); auto]]].
    rewrite ttexts_app, app_assoc. cbn [flat_map].
    replace (g_err (errs t ++ flat_map errs ts) (g_add (c1 ++ c2) g)) with (g_err (flat_map errs ts) (g_add c2 (g_err (errs t) (g_add c1 g)))); [exact B2|].
    unfold g_err, g_add. simpl. rewrite rev_app_distr, <- !app_assoc. reflexivity.
Qed.

Lemma cov_cons_inv x n ns : cov x (n :: ns) -> match x with [] => False | t :: _ => triv t = false end ->
  exists grp r, x = grp ++ r /\ length grp = n /\ grp <> [] /\ cov r ns /\ Forall (fun t => triv t = false) grp.
Proof.
  intros H. inversion H as [|ws grp r n' ns' Hw Hg Hl Hn Hc]; subst. intros HH. destruct ws as [|t ws].
  - exists grp, r. auto.
  - simpl in *. rewrite HH in Hw. discriminate.
Qed.

Lemma trivia_grown cs : trivia_trees cs -> grown [] cs.
Proof. intros H. apply grown_trivia; auto. Qed.

Lemma every_good_tree t : good_tree t.
Proof.
  induction t as [k n|e|k ts IH] using ptree_ind'; intros b src done x eof g ns HB HC.
  - (* a token *)
    cbn [leaves] in HC. destruct (settle_ok _ _ _ _ _ _ _ HB HC) as (b1 & cs & x1 & E1 & H1 & B1 & S1 & C1 & Hh & ws & HX & HW & HCS).
    destruct x1 as [|t0 x1']; [discriminate Hh|]. remember (t0 :: x1') as x1 eqn:EX.
    apply cov_cons_inv in C1 as (grp & r & E & Hl & Hg & Hc & Hn); [|rewrite EX; exact Hh].
    destruct B1 as [i1 i2 i3 (s & i4 & i4') i5 i6]. rewrite E, <- app_assoc in i3, i4'.
    apply tiles_split in i4' as (s1 & s2 & -> & T1 & T2).
    exists (MkB src (r ++ [eof]) (b_state b1) (b_out b1 ++ [AddToken k s1])), (cs ++ [TToken k s1]), r.
    split; [|split; [|split; [|split; [exact Hc|exists (ws ++ grp); split; [rewrite HX, E, app_assoc; reflexivity|]]]]].
    4: { rewrite HCS. rewrite <- (tiles_wtexts src _ _ _ s2 T1) by (rewrite i4; reflexivity). rewrite <- (app_nil_r grp) at 1. apply go_token; auto. constructor. }
    + cbn [steps b_steps]. rewrite b_token_settle by apply HB. rewrite E1. cbn [bind].
      rewrite (do_token_ok k n (done ++ ttexts cs) s1 s2 grp (r ++ [eof]) b1); auto; [|rewrite i2; exact i4|destruct r; discriminate].
      cbn [bind]. rewrite i2. reflexivity.
    + apply (grown_app [] cs [PTk k n] [TToken k s1]); [apply trivia_grown; auto|]. apply gr_token. apply gr_nil.
    + rewrite ttexts_app. cbn [ttexts flat_map ttext]. rewrite app_nil_r. split; cbn [b_state b_src b_rest b_out]; auto.
      * exists s2. rewrite i4, <- !app_assoc. rewrite <- !app_assoc in T2. auto.
      * unfold pending in *. cbn [b_state b_out]. rewrite S1, app_nil_r in *. rewrite g_steps_app, i6. cbn [bind g_steps g_step].
        unfold g_err, g_add. cbn [errs g_parents g_children g_errors]. rewrite rev_app_distr, app_nil_r. reflexivity.
  - (* an error *)
    exists (send_step (SinkError e) b), [], x. split; [reflexivity|]. split; [apply gr_error; apply gr_nil|]. split; [|split; [exact HC|exists []; split; [reflexivity|repeat constructor]]].
    destruct HB as [i1 i2 i3 i4 i5 i6]. cbn [ttexts flat_map]. rewrite app_nil_r. split; auto.
    unfold pending in *. cbn [send_step b_state b_out errs g_add rev app].
    rewrite <- app_assoc. rewrite g_steps_app in *. destruct (g_steps (b_out b) g0) as [g1| | |]; try discriminate i6. cbn [bind] in *.
    destruct (b_state b).
    + contradiction.
    + simpl in *. inversion i6; subst. reflexivity.
    + cbn [app g_steps] in *. destruct (g_step FinishNode g1) as [g2| | |] eqn:EF; try discriminate i6. cbn [bind] in i6. inversion i6; subst.
      pose proof (error_finish e g1 g EF) as HE. cbn [bind] in HE |- *. destruct (g_step (SinkError e) g1); try discriminate HE. cbn [bind] in *.
      rewrite HE. reflexivity.
  - (* a node *)
    apply good_trees_of in IH. cbn [leaves] in HC.
    destruct (settle_ok _ _ _ _ _ _ _ HB HC) as (b1 & cs & x1 & E1 & H1 & B1 & S1 & C1 & _ & ws & HX & HW & HCS).
    assert (binv (send_step (StartNode k) b1) src (done ++ ttexts cs) x1 eof
             (MkG ((k, length (g_children (g_add cs g))) :: g_parents g) (g_children (g_add cs g)) (g_errors g))) as B2.
    { destruct B1 as [i1 i2 i3 i4 i5 i6]. split; auto. unfold pending in *. cbn [send_step b_state b_out]. rewrite S1, app_nil_r in *.
      rewrite g_steps_app, i6. reflexivity. }
    destruct (IH _ _ _ _ _ _ _ B2 C1) as (b3 & c3 & x3 & E3 & G3 & B3 & C3 & y3 & X3 & O3).
    assert (exists b4, b_exit b3 = Done b4 /\ b_state b4 = PendingExit /\ b_src b4 = b_src b3 /\ b_rest b4 = b_rest b3 /\ b_out b4 = pending b3) as (b4 & F1 & F2 & F3 & F4 & F5).
    { unfold b_exit, pending. pose proof (bi_state _ _ _ _ _ _ B3). destruct (b_state b3) eqn:ES; [contradiction| |]; eexists; (split; [reflexivity|]).
      - rewrite app_nil_r. auto.
      - auto. }
    exists b4, (cs ++ [TNode k c3]), x3. split; [|split; [|split; [|split; [exact C3|exists (ws ++ y3); split; [rewrite HX, X3, app_assoc; reflexivity|]]]]].
    4: { rewrite HCS. rewrite <- (app_nil_r y3). apply go_node; auto. constructor. }
    + cbn [steps b_steps]. rewrite b_enter_settle by apply HB. rewrite E1. cbn [bind]. rewrite b_steps_app, E3. cbn [bind b_steps].
      rewrite F1. reflexivity.
    + apply (grown_app [] cs [PNd k ts] [TNode k c3]); [apply trivia_grown; auto|]. apply gr_node; [exact G3|apply gr_nil].
    + destruct B3 as [i1 i2 i3 i4 i5 i6].
      replace (done ++ ttexts (cs ++ [TNode k c3])) with ((done ++ ttexts cs) ++ ttexts c3)
        by (rewrite ttexts_app; unfold ttexts; cbn [flat_map ttext]; rewrite app_nil_r, app_assoc; reflexivity).
      split; auto; try congruence.
      unfold pending. rewrite F2, F5, g_steps_app, i6. cbn [bind g_steps g_step g_err g_add g_parents g_children g_errors].
        rewrite app_length, Nat.add_sub.
        replace (length (rev c3)) with (length (rev c3) + 0)%nat by lia.
        rewrite firstn_app_2, skipn_app. rewrite Nat.add_0_r, skipn_all, Nat.sub_diag. cbn [firstn skipn app].
        rewrite app_nil_r, rev_involutive. unfold g_err, g_add. cbn [g_parents g_children g_errors errs].
        rewrite rev_app_distr. reflexivity.
Qed.

(** * The whole tree *)
Lemma build_ok source ts eof tr : tiles [] source (ts ++ [eof]) -> triv eof = false -> tspan eof = MkSpan (len_bytes source) (len_bytes source) ->
  cov ts (flat_map leaves tr) ->
  exists cs, build_green_tree source (ts ++ [eof]) (steps (PNd ROOT tr)) = Done (TNode ROOT cs, flat_map errs tr) /\
    grown tr cs /\ ttexts cs = source /\
    exists x ws c, ts = x ++ ws /\ forallb triv ws = true /\ grown_over source tr x c /\ cs = c ++ trivia_tokens source ws.
Proof.
  intros HT He Hs HC.
  assert (binv (send_step (StartNode ROOT) (set_state Normal (MkB source (ts ++ [eof]) PendingEnter []))) source [] ts eof (MkG [(ROOT, 0%nat)] [] [])) as B1.
  { split; auto; try discriminate. exists source. auto. }
  assert (cov ts (flat_map leaves tr ++ [])) as HC' by (rewrite app_nil_r; exact HC).
  assert (good_trees tr) as HG by (apply good_trees_of, Forall_forall; intros; apply every_good_tree).
  destruct (HG _ _ _ _ _ _ _ B1 HC') as (b2 & c2 & x2 & E2 & G2 & B2 & C2 & y2 & X2 & O2).
  assert (exists b3, b_exit b2 = Done b3 /\ b_state b3 = PendingExit /\ b_src b3 = b_src b2 /\ b_rest b3 = b_rest b2 /\ b_out b3 = pending b2) as (b3 & F1 & F2 & F3 & F4 & F5).
  { unfold b_exit, pending. pose proof (bi_state _ _ _ _ _ _ B2). destruct (b_state b2) eqn:ES; [contradiction| |]; eexists; (split; [reflexivity|]).
    - rewrite app_nil_r. auto.
    - auto. }
  assert (binv (set_state Normal b3) source ([] ++ ttexts c2) x2 eof (g_err (flat_map errs tr) (g_add c2 (MkG [(ROOT, 0%nat)] [] [])))) as B3.
  { destruct B2 as [i1 i2 i3 i4 i5 i6]. split; auto; try discriminate; cbn [set_state b_src b_rest]; try congruence.
    unfold pending. cbn [set_state b_state b_out]. rewrite app_nil_r, F5. exact i6. }
  destruct (settle_ok _ _ _ _ _ _ _ B3 C2) as (b4 & c4 & x4 & E4 & H4 & B4 & S4 & C4 & H5 & ws & HX & HW & HCS).
  assert (x4 = []) as ->. { destruct x4 as [|t x4]; [reflexivity|]. inversion C4 as [ws' Hw|]; subst. cbn [forallb] in Hw. rewrite H5 in Hw. discriminate. }
  exists (c2 ++ c4). split; [|split; [|split]].
  - unfold build_green_tree, intersperse_trivia. cbn [steps b_steps b_enter b_state]. cbn [bind].
    rewrite b_steps_app, E2. cbn [bind b_steps]. rewrite F1. cbn [bind]. rewrite F2. unfold settle in E4.
    cbn [set_state b_state] in E4. change (MkB (b_src b3) (b_rest b3) Normal (b_out b3)) with (set_state Normal b3) in E4. rewrite E4.
    cbn [bind]. destruct B4 as [i1 i2 i3 i4 i5 i6]. unfold pending in i6. rewrite S4, app_nil_r in i6.
    cbn [send_step b_out]. rewrite g_steps_app. fold g0. rewrite i6. cbn [bind g_steps g_step g_parents g_add g_err g_children g_errors].
    rewrite !app_nil_r, Nat.sub_0_r. rewrite firstn_all, skipn_all. cbn [g_finish g_children g_errors app].
    rewrite <- rev_app_distr, rev_involutive. reflexivity.
  - rewrite <- (app_nil_r tr). apply grown_app; [exact G2|apply trivia_grown; exact H4].
  - destruct B4 as [i1 i2 i3 (s & i4 & i4') i5 i6]. rewrite ttexts_app. cbn [app] in *.
    apply (f_equal len_bytes) in i4 as i7. inversion i4' as [|b' w s' t' ts' K1 K2]; subst. inversion K2; subst.
    rewrite Hs in K1. injection K1 as K1. rewrite !len_bytes_app in *. rewrite app_nil_r in *.
    assert (w = []) as ->. { destruct w as [|c w]; [reflexivity|]. cbn [len_bytes] in *. pose proof (len_utf8_pos c). lia. }
    rewrite app_nil_r in i4. congruence.
  - exists y2, ws, c2. rewrite X2, HX, app_nil_r, HCS. auto.
Qed.
