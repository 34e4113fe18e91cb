(** Invariants of the document store over every schedule. *)

From Coq Require Import List NArith ZArith Bool Lia.
From Verif Require Import Base ServerModel ServerSpec.
Import ListNotations.
Open Scope N_scope.
Open Scope list_scope.

Lemma opt_z_eqb_eq a b : opt_z_eqb a b = true -> a = b.
Proof.
  destruct a, b; cbn; intro H; try discriminate; try reflexivity.
  apply Z.eqb_eq in H. now subst.
Qed.

Lemma latest_text_whole cs : whole_document cs ->
  latest_text cs = Some (last (map c_text cs) []).
Proof.
  intros [Hne Hf]. unfold latest_text.
  assert (G : forall cs acc, Forall (fun c => c_ranged c = false) cs ->
    fold_left (fun acc c => if c_ranged c then acc else Some (c_text c)) cs acc =
    match cs with [] => acc | _ => Some (last (map c_text cs) []) end).
  { clear. induction cs as [| c cs IH]; intros acc Hf; [reflexivity |].
    inversion Hf as [| ? ? Hc Hcs]; subst. cbn [fold_left]. rewrite Hc, IH by assumption.
    destruct cs; reflexivity. }
  rewrite G by assumption. destruct cs; [now elim Hne | reflexivity].
Qed.

Lemma last_map_default (cs : list content_change) t u :
  cs <> [] -> last (map c_text cs) t = last (map c_text cs) u.
Proof.
  induction cs as [| c [| c' cs'] IH]; intro H.
  - now elim H.
  - reflexivity.
  - cbn [map last]. cbn [map] in IH. apply IH. discriminate.
Qed.

Section Inv.
Context (fmt : N -> list N -> option (list N)).
Context (fmts : bool). (* whether there are formatting requests at all *)

Definition derived (t t' : list N) : Prop :=
  if fmts then formatted_from fmt t t' else t' = t.

Lemma derived_refl t : derived t t.
Proof. unfold derived. destruct fmts; [constructor | reflexivity]. Qed.

Lemma derived_step t t1 t2 tv :
  fmts = true -> derived t t1 -> fmt tv t1 = Some t2 -> derived t t2.
Proof. unfold derived. intros -> H1 H2. econstructor; eassumption. Qed.

Definition from_version (app : list (Z * list N)) (v : option Z) (x : list N) : Prop :=
  forall z, v = Some z -> exists t, In (z, t) app /\ derived t x.

Definition res_ok app (r : dresult) : Prop := from_version app (r_version r) (r_text r).

Definition task_ok (app : list (Z * list N)) (t : task) : Prop :=
  match t with
  | TOpenClear | TChangeClear2 _ | TSave None | TSaveClear _ | TDisk _
  | TDiskWrite _ _ | TDiskClear | TDiag _ | TDiagSnapshot _ => True
  | TFormat | TFormatting _ _ => fmts = true
  | TChange _ (Some _) => True
  | TChangeClear v (Some x) _ _ | TChangeResolve v x _ _ | TChangeRefine v x _ _ => In (v, x) app
  | TDiagCached _ r | TDiagStore _ r => res_ok app r
  | TDiagLint _ s => from_version app (s_version s) (s_text s)
  | _ => False
  end.

Definition world_ok app (w : world) : Prop :=
  (forall r, w_cache w = Some r -> res_ok app r) /\
  Forall (fun p => res_ok app (snd p)) (w_served w).

Lemma from_version_incl a b v x : incl a b -> from_version a v x -> from_version b v x.
Proof.
  intros Hi H z Hz. destruct (H z Hz) as (t & Ht & Hd). exists t. split; [now apply Hi | exact Hd].
Qed.

Lemma task_ok_incl a b t : incl a b -> task_ok a t -> task_ok b t.
Proof.
  intros Hi.
  destruct t; cbn; try tauto;
    try (destruct t; try tauto); try (apply Hi);
    unfold res_ok; eauto using from_version_incl.
Qed.

Lemma world_ok_incl a b w : incl a b -> world_ok a w -> world_ok b w.
Proof.
  intros Hi [H1 H2]. split.
  - intros r Hr. unfold res_ok. eauto using from_version_incl.
    eapply from_version_incl; [exact Hi | now apply H1].
  - eapply Forall_impl; [| exact H2]. intros p. apply from_version_incl, Hi.
Qed.

(** The queue of changes still to be applied. *)
Fixpoint pending (ts : list task) : list (Z * list N) :=
  match ts with
  | [] => []
  | TChange v (Some x) :: ts' => (v, x) :: pending ts'
  | _ :: ts' => pending ts'
  end.

Lemma pending_app a b : pending (a ++ b) = pending a ++ pending b.
Proof.
  induction a as [| t a IH]; [reflexivity |].
  cbn. destruct t; try exact IH. destruct t; [cbn; now rewrite IH | exact IH].
Qed.

Lemma pending_unqueued ts : existsb queued ts = false -> pending ts = [].
Proof.
  induction ts as [| t ts IH]; cbn; [reflexivity |].
  rewrite orb_false_iff. intros [H1 H2]. destruct t; try (now apply IH). discriminate.
Qed.

Definition not_change (t : task) : Prop := match t with TChange _ _ => False | _ => True end.

Lemma not_change_pending t : not_change t -> pending [t] = [].
Proof. destruct t; cbn; tauto. Qed.

Definition doc_is (w : world) (v : Z) (x : list N) : Prop :=
  exists s, w_doc w = Some s /\ s_version s = Some v /\ derived x (s_text s).

Lemma run_other app v x k w t :
  In (v, x) app ->
  (forall z a b, In (z, a) app -> In (z, b) app -> a = b) ->
  doc_is w v x -> world_ok app w -> task_ok app t -> not_change t ->
  let '(w', rest) := run_task fmt k w t in
  doc_is w' v x /\ world_ok app w' /\
  match rest with Some t' => task_ok app t' /\ not_change t' | None => True end.
Proof.
  intros Hin Huniq (s & Hs & Hv & Hd) [Hc Hsv] Hok Hnc.
  assert (Hdoc : doc_is w v x) by (exists s; auto).
  assert (Hw : world_ok app w) by (split; assumption).
  assert (Hcl : world_ok app (set_cache w None)).
  { split; [intros r Hr; discriminate | exact Hsv]. }
  assert (Hpush : forall b, match push_task b with Some t' => task_ok app t' /\ not_change t' | None => True end).
  { intros []; cbn; auto. }
  Local Ltac fin Hdoc Hw Hcl Hpush :=
    split; [exact Hdoc | split; [first [exact Hw | exact Hcl] | first [exact I | apply Hpush | cbn; auto]]].
  destruct t; cbn [task_ok not_change] in Hok, Hnc; try tauto; cbn [run_task].
  - (* TOpenClear *) fin Hdoc Hw Hcl Hpush.
  - (* TChangeClear *)
    destruct t as [y|]; [| tauto]. fin Hdoc Hw Hcl Hpush.
  - (* TChangeResolve *)
    destruct (negb (k_toml k =? prev)); fin Hdoc Hw Hcl Hpush.
  - (* TChangeRefine *)
    rewrite Hs. rewrite Hv.
    destruct (opt_z_eqb (Some v) (Some v0)) eqn:E; cbn [negb]; [| fin Hdoc Hw Hcl Hpush].
    apply opt_z_eqb_eq in E. injection E as <-.
    assert (t = x) as -> by (eapply Huniq; eassumption).
    split; [| split].
    + exists (set_text s x tv). cbn. repeat split; auto. apply derived_refl.
    + split; [exact Hc | exact Hsv].
    + cbn. auto.
  - (* TChangeClear2 *) fin Hdoc Hw Hcl Hpush.
  - (* TSave *) destruct t; [tauto |]. fin Hdoc Hw Hcl Hpush.
  - (* TSaveClear *) fin Hdoc Hw Hcl Hpush.
  - (* TFormat *)
    destruct (k_busy k); [fin Hdoc Hw Hcl Hpush |]. rewrite Hs. fin Hdoc Hw Hcl Hpush.
  - (* TFormatting *)
    destruct (fmt tv t) as [y|] eqn:Ef; [| fin Hdoc Hw Hcl Hpush].
    destruct (str_eqb t y); [fin Hdoc Hw Hcl Hpush |].
    destruct (k_busy k); [fin Hdoc Hw Hcl Hpush |]. rewrite Hs.
    destruct (str_eqb (s_text s) t) eqn:Et; [| fin Hdoc Hw Hcl Hpush].
    apply str_eqb_eq in Et. subst t.
    split; [| split]; [| split; [exact Hc | exact Hsv] | exact I].
    exists (set_text s y tv). cbn. repeat split; auto. eapply derived_step; eassumption.
  - (* TDisk *) fin Hdoc Hw Hcl Hpush.
  - (* TDiskWrite *) rewrite Hs, Hv. fin Hdoc Hw Hcl Hpush.
  - (* TDiskClear *) fin Hdoc Hw Hcl Hpush.
  - (* TDiag *)
    destruct (w_cache w) as [r|] eqn:Ec; fin Hdoc Hw Hcl Hpush.
  - (* TDiagCached *)
    destruct (opt_z_eqb (r_version r) (doc_version w)); [| fin Hdoc Hw Hcl Hpush].
    split; [| split; [| exact I]].
    + exists s. auto.
    + split; [exact Hc |]. cbn. constructor; assumption.
  - (* TDiagSnapshot *)
    destruct (k_busy k); [fin Hdoc Hw Hcl Hpush |]. rewrite Hs.
    split; [exact Hdoc |]. split; [exact Hw |]. cbn. split; [| exact I].
    intros z Hz. rewrite Hv in Hz. injection Hz as <-. eauto.
  - (* TDiagLint *) fin Hdoc Hw Hcl Hpush.
  - (* TDiagStore *)
    split; [| split; [| exact I]].
    + exists s. destruct (negb (k_busy k) && opt_z_eqb (doc_version w) (r_version r)); cbn; auto.
    + destruct (negb (k_busy k) && opt_z_eqb (doc_version w) (r_version r)); split; cbn; auto.
      intros r' Hr'. injection Hr' as <-. exact Hok.
Qed.

Fixpoint increasing (v : Z) (l : list (Z * list N)) : Prop :=
  match l with
  | [] => True
  | (v', _) :: l' => (v < v')%Z /\ increasing v' l'
  end.

Lemma increasing_lt l : forall v z t, increasing v l -> In (z, t) l -> (v < z)%Z.
Proof.
  induction l as [| [v' t'] l IH]; intros v z t Hi Hin; [destruct Hin |].
  destruct Hi as [Hlt Hi]. destruct Hin as [E | Hin].
  - injection E as <- <-. exact Hlt.
  - pose proof (IH _ _ _ Hi Hin). lia.
Qed.

Lemma increasing_uniq l : forall v z a b,
  increasing v l -> In (z, a) l -> In (z, b) l -> a = b.
Proof.
  induction l as [| [v' t'] l IH]; intros v z a b Hi Ha Hb; [destruct Ha |].
  destruct Hi as [Hlt Hi].
  destruct Ha as [Ea | Ha], Hb as [Eb | Hb].
  - congruence.
  - injection Ea as <- <-. pose proof (increasing_lt _ _ _ _ Hi Hb). lia.
  - injection Eb as <- <-. pose proof (increasing_lt _ _ _ _ Hi Ha). lia.
  - eapply IH; eassumption.
Qed.

(** After the opening: [app] the texts applied, [pend] those still queued. *)
Definition inv (lo : Z) (app pend : list (Z * list N)) (c : config) : Prop :=
  increasing lo (app ++ pend) /\
  pending (g_tasks c) = pend /\
  Forall (task_ok app) (g_tasks c) /\
  world_ok app (g_world c) /\
  exists app' v x, app = app' ++ [(v, x)] /\ doc_is (g_world c) v x.

Lemma nth_split_firstn {A} (l : list A) i t :
  nth_error l i = Some t -> l = firstn i l ++ t :: skipn (S i) l.
Proof.
  revert i. induction l as [| a l IH]; intros [| i] H; try discriminate.
  - injection H as ->. reflexivity.
  - cbn [firstn app]. f_equal. now apply IH.
Qed.

Lemma inv_run lo app pend c i k :
  inv lo app pend c ->
  exists app2 pend2, app ++ pend = app2 ++ pend2 /\ incl app app2 /\
    inv lo app2 pend2 (exec1 fmt c (ERun i k)).
Proof.
  intros (Hinc & Hpend & Htasks & Hw & app' & v & x & Happ & Hdoc).
  assert (Hsame : exists app2 pend2, app ++ pend = app2 ++ pend2 /\ incl app app2 /\ inv lo app2 pend2 c).
  { exists app, pend. split; [reflexivity |]. split; [apply incl_refl |]. repeat split; auto.
    - apply Hw.
    - apply Hw.
    - exists app', v, x. auto. }
  cbn [exec1].
  destruct (nth_error (g_tasks c) i) as [t|] eqn:En; [| exact Hsame].
  pose proof (nth_split_firstn _ _ _ En) as Hsplit.
  remember (firstn i (g_tasks c)) as before. remember (skipn (S i) (g_tasks c)) as after.
  destruct (blocked before t) eqn:Eb; [exact Hsame |].
  rewrite Hsplit in Htasks, Hpend.
  apply Forall_app in Htasks. destruct Htasks as [Hb Hta].
  pose proof (Forall_inv Hta) as Ht. pose proof (Forall_inv_tail Hta) as Ha.
  rewrite pending_app in Hpend.
  change (t :: after) with ([t] ++ after) in Hpend. rewrite pending_app in Hpend.
  assert (Hin : In (v, x) app) by (rewrite Happ; apply in_or_app; right; now left).
  assert (Huniq : forall z a b, In (z, a) app -> In (z, b) app -> a = b).
  { intros z a b H1 H2. eapply increasing_uniq; [exact Hinc | |]; apply in_or_app; left; eassumption. }
  assert (Hcase : not_change t \/ exists v' y, t = TChange v' (Some y)).
  { destruct t; try (left; exact I). destruct t; [right; eauto | destruct Ht]. }
  destruct Hcase as [Hnc | (v' & y & ->)].
  - pose proof (run_other app v x k (g_world c) t Hin Huniq Hdoc Hw Ht Hnc) as Hrun.
    destruct (run_task fmt k (g_world c) t) as [w' rest].
    destruct Hrun as (Hdoc' & Hw' & Hrest).
    exists app, pend. split; [reflexivity |]. split; [apply incl_refl |].
    rewrite (not_change_pending _ Hnc) in Hpend.
    repeat split; auto.
    + cbn [g_tasks]. rewrite !pending_app.
      replace (pending match rest with Some t' => [t'] | None => [] end) with (@nil (Z * list N)); [exact Hpend |].
      destruct rest; [| reflexivity]. symmetry. apply not_change_pending. apply Hrest.
    + cbn [g_tasks]. apply Forall_app. split; [exact Hb |]. apply Forall_app. split; [| exact Ha].
      destruct rest; constructor; [apply Hrest | constructor].
    + apply Hw'.
    + apply Hw'.
    + exists app', v, x. auto.
  - (* the change at the head of the queue is applied *)
    unfold blocked in Eb. cbn [queued andb] in Eb.
    pose proof (pending_unqueued _ Eb) as Hpb. rewrite Hpb in Hpend.
    cbn [pending List.app] in Hpend.
    destruct Hdoc as (s & Hs & Hv & Hd).
    cbn [run_task]. rewrite Hs.
    exists (app ++ [(v', y)]), (pending after).
    assert (Hincl : incl app (app ++ [(v', y)])) by (intros p Hp; apply in_or_app; auto).
    split; [rewrite <- Hpend, <- app_assoc; reflexivity |].
    split; [exact Hincl |].
    repeat split.
    + rewrite <- app_assoc. cbn [List.app]. rewrite Hpend. exact Hinc.
    + cbn [g_tasks]. rewrite !pending_app, Hpb. reflexivity.
    + cbn [g_tasks]. apply Forall_app. split; [| apply Forall_app; split].
      * eapply Forall_impl; [| exact Hb]. intros. now apply (task_ok_incl app).
      * constructor; [| constructor]. cbn. apply in_or_app. right. now left.
      * eapply Forall_impl; [| exact Ha]. intros. now apply (task_ok_incl app).
    + apply (world_ok_incl app); [exact Hincl |]. destruct Hw as [H1 H2]. split; [exact H1 | exact H2].
    + apply (world_ok_incl app); [exact Hincl |]. destruct Hw as [H1 H2]. split; [exact H1 | exact H2].
    + exists app, v', y. split; [reflexivity |].
      eexists. cbn. split; [reflexivity |]. split; [reflexivity |]. apply derived_refl.
Qed.

(** Receiving a message while the document is open. *)
Definition formats (m : msg) : bool := match m with MFormat => true | _ => false end.

Lemma start_ok app m : editing m -> (formats m = true -> fmts = true) ->
  task_ok app (start m).
Proof.
  intros He Hf. destruct m; cbn in *; try tauto.
  - rewrite latest_text_whole by exact He. exact I.
Qed.

Lemma start_pending m : editing m -> pending [start m] = sent [m].
Proof.
  intros He. destruct m; cbn in *; try tauto; try reflexivity.
  rewrite latest_text_whole by exact He. reflexivity.
Qed.

Fixpoint last_version (v : Z) (l : list (Z * list N)) : Z :=
  match l with [] => v | (v', _) :: l' => last_version v' l' end.

Lemma increasing_app l1 : forall v l2,
  increasing v (l1 ++ l2) <-> increasing v l1 /\ increasing (last_version v l1) l2.
Proof.
  induction l1 as [| [v' t] l1 IH]; intros v l2; cbn; [tauto |]. rewrite IH. tauto.
Qed.

Lemma last_version_app l1 : forall v l2,
  last_version v (l1 ++ l2) = last_version (last_version v l1) l2.
Proof. induction l1 as [| [v' t] l1 IH]; intros v l2; cbn; [reflexivity | apply IH]. Qed.

Lemma inv_recv lo app pend c m :
  inv lo app pend c -> editing m -> (formats m = true -> fmts = true) ->
  growing (last_version lo (app ++ pend)) [m] ->
  inv lo app (pend ++ sent [m]) (exec1 fmt c (ERecv m)).
Proof.
  intros (Hinc & Hpend & Htasks & Hw & Hd) He Hf Hg.
  repeat split.
  - rewrite app_assoc. apply increasing_app. split; [exact Hinc |].
    destruct m; cbn in *; try exact I; try tauto.
  - cbn [exec1 g_tasks]. rewrite pending_app, start_pending, Hpend by exact He. reflexivity.
  - cbn [exec1 g_tasks]. apply Forall_app. split; [exact Htasks |]. constructor; [| constructor].
    now apply start_ok.
  - apply Hw.
  - apply Hw.
  - exact Hd.
Qed.

Lemma growing_app h1 : forall v h2, Forall editing h1 ->
  (growing v (h1 ++ h2) <-> growing v h1 /\ growing (last_version v (sent h1)) h2).
Proof.
  induction h1 as [| m h1 IH]; intros v h2 Hf; [cbn; tauto |].
  inversion Hf as [| ? ? He Hf']; subst.
  destruct m; cbn in He; try (exfalso; exact He); cbn; rewrite IH by assumption; tauto.
Qed.

Lemma sent_app h1 h2 : sent (h1 ++ h2) = sent h1 ++ sent h2.
Proof.
  induction h1 as [| m h1 IH]; [reflexivity |].
  destruct m; cbn; now rewrite ?IH.
Qed.

Lemma exec_cons c e es : exec fmt c (e :: es) = exec fmt (exec1 fmt c e) es.
Proof. reflexivity. Qed.

Lemma exec_app c es1 es2 : exec fmt c (es1 ++ es2) = exec fmt (exec fmt c es1) es2.
Proof. unfold exec. apply fold_left_app. Qed.

Lemma inv_exec lo es : forall app pend c,
  inv lo app pend c ->
  Forall editing (received es) ->
  (existsb formats (received es) = true -> fmts = true) ->
  growing (last_version lo (app ++ pend)) (received es) ->
  exists app2 pend2, app ++ pend ++ sent (received es) = app2 ++ pend2 /\ incl app app2 /\
    inv lo app2 pend2 (exec fmt c es).
Proof.
  induction es as [| e es IH]; intros app pend c Hi He Hf Hg.
  - exists app, pend. cbn. rewrite app_nil_r. repeat split; auto using incl_refl; apply Hi.
  - rewrite exec_cons. destruct e as [m | i k].
    + cbn [received] in *.
      inversion He as [| ? ? He1 He2]; subst.
      change (m :: received es) with ([m] ++ received es) in Hg.
      apply growing_app in Hg; [| constructor; [exact He1 | constructor]].
      destruct Hg as [Hg1 Hg2].
      destruct (IH app (pend ++ sent [m]) (exec1 fmt c (ERecv m))) as (app2 & pend2 & H1 & H2 & H3); auto.
      * apply inv_recv; auto. intro Hm. apply Hf. cbn. now rewrite Hm.
      * intro Hx. apply Hf. cbn. rewrite Hx. apply orb_true_r.
      * rewrite app_assoc, last_version_app. exact Hg2.
      * exists app2, pend2. split; [| auto]. rewrite <- H1, <- app_assoc, <- sent_app. reflexivity.
    + destruct (inv_run lo app pend c i k Hi) as (app1 & pend1 & H1 & H2 & H3).
      cbn [received] in *. rewrite H1 in Hg.
      destruct (IH app1 pend1 _ H3 He Hf Hg) as (app2 & pend2 & H4 & H5 & H6).
      exists app2, pend2. split; [| split; [eapply incl_tran; eassumption | exact H6]].
      rewrite app_assoc, H1, <- app_assoc. exact H4.
Qed.

(** Before the opening is stored. *)
Definition open_ok (v0 : Z) (t0 : list N) (t : task) : Prop :=
  match t with
  | TOpen v t => v = v0 /\ t = t0
  | TOpenInsert v t _ => v = v0 /\ t = t0
  | _ => task_ok [] t /\ not_change t
  end.

Definition doc_closed (w : world) : Prop := doc_version w = None.

Definition opens (ts : list task) : nat := length (filter opening ts).

(** [n]: 0 before the opening is received, 1 while it is under way. *)
Definition inv0 v0 t0 (n : nat) (c : config) : Prop :=
  opens (g_tasks c) = n /\
  Forall (open_ok v0 t0) (g_tasks c) /\
  world_ok [] (g_world c) /\ doc_closed (g_world c).

Lemma opens_app a b : opens (a ++ b) = (opens a + opens b)%nat.
Proof. unfold opens. now rewrite filter_app, app_length. Qed.

Lemma run_closed v0 t0 k w t :
  doc_closed w -> world_ok [] w -> open_ok v0 t0 t ->
  (forall v x tv, t <> TOpenInsert v x tv) ->
  let '(w', rest) := run_task fmt k w t in
  doc_closed w' /\ world_ok [] w' /\
  match rest with
  | Some t' => open_ok v0 t0 t' /\ opening t' = opening t
  | None => opening t = false
  end.
Proof.
  intros Hcl [Hc Hsv] Hok Hni.
  assert (Hw : world_ok [] w) by (split; assumption).
  assert (Hcw : world_ok [] (set_cache w None)).
  { split; [intros r Hr; discriminate | exact Hsv]. }
  assert (Hpush : forall b, match push_task b with
    | Some t' => open_ok v0 t0 t' /\ opening t' = false | None => false = false end).
  { intros []; cbn; auto. }
  unfold doc_closed in *.
  destruct t; cbn [open_ok] in Hok; cbn [run_task opening];
    try (exfalso; eapply Hni; reflexivity);
    try (destruct Hok as [Hok Hnc]; cbn in Hok, Hnc; try tauto).
  - cbn. auto.
  - split; [exact Hcl |]. split; [exact Hcw | apply Hpush].
  - destruct t; tauto.
  - split; [exact Hcl |]. split; [exact Hcw | apply Hpush].
  - destruct t; [tauto |]. cbn. auto.
  - split; [exact Hcl |]. split; [exact Hcw | apply Hpush].
  - destruct (k_busy k); [auto |]. destruct (w_doc w); cbn; auto.
  - destruct (fmt tv t) as [y|]; [| auto]. destruct (str_eqb t y); [auto |].
    destruct (k_busy k); [auto |]. destruct (w_doc w) as [s|] eqn:Es; [| auto].
    destruct (str_eqb (s_text s) t); [| auto]. repeat split; auto.
    unfold doc_version in *. rewrite Es in Hcl. exact Hcl.
  - cbn. auto.
  - unfold doc_version in Hcl. destruct (w_doc w) as [s|] eqn:Es.
    + rewrite Hcl. cbn. unfold doc_version. cbn. rewrite Hcl. repeat split; auto; exact Hcl.
    + cbn. repeat split; auto.
  - split; [exact Hcl |]. split; [exact Hcw | apply Hpush].
  - destruct (w_cache w) eqn:Ec; (split; [exact Hcl |]; split; [exact Hw |]); cbn; auto.
  - destruct (opt_z_eqb (r_version r) (doc_version w)).
    + split; [exact Hcl |]. split; [| reflexivity]. split; [exact Hc |]. cbn. constructor; assumption.
    + split; [exact Hcl |]. split; [exact Hw |]. cbn. auto.
  - destruct (k_busy k); [auto |]. destruct (w_doc w) as [s|] eqn:Es; [| auto].
    cbn. repeat split; auto. intros z Hz.
    unfold doc_version in Hcl. rewrite Es in Hcl. congruence.
  - cbn. auto.
  - destruct (negb (k_busy k) && opt_z_eqb (doc_version w) (r_version r)); cbn; repeat split; cbn; auto.
    intros r' Hr'. injection Hr' as <-. exact Hok.
Qed.

Lemma open_ok_task v0 t0 t : open_ok v0 t0 t -> opening t = false -> task_ok [] t /\ not_change t.
Proof. destruct t; cbn; intros H E; try discriminate; exact H. Qed.

Lemma opens_none ts v0 t0 app : opens ts = O -> Forall (open_ok v0 t0) ts ->
  Forall (task_ok app) ts /\ pending ts = [].
Proof.
  induction ts as [| t ts IH]; intros Ho Hf; [split; [constructor | reflexivity] |].
  inversion Hf as [| ? ? H1 H2]; subst.
  unfold opens in Ho. cbn in Ho. destruct (opening t) eqn:E; [discriminate |].
  destruct (open_ok_task _ _ _ H1 E) as [Ht Hn].
  destruct (IH Ho H2) as [H3 H4]. split.
  - constructor; [| exact H3]. eapply task_ok_incl; [| exact Ht]. intros ? [].
  - change (t :: ts) with ([t] ++ ts). rewrite pending_app, H4, (not_change_pending _ Hn). reflexivity.
Qed.

Lemma inv0_run v0 t0 n c i k : (n <= 1)%nat ->
  inv0 v0 t0 n c ->
  inv0 v0 t0 n (exec1 fmt c (ERun i k)) \/
  (n = 1%nat /\ inv (v0 - 1) [(v0, t0)] [] (exec1 fmt c (ERun i k))).
Proof.
  intros Hn (Ho & Hf & Hw & Hcl).
  cbn [exec1].
  destruct (nth_error (g_tasks c) i) as [t|] eqn:En; [| left; repeat split; auto; apply Hw].
  pose proof (nth_split_firstn _ _ _ En) as Hsplit.
  remember (firstn i (g_tasks c)) as before. remember (skipn (S i) (g_tasks c)) as after.
  destruct (blocked before t) eqn:Eb; [left; repeat split; auto; apply Hw |].
  rewrite Hsplit in Hf, Ho. apply Forall_app in Hf. destruct Hf as [Hb Hta].
  pose proof (Forall_inv Hta) as Ht. pose proof (Forall_inv_tail Hta) as Ha.
  rewrite opens_app in Ho. change (t :: after) with ([t] ++ after) in Ho. rewrite opens_app in Ho.
  assert (Hcase : (exists v x tv, t = TOpenInsert v x tv) \/ (forall v x tv, t <> TOpenInsert v x tv)).
  { destruct t; try (right; intros; discriminate). left; eauto. }
  destruct Hcase as [(v & x & tv & ->) | Hni].
  - right. destruct Ht as [-> ->].
    change (opens [TOpenInsert v0 t0 tv]) with 1%nat in Ho.
    assert (n = 1%nat /\ opens before = O /\ opens after = O) as (-> & Hob & Hoa) by lia.
    split; [reflexivity |].
    destruct (opens_none _ _ _ [(v0, t0)] Hob Hb) as [H1 H2].
    destruct (opens_none _ _ _ [(v0, t0)] Hoa Ha) as [H3 H4].
    cbn [run_task].
    assert (Hw' : world_ok [(v0, t0)] (g_world c)) by (eapply world_ok_incl; [| exact Hw]; intros ? []).
    repeat split.
    + cbn. lia.
    + cbn [g_tasks]. rewrite !pending_app, H2, H4. reflexivity.
    + cbn [g_tasks]. apply Forall_app. split; [exact H1 |]. apply Forall_app. split; [| exact H3].
      constructor; [exact I | constructor].
    + apply Hw'.
    + apply Hw'.
    + exists [], v0, t0. split; [reflexivity |]. eexists. cbn. repeat split. apply derived_refl.
  - left. pose proof (run_closed v0 t0 k (g_world c) t Hcl Hw Ht Hni) as Hrun.
    destruct (run_task fmt k (g_world c) t) as [w' rest].
    destruct Hrun as (Hcl' & Hw' & Hrest).
    repeat split; try apply Hw'; auto.
    + cbn [g_tasks]. rewrite !opens_app.
      replace (opens match rest with Some t' => [t'] | None => [] end) with (opens [t]); [exact Ho |].
      unfold opens. destruct rest as [t'|]; cbn.
      * destruct Hrest as [_ ->]. destruct (opening t); reflexivity.
      * rewrite Hrest. reflexivity.
    + cbn [g_tasks]. apply Forall_app. split; [exact Hb |]. apply Forall_app. split; [| exact Ha].
      destruct rest; constructor; [apply Hrest | constructor].
Qed.

Lemma inv0_quiet v0 t0 n c m : quiet m -> (formats m = true -> fmts = true) ->
  inv0 v0 t0 n c -> inv0 v0 t0 n (exec1 fmt c (ERecv m)).
Proof.
  intros Hq Hfm (Ho & Hf & Hw & Hcl).
  repeat split; try apply Hw; try assumption.
  - cbn [exec1 g_tasks]. rewrite opens_app, Ho. destruct m; cbn in *; try tauto; unfold opens; cbn; lia.
  - cbn [exec1 g_tasks]. apply Forall_app. split; [exact Hf |]. constructor; [| constructor].
    destruct m; cbn in *; try tauto.
Qed.

Lemma inv0_open v0 t0 c : inv0 v0 t0 0 c -> inv0 v0 t0 1 (exec1 fmt c (ERecv (MOpen v0 t0))).
Proof.
  intros (Ho & Hf & Hw & Hcl).
  repeat split; try apply Hw; try assumption.
  - cbn [exec1 g_tasks]. rewrite opens_app, Ho. reflexivity.
  - cbn [exec1 g_tasks]. apply Forall_app. split; [exact Hf |]. constructor; [| constructor].
    cbn. auto.
Qed.

Lemma quiet_editing m : quiet m -> editing m.
Proof. destruct m; cbn; tauto. Qed.

Lemma quiet_sent h : Forall quiet h -> sent h = [].
Proof.
  induction 1 as [| m h Hq _ IH]; [reflexivity |]. destruct m; cbn in *; tauto.
Qed.

Lemma quiet_growing h : Forall quiet h -> forall v, growing v h.
Proof.
  induction 1 as [| m h Hq _ IH]; intro v; [exact I |]. destruct m; cbn in *; try tauto; apply IH.
Qed.

Lemma existsb_tail m h : (existsb formats (m :: h) = true -> fmts = true) ->
  (formats m = true -> fmts = true) /\ (existsb formats h = true -> fmts = true).
Proof.
  cbn. intro H. split; intro E; apply H; rewrite E; [reflexivity | apply orb_true_r].
Qed.

(** While the opening is under way, only quiet messages. *)
Lemma inv0_exec1 v0 t0 es : forall c,
  inv0 v0 t0 1 c -> Forall quiet (received es) ->
  (existsb formats (received es) = true -> fmts = true) ->
  inv0 v0 t0 1 (exec fmt c es) \/ inv (v0 - 1) [(v0, t0)] [] (exec fmt c es).
Proof.
  induction es as [| e es IH]; intros c Hi Hq Hf; [left; exact Hi |].
  rewrite exec_cons. destruct e as [m | i k]; cbn [received] in *.
  - inversion Hq as [| ? ? H1 H2]; subst. apply existsb_tail in Hf. destruct Hf as [Hf1 Hf2].
    apply IH; auto using inv0_quiet.
  - destruct (inv0_run v0 t0 1 c i k ltac:(lia) Hi) as [H | [_ H]]; [now apply IH |].
    right.
    assert (Hed : Forall editing (received es)) by (eapply Forall_impl; [| exact Hq]; apply quiet_editing).
    destruct (inv_exec (v0 - 1) es _ _ _ H Hed Hf (quiet_growing _ Hq _))
      as (app2 & pend2 & H1 & H2 & H3).
    rewrite (quiet_sent _ Hq) in H1. cbn in H1.
    destruct app2 as [| p [| p2 app2]].
    + destruct H3 as (_ & _ & _ & _ & a & v & x & E & _). destruct a; discriminate.
    + cbn in H1. injection H1 as <- <-. exact H3.
    + cbn in H1. discriminate.
Qed.

Lemma inv0_exec v0 t0 es : forall c q1 q2,
  inv0 v0 t0 0 c -> received es = q1 ++ MOpen v0 t0 :: q2 ->
  Forall quiet q1 -> Forall quiet q2 ->
  (existsb formats (q1 ++ q2) = true -> fmts = true) ->
  inv0 v0 t0 1 (exec fmt c es) \/ inv (v0 - 1) [(v0, t0)] [] (exec fmt c es).
Proof.
  induction es as [| e es IH]; intros c q1 q2 Hi Hr H1 H2 Hf.
  - destruct q1; discriminate.
  - rewrite exec_cons. destruct e as [m | i k]; cbn [received] in Hr.
    + destruct q1 as [| m' q1].
      * injection Hr as -> Hr. apply inv0_exec1; [now apply inv0_open | now rewrite Hr |].
        rewrite Hr. exact Hf.
      * injection Hr as -> Hr. inversion H1; subst. cbn [List.app] in Hf.
        apply existsb_tail in Hf. destruct Hf as [Hf1 Hf2].
        eapply IH; eauto using inv0_quiet.
    + destruct (inv0_run v0 t0 0 c i k ltac:(lia) Hi) as [H | [H _]]; [| discriminate].
      eapply IH; eauto.
Qed.

Lemma inv0_init v0 t0 target : inv0 v0 t0 0 (init target).
Proof.
  repeat split; cbn; try constructor. intros r Hr. discriminate.
Qed.

Lemma editor_sent h : forall d, Forall editing h ->
  editor (Some d) h = Some (last (sent h) d).
Proof.
  induction h as [| m h IH]; intros [v t] Hf; [reflexivity |].
  inversion Hf as [| ? ? He Hf']; subst.
  destruct m; cbn [editor sent] in *; try (exfalso; exact He); try (apply IH; exact Hf').
  rewrite IH by exact Hf'. f_equal.
  destruct He as [Hne _]. rewrite (last_map_default changes t [] Hne).
  destruct (sent h) as [| q l]; [reflexivity |].
  change (last (q :: l) (version, last (map c_text changes) []) = last (q :: l) (v, t)).
  clear. revert q. induction l as [| q' l IH]; intro q; [reflexivity |]. apply (IH q').
Qed.

(** Both phases together. *)
Theorem inv_all target s1 s2 v0 t0 q1 q2 :
  received s1 = q1 ++ MOpen v0 t0 :: q2 -> Forall quiet q1 -> Forall quiet q2 ->
  (forall t, In t (g_tasks (exec fmt (init target) s1)) -> opening t = false) ->
  Forall editing (received s2) -> growing v0 (received s2) ->
  (existsb formats (q1 ++ q2 ++ received s2) = true -> fmts = true) ->
  inv (v0 - 1) [(v0, t0)] [] (exec fmt (init target) s1) /\
  exists app pend, (v0, t0) :: sent (received s2) = app ++ pend /\
    inv (v0 - 1) app pend (exec fmt (init target) (s1 ++ s2)).
Proof.
  intros Hr H1 H2 Hopen Hed Hgr Hf.
  rewrite app_assoc, existsb_app in Hf.
  assert (Hi : inv (v0 - 1) [(v0, t0)] [] (exec fmt (init target) s1)).
  { destruct (inv0_exec v0 t0 s1 (init target) q1 q2 (inv0_init v0 t0 target) Hr H1 H2) as [H | H].
    - intro E. apply Hf. now rewrite E.
    - exfalso. destruct H as (Ho & _). unfold opens in Ho.
      destruct (filter opening (g_tasks (exec fmt (init target) s1))) as [| t l] eqn:E; [discriminate |].
      assert (Hin : In t (filter opening (g_tasks (exec fmt (init target) s1)))) by (rewrite E; now left).
      apply filter_In in Hin. destruct Hin as [Hin Ho']. rewrite (Hopen _ Hin) in Ho'. discriminate.
    - exact H. }
  split; [exact Hi |].
  rewrite exec_app.
  destruct (inv_exec (v0 - 1) s2 _ _ _ Hi Hed) as (app2 & pend2 & E1 & _ & E2).
  - intro E. apply Hf. rewrite E. apply orb_true_r.
  - exact Hgr.
  - exists app2, pend2. split; [exact E1 | exact E2].
Qed.

(** A request for diagnostics: which handlers and answers belong to it. *)
Definition about (t : task) : option nat :=
  match t with
  | TDiag id | TDiagCached id _ | TDiagSnapshot id | TDiagLint id _ | TDiagStore id _ => id
  | _ => None
  end.

Definition no_id (id : nat) (c : config) : Prop :=
  Forall (fun t => about t <> Some id) (g_tasks c) /\
  Forall (fun p => fst p <> Some id) (w_served (g_world c)).

Lemma run_about k w t w' rest : run_task fmt k w t = (w', rest) ->
  (forall t', rest = Some t' -> about t' = about t \/ about t' = None) /\
  (w_served w' = w_served w \/ exists r, w_served w' = (about t, r) :: w_served w).
Proof.
  assert (Hp : forall b t', push_task b = Some t' -> about t' = None)
    by (intros [] t' E; cbn in E; [injection E as <-; reflexivity | discriminate]).
  intro H. destruct t; cbn [run_task] in H;
    repeat match type of H with
           | context [match ?x with _ => _ end] =>
               lazymatch x with
               | context [match _ with _ => _ end] => fail
               | _ => destruct x
               end
           end;
    injection H as <- <-; (split; [intros t' E; try discriminate; try (right; eapply Hp; exact E); injection E as <-; auto | cbn; eauto]).
Qed.

Lemma no_id_exec1 id c e : no_id id c -> (forall m, e = ERecv m -> m <> MDiagnostic id) ->
  no_id id (exec1 fmt c e).
Proof.
  intros [Ht Hs] He. destruct e as [m | i k].
  - split; [| exact Hs]. cbn [exec1 g_tasks]. apply Forall_app. split; [exact Ht |].
    constructor; [| constructor]. specialize (He m eq_refl). destruct m; cbn; congruence.
  - cbn [exec1]. destruct (nth_error (g_tasks c) i) as [t|] eqn:En; [| split; assumption].
    pose proof (nth_split_firstn _ _ _ En) as Hsplit.
    destruct (blocked (firstn i (g_tasks c)) t); [split; assumption |].
    rewrite Hsplit in Ht. apply Forall_app in Ht. destruct Ht as [Hb Hta].
    pose proof (Forall_inv Hta) as Htt. pose proof (Forall_inv_tail Hta) as Ha. cbn beta in Htt.
    destruct (run_task fmt k (g_world c) t) as [w' rest] eqn:Er.
    apply run_about in Er. destruct Er as [H1 H2].
    split; cbn [g_tasks g_world].
    + apply Forall_app. split; [exact Hb |]. apply Forall_app. split; [| exact Ha].
      destruct rest as [t'|]; constructor; [| constructor].
      destruct (H1 t' eq_refl) as [-> | ->]; [exact Htt | discriminate].
    + destruct H2 as [-> | [r ->]]; [exact Hs |]. constructor; [exact Htt | exact Hs].
Qed.

Lemma no_id_exec id es : forall c, no_id id c -> ~ In (MDiagnostic id) (received es) ->
  no_id id (exec fmt c es).
Proof.
  induction es as [| e es IH]; intros c Hc Hn; [exact Hc |].
  rewrite exec_cons. apply IH.
  - apply no_id_exec1; [exact Hc |]. intros m -> ->. apply Hn. now left.
  - intro H. apply Hn. destruct e; [now right | exact H].
Qed.

Definition at_least (lo : Z) (v : option Z) : Prop := exists z, v = Some z /\ (lo <= z)%Z.

Definition fresh_task (id : nat) (lo : Z) (t : task) : Prop :=
  match t with
  | TDiagLint (Some j) s => j = id -> at_least lo (s_version s)
  | TDiagStore (Some j) r => j = id -> at_least lo (r_version r)
  | _ => True
  end.

Definition fresh (id : nat) (lo : Z) (c : config) : Prop :=
  Forall (fresh_task id lo) (g_tasks c) /\
  Forall (fun p => fst p = Some id -> at_least lo (r_version (snd p))) (w_served (g_world c)).

Lemma no_id_fresh id lo c : no_id id c -> fresh id lo c.
Proof.
  intros [H1 H2]. split; (eapply Forall_impl; [| eassumption]).
  - intros t Ht. destruct t; cbn in *; try exact I; destruct id0; try exact I; intros ->; now elim Ht.
  - intros p Hp E. now elim Hp.
Qed.

Lemma run_fresh id lo k w t w' rest :
  run_task fmt k w t = (w', rest) -> at_least lo (doc_version w) ->
  fresh_task id lo t ->
  Forall (fun p => fst p = Some id -> at_least lo (r_version (snd p))) (w_served w) ->
  (forall t', rest = Some t' -> fresh_task id lo t') /\
  Forall (fun p => fst p = Some id -> at_least lo (r_version (snd p))) (w_served w').
Proof.
  intros H Hd Ht Hs.
  assert (Hp : forall b t', push_task b = Some t' -> fresh_task id lo t')
    by (intros [] t' E; cbn in E; [injection E as <-; exact I | discriminate]).
  destruct t; cbn [run_task] in H;
    try (repeat match type of H with
           | context [match ?x with _ => _ end] =>
               lazymatch x with
               | context [match _ with _ => _ end] => fail
               | _ => destruct x
               end
           end;
         injection H as <- <-;
         (split; [intros t' E; try discriminate; try (eapply Hp; exact E); injection E as <-; exact I | exact Hs])).
  - (* TDiagCached *)
    destruct (opt_z_eqb (r_version r) (doc_version w)) eqn:E; injection H as <- <-.
    + split; [intros t' E'; discriminate |]. cbn. constructor; [| exact Hs].
      cbn. intros _. apply opt_z_eqb_eq in E. now rewrite E.
    + split; [intros t' E'; injection E' as <-; exact I | exact Hs].
  - (* TDiagSnapshot *)
    destruct (k_busy k); [injection H as <- <-; split; [discriminate | exact Hs] |].
    destruct (w_doc w) as [s|] eqn:Es; injection H as <- <-; [| split; [discriminate | exact Hs]].
    split; [| exact Hs]. intros t' E. injection E as <-. cbn. destruct id0; [| exact I].
    intros _. unfold doc_version in Hd. now rewrite Es in Hd.
  - (* TDiagLint *)
    injection H as <- <-. split; [| exact Hs]. intros t' E. injection E as <-. exact Ht.
  - (* TDiagStore *)
    injection H as <- <-. split; [intros t' E; discriminate |].
    cbn. constructor.
    + cbn. intros ->. apply Ht. reflexivity.
    + destruct (negb (k_busy k) && opt_z_eqb (doc_version w) (r_version r)); exact Hs.
Qed.

Lemma increasing_last lo l v x z t :
  increasing lo (l ++ [(v, x)]) -> In (z, t) (l ++ [(v, x)]) -> (z <= v)%Z.
Proof.
  revert lo. induction l as [| [v' t'] l IH]; intros lo Hi Hin.
  - destruct Hin as [E | []]. injection E as <- <-. lia.
  - cbn in Hi. destruct Hi as [H1 H2]. destruct Hin as [E | Hin].
    + injection E as <- <-. pose proof (increasing_lt _ _ v x H2) as H.
      specialize (H ltac:(apply in_or_app; right; now left)). lia.
    + eapply IH; eassumption.
Qed.

Lemma inv_at_least lo app pend c z t :
  inv lo app pend c -> In (z, t) app -> at_least z (doc_version (g_world c)).
Proof.
  intros (Hinc & _ & _ & _ & a & v & x & Ha & s & Hs & Hv & _) Hin.
  exists v. unfold doc_version. rewrite Hs. split; [exact Hv |]. subst app.
  apply increasing_app in Hinc. destruct Hinc as [Hinc _].
  eapply increasing_last; eassumption.
Qed.

Lemma fresh_exec lo0 id lo tlo es : forall app pend c,
  inv lo0 app pend c -> fresh id lo c -> In (lo, tlo) app ->
  Forall editing (received es) ->
  (existsb formats (received es) = true -> fmts = true) ->
  growing (last_version lo0 (app ++ pend)) (received es) ->
  fresh id lo (exec fmt c es).
Proof.
  induction es as [| e es IH]; intros app pend c Hi Hfr Hin He Hf Hg; [exact Hfr |].
  rewrite exec_cons. destruct e as [m | i k].
  - cbn [received] in *.
    inversion He as [| ? ? He1 He2]; subst.
    change (m :: received es) with ([m] ++ received es) in Hg.
    apply growing_app in Hg; [| constructor; [exact He1 | constructor]].
    destruct Hg as [Hg1 Hg2]. apply existsb_tail in Hf. destruct Hf as [Hf1 Hf2].
    apply (IH app (pend ++ sent [m])); auto.
    + now apply inv_recv.
    + destruct Hfr as [H1 H2]. split; [| exact H2]. cbn [exec1 g_tasks].
      apply Forall_app. split; [exact H1 |]. constructor; [| constructor]. destruct m; exact I.
    + rewrite app_assoc, last_version_app. exact Hg2.
  - destruct (inv_run lo0 app pend c i k Hi) as (app1 & pend1 & H1 & H2 & H3).
    cbn [received] in *. rewrite H1 in Hg.
    apply (IH app1 pend1); auto.
    cbn [exec1] in *.
    destruct (nth_error (g_tasks c) i) as [t|] eqn:En; [| exact Hfr].
    pose proof (nth_split_firstn _ _ _ En) as Hsplit.
    destruct (blocked (firstn i (g_tasks c)) t); [exact Hfr |].
    destruct Hfr as [Ht Hs].
    rewrite Hsplit in Ht. apply Forall_app in Ht. destruct Ht as [Hb Hta].
    pose proof (Forall_inv Hta) as Htt. pose proof (Forall_inv_tail Hta) as Ha.
    destruct (run_task fmt k (g_world c) t) as [w' rest] eqn:Er.
    pose proof (run_fresh id lo _ _ _ _ _ Er (inv_at_least _ _ _ _ _ _ Hi Hin) Htt Hs) as [G1 G2].
    split; cbn [g_tasks g_world]; [| exact G2].
    apply Forall_app. split; [exact Hb |]. apply Forall_app. split; [| exact Ha].
    destruct rest as [t'|]; constructor; [| constructor]. now apply G1.
Qed.

End Inv.
