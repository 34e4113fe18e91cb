(** Proofs about sorting keys: nothing is lost, and the order is the one asked for. *)
From Coq Require Import String Ascii List NArith ZArith Bool Arith Lia Permutation Sorted.
From Verif Require Import Base VersionSortModel VersionSortProofs TomlTextModel SortModel.
Import ListNotations.
Open Scope N_scope.
Open Scope list_scope.

(** ** Stable sort *)
Lemma insert_perm {A} (le : A -> A -> bool) x l : Permutation (insert_sorted le x l) (x :: l).
Proof.
  induction l as [|y l IH]; simpl; [reflexivity|]. destruct (le x y); [reflexivity|].
  rewrite IH. apply perm_swap.
Qed.
Lemma sort_perm {A} (le : A -> A -> bool) l : Permutation (stable_sort le l) l.
Proof. induction l as [|x l IH]; simpl; [reflexivity|]. rewrite insert_perm. constructor. exact IH. Qed.

Lemma filter_split {A} (p : A -> bool) l : Permutation (filter p l ++ filter (fun x => negb (p x)) l) l.
Proof.
  induction l as [|x l IH]; simpl; [reflexivity|]. destruct (p x); simpl.
  - constructor. exact IH.
  - rewrite <- Permutation_middle. constructor. exact IH.
Qed.

(** A list sorted by [le] whose classes of equal elements are in their original order. *)
Definition le_total {A} (le : A -> A -> bool) : Prop := forall x y, le x y = true \/ le y x = true.
Definition le_trans {A} (le : A -> A -> bool) : Prop := forall x y z, le x y = true -> le y z = true -> le x z = true.
Lemma insert_sorted_sorted {A} (le : A -> A -> bool) x l : le_total le -> le_trans le ->
  StronglySorted (fun a b => le a b = true) l -> StronglySorted (fun a b => le a b = true) (insert_sorted le x l).
Proof.
  intros HT HTr. induction l as [|y l IH]; simpl; intros HS; [constructor; constructor|].
  destruct (le x y) eqn:E.
  - constructor; [exact HS|]. constructor; [exact E|]. inversion HS as [|? ? HS' HF]; subst.
    eapply Forall_impl; [|exact HF]. intros z Hz. exact (HTr _ _ _ E Hz).
  - inversion HS as [|? ? HS' HF]; subst. constructor; [apply IH; exact HS'|].
    eapply Permutation_Forall; [symmetry; apply insert_perm|]. constructor; [|exact HF].
    destruct (HT x y) as [K|K]; [congruence|exact K].
Qed.
Lemma sort_sorted {A} (le : A -> A -> bool) l : le_total le -> le_trans le -> StronglySorted (fun a b => le a b = true) (stable_sort le l).
Proof. intros HT HTr. induction l as [|x l IH]; simpl; [constructor|]. apply insert_sorted_sorted; assumption. Qed.
Lemma insert_stable {A} (le : A -> A -> bool) (p : A -> bool) x l :
  (forall y, p x = true -> p y = true -> le x y = true) ->
  filter p (insert_sorted le x l) = filter p (x :: l).
Proof.
  intros HP. induction l as [|y l IH]; simpl; [reflexivity|]. destruct (le x y) eqn:E; [reflexivity|].
  simpl. rewrite IH. simpl. destruct (p y) eqn:Py, (p x) eqn:Px; try reflexivity.
  rewrite (HP y eq_refl Py) in E. discriminate.
Qed.
Lemma sort_stable {A} (le : A -> A -> bool) (p : A -> bool) l :
  (forall x y, p x = true -> p y = true -> le x y = true) ->
  filter p (stable_sort le l) = filter p l.
Proof.
  intros HP. induction l as [|x l IH]; simpl; [reflexivity|]. rewrite insert_stable by (intros; apply HP; assumption).
  simpl. rewrite IH. reflexivity.
Qed.

(** ** Nothing is lost: C16 *)
Section Perm.
Context {T : Type}.
Implicit Types (m : @targets_map T).

Lemma schema_sort_perm ord : forall m, Permutation (schema_sort ord m) m.
Proof.
  induction ord as [|a ord IH]; intros m; simpl; [reflexivity|]. rewrite IH. apply filter_split.
Qed.
Lemma sort_targets_perm {S} m o (ts : option (table_schema S)) : Permutation (sort_targets m o ts) m.
Proof. destruct o; simpl; try apply sort_perm. destruct ts; [apply schema_sort_perm|reflexivity]. Qed.

Lemma fill_slots_perm : forall slots (s u : @targets_map T), Permutation (fill_slots slots s u) (s ++ u).
Proof.
  induction slots as [|b slots IH]; intros s u; simpl; [reflexivity|]. destruct b.
  - destruct s as [|x s]; [apply (IH [] u)|]. simpl. constructor. apply IH.
  - destruct u as [|x u]; [apply (IH s [])|]. rewrite IH. apply Permutation_middle.
Qed.
Definition all_buckets (b : @buckets T) : @targets_map T := b GKeys ++ b GPatternKeys ++ b GAdditionalKeys.
Lemma take_bucket_perm (b : @buckets T) k : Permutation (b k ++ all_buckets (take_bucket b k)) (all_buckets b).
Proof.
  unfold all_buckets, take_bucket. destruct k; simpl; [reflexivity| |].
  - rewrite !app_assoc. apply Permutation_app_tail. apply Permutation_app_comm.
  - rewrite app_nil_r. rewrite (app_assoc (b GKeys)). apply Permutation_app_comm.
Qed.
Lemma sort_groups_perm {S} (t : table_schema S) : forall gs (b : @buckets T),
  Permutation (fst (sort_groups t gs b) ++ all_buckets (snd (sort_groups t gs b))) (all_buckets b).
Proof.
  induction gs as [|[k o] gs IH]; intros b; simpl; [reflexivity|].
  specialize (IH (take_bucket b k)). destruct (sort_groups t gs (take_bucket b k)) as [l b'] eqn:E. simpl in *.
  rewrite <- app_assoc, IH, sort_targets_perm. apply take_bucket_perm.
Qed.
Lemma kind_eqb_refl k : kind_eqb k k = true. Proof. destruct k; reflexivity. Qed.
Lemma kind_eqb_eq a b : kind_eqb a b = true <-> a = b. Proof. destruct a, b; simpl; split; congruence. Qed.
Lemma sort_groups_rest {S} (t : table_schema S) : forall gs (b : @buckets T) k,
  snd (sort_groups t gs b) k = if has_group k gs then [] else b k.
Proof.
  induction gs as [|[k0 o] gs IH]; intros b k; simpl; [reflexivity|].
  specialize (IH (take_bucket b k0) k). destruct (sort_groups t gs (take_bucket b k0)) as [l b'] eqn:E. simpl in *.
  rewrite IH. unfold take_bucket, has_group. simpl. destruct (kind_eqb k0 k); [|reflexivity].
  destruct (existsb _ gs); reflexivity.
Qed.
Lemma filter_nil {A} (p : A -> bool) l : (forall x, In x l -> p x = false) -> filter p l = [].
Proof. induction l as [|x l IH]; simpl; intros H; [reflexivity|]. rewrite (H x) by (left; reflexivity). apply IH. auto. Qed.
Lemma buckets_perm {S} (t : table_schema S) (spec : accessor * list (@target T) -> bool) m :
  Permutation (all_buckets (fun k => filter (fun x => spec x && kind_eqb (kind_of t (fst x)) k) m)) (filter spec m).
Proof.
  unfold all_buckets. induction m as [|x m IH]; simpl; [reflexivity|].
  destruct (spec x); simpl; [|exact IH]. destruct (kind_of t (fst x)); simpl.
  - constructor. exact IH.
  - rewrite <- Permutation_middle. constructor. exact IH.
  - rewrite app_assoc, <- Permutation_middle, <- app_assoc. constructor. exact IH.
Qed.
Lemma in_sort_group_none gs k : has_group k gs = false -> (k = GAdditionalKeys -> fallback_additional_order gs = None) -> in_sort_group gs k = false.
Proof. destruct k; simpl; intros H K; try exact H. rewrite H, K by reflexivity. reflexivity. Qed.
Lemma sort_table_targets_perm {S} m (ts : option (table_schema S)) o : Permutation (sort_table_targets m ts o) m.
Proof.
  destruct o as [[o|gs]|]; cbn [sort_table_targets]; [apply sort_targets_perm| |destruct ts; reflexivity].
  destruct ts as [t|]; [|reflexivity].
  set (spec := fun x : accessor * list (@target T) => in_sort_group gs (kind_of t (fst x))).
  set (b := fun k => filter (fun x : accessor * list (@target T) => spec x && kind_eqb (kind_of t (fst x)) k) m).
  pose proof (sort_groups_perm t gs b) as HP. pose proof (sort_groups_rest t gs b) as HR.
  change (Permutation (let '(sorted, b') := sort_groups t gs b in fill_slots (map spec m) (place_additional t gs sorted b') (filter (fun x => negb (spec x)) m)) m).
  destruct (sort_groups t gs b) as [l b'] eqn:E. simpl in HP, HR.
  rewrite fill_slots_perm. rewrite <- (filter_split spec m) at 2. apply Permutation_app_tail.
  rewrite <- (buckets_perm t spec m). fold b. rewrite <- HP.
  assert (H0 : forall k, has_group k gs = false -> (k = GAdditionalKeys -> fallback_additional_order gs = None) -> b k = []).
  { intros k H1 H2. unfold b. apply filter_nil. intros x _. destruct (kind_eqb (kind_of t (fst x)) k) eqn:K; [|apply andb_false_r].
    apply kind_eqb_eq in K. unfold spec. rewrite K, (in_sort_group_none gs k H1 H2). reflexivity. }
  assert (HK : b' GKeys = []). { rewrite HR. destruct (has_group GKeys gs) eqn:G; [reflexivity|]. apply H0; [exact G|discriminate]. }
  assert (HP' : b' GPatternKeys = []). { rewrite HR. destruct (has_group GPatternKeys gs) eqn:G; [reflexivity|]. apply H0; [exact G|discriminate]. }
  unfold all_buckets. rewrite HK, HP'. simpl. unfold place_additional.
  destruct (fallback_additional_order gs) as [[]|] eqn:F; try (rewrite sort_targets_perm; apply Permutation_app_comm).
  - apply Permutation_app_head. apply sort_targets_perm.
  - assert (HA : b' GAdditionalKeys = []). { rewrite HR. destruct (has_group GAdditionalKeys gs) eqn:G; [reflexivity|]. apply H0; [exact G|auto]. }
    rewrite HA, app_nil_r. reflexivity.
Qed.

(** *** Grouping by the first accessor *)
Definition flat_map_targets m : list T := flat_map (fun x => map snd (snd x)) m.
Lemma map_push_perm a x : forall m, Permutation (flat_map_targets (map_push a x m)) (snd x :: flat_map_targets m).
Proof.
  induction m as [|[b xs] m IH]; simpl; [reflexivity|]. destruct (acc_eqb a b); simpl.
  - rewrite map_app. simpl. rewrite <- app_assoc. simpl. rewrite <- Permutation_middle. reflexivity.
  - unfold flat_map_targets in *. rewrite IH. rewrite Permutation_middle. reflexivity.
Qed.
Lemma group_fold_perm : forall (ts : list (@target T)) st,
  Permutation (fst (fold_left push_target ts st) ++ flat_map_targets (snd (fold_left push_target ts st)))
    (map snd ts ++ fst st ++ flat_map_targets (snd st)).
Proof.
  induction ts as [|[p x] ts IH]; intros st; simpl; [reflexivity|]. rewrite IH. unfold push_target. simpl.
  destruct p as [|a p]; simpl.
  - rewrite <- app_assoc. simpl. rewrite <- (Permutation_middle (fst st)). rewrite <- Permutation_middle. reflexivity.
  - rewrite map_push_perm. simpl. rewrite <- (Permutation_middle (fst st)). rewrite <- Permutation_middle. reflexivity.
Qed.
Lemma group_targets_perm (ts : list (@target T)) :
  Permutation (fst (group_targets ts) ++ flat_map_targets (snd (group_targets ts))) (map snd ts).
Proof. unfold group_targets. rewrite group_fold_perm. simpl. rewrite app_nil_r. reflexivity. Qed.

Lemma extend_all_perm {X} (f : X -> sres (list T)) (g : X -> list T) : forall xs l,
  (forall x r, In x xs -> f x = Done r -> Permutation r (g x)) -> extend_all f xs = Done l -> Permutation l (flat_map g xs).
Proof.
  induction xs as [|x xs IH]; simpl; intros l HX H.
  - injection H as <-. reflexivity.
  - destruct (f x) as [| |r] eqn:E; try discriminate. destruct (extend_all f xs) as [| |r'] eqn:E'; try discriminate.
    injection H as <-. apply Permutation_app; [apply HX; [left; reflexivity|exact E]|]. apply IH; [|reflexivity].
    intros y ry Hy. apply HX. right. exact Hy.
Qed.
Lemma flat_map_perm {A B} (f : A -> list B) l l' : Permutation l l' -> Permutation (flat_map f l) (flat_map f l').
Proof.
  induction 1; simpl; [reflexivity| | |etransitivity; eassumption].
  - apply Permutation_app_head. assumption.
  - rewrite !app_assoc. apply Permutation_app_tail. apply Permutation_app_comm.
Qed.
End Perm.

(** *** Paths *)
(** the paths that go on after a first step [a], without it *)
Fixpoint after (a : accessor) (ps : list (list accessor)) : list (list accessor) :=
  match ps with
  | [] => []
  | (b :: p) :: ps => if acc_eqb a b then p :: after a ps else after a ps
  | [] :: ps => after a ps
  end.
(** the different first steps, in the order of their first occurrence *)
Fixpoint add_first (a : accessor) (l : list accessor) : list accessor :=
  match l with [] => [a] | b :: l' => if acc_eqb a b then l else b :: add_first a l' end.
Definition firsts (ps : list (list accessor)) : list accessor :=
  fold_left (fun l p => match p with [] => l | a :: _ => add_first a l end) ps [].

Lemma acc_eqb_eq a b : acc_eqb a b = true <-> a = b.
Proof.
  destruct a, b; simpl; split; intros H; try discriminate.
  - apply str_eqb_eq in H. congruence.
  - apply str_eqb_eq. congruence.
  - apply Nat.eqb_eq in H. congruence.
  - apply Nat.eqb_eq. congruence.
Qed.
Lemma acc_eqb_refl a : acc_eqb a a = true. Proof. apply acc_eqb_eq. reflexivity. Qed.
Lemma acc_eqb_neq a b : acc_eqb a b = false <-> a <> b.
Proof. rewrite <- acc_eqb_eq. destruct (acc_eqb a b); split; congruence. Qed.

Section Groups.
Context {T : Type}.
Fixpoint lookup (a : accessor) (m : @targets_map T) : list (@target T) :=
  match m with [] => [] | (b, xs) :: m => if acc_eqb a b then xs else lookup a m end.
Lemma lookup_push a x b : forall m, lookup b (map_push a x m) = if acc_eqb b a then lookup b m ++ [x] else lookup b m.
Proof.
  induction m as [|[c xs] m IH]; simpl.
  - destruct (acc_eqb b a); reflexivity.
  - destruct (acc_eqb a c) eqn:E; simpl.
    + apply acc_eqb_eq in E. subst c. destruct (acc_eqb b a); reflexivity.
    + rewrite IH. destruct (acc_eqb b c) eqn:F; [|reflexivity]. destruct (acc_eqb b a) eqn:G; [|reflexivity].
      apply acc_eqb_eq in F, G. subst. rewrite acc_eqb_refl in E. discriminate.
Qed.
Lemma keys_push a x : forall m : @targets_map T, map fst (map_push a x m) = add_first a (map fst m).
Proof. induction m as [|[c xs] m IH]; simpl; [reflexivity|]. destruct (acc_eqb a c); simpl; congruence. Qed.
(** entries whose path starts with [a], without that step *)
Fixpoint after_targets (a : accessor) (ts : list (@target T)) : list (@target T) :=
  match ts with
  | [] => []
  | (b :: p, x) :: ts => if acc_eqb a b then (p, x) :: after_targets a ts else after_targets a ts
  | ([], _) :: ts => after_targets a ts
  end.
Fixpoint here (ts : list (@target T)) : list T :=
  match ts with [] => [] | ([], x) :: ts => x :: here ts | (_ :: _, _) :: ts => here ts end.
Lemma group_fold : forall ts st,
  let r := fold_left (@push_target T) ts st in
  fst r = fst st ++ here ts /\
  map fst (snd r) = fold_left (fun l p => match p with [] => l | a :: _ => add_first a l end) (map fst ts) (map fst (snd st)) /\
  forall a, lookup a (snd r) = lookup a (snd st) ++ after_targets a ts.
Proof.
  induction ts as [|[p x] ts IH]; intros st; simpl.
  - rewrite app_nil_r. repeat split. intros a. rewrite app_nil_r. reflexivity.
  - specialize (IH (push_target st (p, x))). destruct IH as (H1 & H2 & H3). unfold push_target in *. simpl in *.
    destruct p as [|a p]; simpl in *.
    + rewrite H1, <- app_assoc. repeat split; [exact H2|exact H3].
    + rewrite keys_push in H2. repeat split; [exact H1|exact H2|]. intros b. rewrite H3, lookup_push.
      destruct (acc_eqb b a); [rewrite <- app_assoc|]; reflexivity.
Qed.
Lemma add_first_nodup a l : NoDup l -> NoDup (add_first a l).
Proof.
  induction l as [|b l IH]; simpl; intros H; [constructor; [intros []|constructor]|].
  destruct (acc_eqb a b) eqn:E; [exact H|]. inversion H as [|? ? HN HD]; subst. constructor; [|apply IH; exact HD].
  intros K. apply HN. clear - K E. induction l as [|c l IHl]; simpl in *.
  - destruct K as [->|[]]. rewrite acc_eqb_refl in E. discriminate.
  - destruct (acc_eqb a c); simpl in K; [exact K|]. destruct K as [K|K]; [left; exact K|right; apply IHl; exact K].
Qed.
Lemma firsts_nodup ps : NoDup (firsts ps).
Proof.
  unfold firsts. assert (H : NoDup (@nil accessor)) by constructor. revert H. generalize (@nil accessor).
  induction ps as [|[|a p] ps IH]; simpl; intros l H; [exact H|apply IH; exact H|]. apply IH. apply add_first_nodup. exact H.
Qed.
Lemma lookup_in a xs : forall m : @targets_map T, NoDup (map fst m) -> In (a, xs) m -> xs = lookup a m.
Proof.
  induction m as [|[b ys] m IH]; simpl; [intros _ []|]. intros HN [H|H].
  - injection H as -> ->. rewrite acc_eqb_refl. reflexivity.
  - inversion HN as [|? ? HN1 HN2]; subst. destruct (acc_eqb a b) eqn:E; [|apply IH; assumption].
    apply acc_eqb_eq in E. subst b. exfalso. apply HN1. apply (in_map fst) in H. exact H.
Qed.
Lemma group_spec (ts : list (@target T)) :
  fst (group_targets ts) = here ts /\ snd (group_targets ts) = map (fun a => (a, after_targets a ts)) (firsts (map fst ts)).
Proof.
  destruct (group_fold ts ([], [])) as (H1 & H2 & H3). unfold group_targets. split; [exact H1|].
  simpl in H2, H3. fold (firsts (map fst ts)) in H2. rewrite <- H2.
  set (m := snd (fold_left push_target ts ([], []))) in *.
  assert (HN : NoDup (map fst m)) by (rewrite H2; apply firsts_nodup).
  assert (HI : forall x, In x m -> snd x = after_targets (fst x) ts).
  { intros [a xs] Hx. simpl. rewrite <- H3. apply lookup_in; assumption. }
  clear - HI. clearbody m. induction m as [|[a xs] m IH]; simpl; [reflexivity|]. f_equal.
  - pose proof (HI (a, xs) (or_introl eq_refl)) as K. simpl in K. rewrite K. reflexivity.
  - apply IH. intros x Hx. apply HI. right. exact Hx.
Qed.
Lemma after_targets_fst a : forall ts : list (@target T), map fst (after_targets a ts) = after a (map fst ts).
Proof. induction ts as [|[[|b p] x] ts IH]; simpl; [reflexivity|exact IH|]. destruct (acc_eqb a b); simpl; congruence. Qed.
Lemma in_after a p (x : T) : forall ts : list (@target T), In (p, x) (after_targets a ts) <-> In (a :: p, x) ts.
Proof.
  induction ts as [|[[|b q] y] ts IH]; simpl; [reflexivity| |].
  - rewrite IH. split; [auto|]. intros [H|H]; [discriminate|exact H].
  - destruct (acc_eqb a b) eqn:E; simpl; rewrite IH.
    + apply acc_eqb_eq in E. subst b. split; (intros [H|H]; [left|right; exact H]); congruence.
    + apply acc_eqb_neq in E. split; [auto|]. intros [H|H]; [congruence|exact H].
Qed.
End Groups.
Lemma in_after_paths a p : forall ps, In p (after a ps) <-> In (a :: p) ps.
Proof.
  induction ps as [|[|b q] ps IH]; simpl; [reflexivity| |].
  - rewrite IH. split; [auto|]. intros [H|H]; [discriminate|exact H].
  - destruct (acc_eqb a b) eqn:E; simpl; rewrite IH.
    + apply acc_eqb_eq in E. subst b. split; (intros [H|H]; [left|right; exact H]); congruence.
    + apply acc_eqb_neq in E. split; [auto|]. intros [H|H]; [congruence|exact H].
Qed.
Lemma in_add_first a b l : In b (add_first a l) <-> b = a \/ In b l.
Proof.
  induction l as [|c l IH]; simpl; [intuition|]. destruct (acc_eqb a c) eqn:E; simpl.
  - apply acc_eqb_eq in E. subst c. intuition.
  - rewrite IH. intuition.
Qed.
Lemma in_firsts a ps : In a (firsts ps) <-> exists p, In (a :: p) ps.
Proof.
  unfold firsts. enough (H : forall l, In a (fold_left (fun l p => match p with [] => l | a :: _ => add_first a l end) ps l) <->
    In a l \/ exists p, In (a :: p) ps).
  { rewrite H. split; [intros [[]|K]; exact K|intros K; right; exact K]. }
  induction ps as [|[|b q] ps IH]; intros l; simpl.
  - split; [auto|]. intros [H|[p []]]. exact H.
  - rewrite IH. split; (intros [H|[p H]]; [left; exact H|right; exists p]); [right; exact H|]. destruct H as [H|H]; [discriminate|exact H].
  - rewrite IH, in_add_first. split.
    + intros [[->|H]|[p H]]; [right; exists q; left; reflexivity|left; exact H|right; exists p; right; exact H].
    + intros [H|[p [H|H]]]; [left; right; exact H|left; left; congruence|right; exists p; exact H].
Qed.

(** *** The document has an element for every position the paths go through *)
Inductive covers : dval -> list (list accessor) -> Prop :=
| covers_table es ps : (forall k v, table_get (to_key_string k) es = Some v -> covers v (after (AKey k) ps)) -> covers (DTable es) ps
| covers_array vs ps : (forallb is_index (firsts ps) = true -> (length (firsts ps) <= length vs)%nat) ->
    (forall i a v, nth_error (firsts ps) i = Some a -> nth_error vs i = Some v -> covers v (after a ps)) -> covers (DArray vs) ps
| covers_other ps : covers DOther ps.

Lemma combine_flat {A B C} (f : B -> list C) : forall (vs : list A) (m : list B), (length m <= length vs)%nat ->
  flat_map (fun x => f (snd x)) (combine vs m) = flat_map f m.
Proof.
  induction vs as [|v vs IH]; intros [|x m] H; simpl in *; try reflexivity; [lia|]. rewrite IH by lia. reflexivity.
Qed.
Lemma enumerate_flat {A C} (f : A -> list C) : forall l i, flat_map (fun x : nat * A => f (snd x)) (enumerate_from i l) = flat_map f l.
Proof. induction l as [|x l IH]; intros i; simpl; [reflexivity|]. rewrite IH. reflexivity. Qed.
Lemma in_enumerate {A} (x : A) : forall l i j, In (j, x) (enumerate_from i l) -> nth_error l (j - i) = Some x /\ (i <= j)%nat.
Proof.
  induction l as [|y l IH]; simpl; intros i j H; [contradiction|]. destruct H as [H|H].
  - injection H as <- <-. rewrite Nat.sub_diag. split; [reflexivity|lia].
  - apply IH in H as [H1 H2]. split; [|lia]. replace (j - i)%nat with (S (j - S i))%nat by lia. exact H1.
Qed.
Lemma nth_combine {A B} : forall (vs : list A) (m : list B) i v x, nth_error (combine vs m) i = Some (v, x) -> nth_error vs i = Some v /\ nth_error m i = Some x.
Proof.
  induction vs as [|w vs IH]; intros [|y m] [|i] v x H; simpl in *; try discriminate.
  - injection H as <- <-. split; reflexivity.
  - apply IH. exact H.
Qed.

Lemma some_eq {A} (a b : A) : Done a = Done b -> b = a. Proof. congruence. Qed.
Lemma level_perm {T S} (e : env S) rec v accs (ts : list (@target T)) cs o l :
  (forall v accs (ts : list (@target T)) cs o l, (covers v (map fst ts) \/ (exists es, v = DTable es) /\ cs = None) ->
     rec v accs ts cs o = Done l -> Permutation l (map snd ts)) ->
  (covers v (map fst ts) \/ (exists es, v = DTable es) /\ cs = None) ->
  sort_level rec e v accs ts cs o = Done l -> Permutation l (map snd ts).
Proof.
  intros IH HC. unfold sort_level. pose proof (group_targets_perm ts) as HG.
  destruct (group_spec ts) as [_ HM]. destruct (group_targets ts) as [results m]. simpl fst in *. simpl snd in *.
  assert (Hflat : Done (results ++ flat_map (fun x => map snd (snd x)) m) = Done l -> Permutation l (map snd ts)).
  { intros K. apply some_eq in K. subst l. exact HG. }
  destruct v as [es|vs|]; [| |exact Hflat].
  - destruct (forallb _ m) eqn:Ek; [|exact Hflat]. cbv zeta.
    set (tsch := match cs with Some s => match e_view e s with VTable t => Some t | _ => None end | None => None end) in *.
    match goal with |- context [extend_all _ ?s] => set (sorted := s) end.
    assert (HS : Permutation sorted m).
    { unfold sorted. match goal with |- context [if ?c then _ else _] => destruct c end; [reflexivity|apply sort_table_targets_perm]. }
    clearbody sorted. intros K. destruct (extend_all _ sorted) as [| |r] eqn:E; try discriminate. apply some_eq in K. subst l.
    apply (extend_all_perm _ (fun x => map snd (snd x))) in E.
    + rewrite E. rewrite (flat_map_perm _ _ _ HS). exact HG.
    + intros [a xs] r' Hin Hr. simpl snd.
      apply (Permutation_in _ HS) in Hin. assert (Hk : is_key a = true).
      { rewrite forallb_forall in Ek. apply (Ek (a, xs)). exact Hin. }
      rewrite HM in Hin. apply in_map_iff in Hin as (a' & Q & _). injection Q as -> <-.
      destruct a as [k|]; [|discriminate Hk]. cbn [acc_to_string] in Hr.
      destruct (table_get (to_key_string k) es) as [v'|] eqn:Eg.
      * destruct tsch as [t|] eqn:Et.
        { assert (HCv : covers v' (map fst (after_targets (AKey k) ts))).
          { rewrite after_targets_fst. destruct HC as [HC|[_ HC]].
            - inversion HC as [? ? HC'| |]; subst. apply HC'. exact Eg.
            - subst cs. discriminate Et. }
          destruct (ts_property t (AKey k)) as [s|]; [exact (IH _ _ _ _ _ _ (or_introl HCv) Hr)|].
          destruct (ts_additional t) as [s|]; [exact (IH _ _ _ _ _ _ (or_introl HCv) Hr)|].
          apply (IH _ _ _ _ _ _ (or_intror (conj (ex_intro _ es eq_refl) eq_refl)) Hr). }
        { apply (IH _ _ _ _ _ _ (or_intror (conj (ex_intro _ es eq_refl) eq_refl)) Hr). }
      * apply (IH _ _ _ _ _ _ (or_intror (conj (ex_intro _ es eq_refl) eq_refl)) Hr).
  - destruct (forallb _ m) eqn:Ek; [|exact Hflat]. cbv zeta.
    destruct HC as [HC|[[es HC] _]]; [|discriminate].
    inversion HC as [|? ? HL HV|]; subst. clear HC.
    assert (HL' : (length (firsts (map fst ts)) <= length vs)%nat).
    { apply HL. rewrite forallb_forall in Ek |- *. intros a Ha. apply (Ek (a, after_targets a ts)).
      apply (in_map (fun a => (a, after_targets a ts))). exact Ha. }
    clear HL. rename HL' into HL.
    intros K. destruct (extend_all _ _) as [| |r] eqn:E; try discriminate. apply some_eq in K. subst l.
    apply (extend_all_perm _ (fun x : nat * (dval * (accessor * list (@target T))) => map snd (snd (snd (snd x))))) in E.
    + rewrite (enumerate_flat (fun x : dval * (accessor * list (@target T)) => map snd (snd (snd x)))) in E.
      rewrite (combine_flat (fun x : accessor * list (@target T) => map snd (snd x))) in E by (rewrite map_length; exact HL).
      rewrite E. exact HG.
    + intros [i [v' [a xs]]] r' Hin Hr. simpl snd.
      apply in_enumerate in Hin as [Hin _]. rewrite Nat.sub_0_r in Hin. apply nth_combine in Hin as [H1 H2].
      rewrite nth_error_map in H2. destruct (nth_error (firsts (map fst ts)) i) as [a'|] eqn:Ea; [|discriminate].
      injection H2 as -> <-. refine (IH _ _ _ _ _ _ (or_introl _) Hr). rewrite after_targets_fst. exact (HV _ _ _ Ea H1).
Qed.
Lemma sorted_perm {T S} (e : env S) : forall fuel v accs (ts : list (@target T)) cs o l,
  (covers v (map fst ts) \/ (exists es, v = DTable es) /\ cs = None) ->
  get_sorted_accessors fuel e v accs ts cs o = Done l -> Permutation l (map snd ts).
Proof.
  induction fuel as [|fuel IH]; intros v accs ts cs o l HC H; [discriminate|]. simpl in H.
  destruct (combinator_of e cs) as [[r k]|] eqn:E.
  - destruct r as [schemas|]; [|discriminate]. destruct (find _ schemas) as [s'|]; [|discriminate].
    refine (IH _ _ _ _ _ _ _ H). destruct HC as [HC|[_ HC]]; [left; exact HC|subst cs; discriminate].
  - exact (level_perm e _ v accs ts cs o l IH HC H).
Qed.

(** Entries whose paths are made of keys only are covered by any document. *)
Definition all_keys (p : list accessor) : Prop := Forall (fun a => is_key a = true) p.
Fixpoint dval_size (v : dval) : nat :=
  match v with
  | DTable es => S (fold_right (fun e n => dval_size (snd e) + n)%nat O es)
  | DArray vs => S (fold_right (fun v n => dval_size v + n)%nat O vs)
  | DOther => 1
  end.
Lemma table_get_size k v : forall es, table_get k es = Some v -> (dval_size v < dval_size (DTable es))%nat.
Proof.
  intros es. simpl. induction es as [|[k' w] es IH]; simpl; [discriminate|].
  destruct (str_eqb k k'); intros H; [injection H as ->; lia|]. apply IH in H. lia.
Qed.
Lemma nth_size i v : forall vs, nth_error vs i = Some v -> (dval_size v < dval_size (DArray vs))%nat.
Proof.
  revert i. intros i vs. simpl. revert i. induction vs as [|w vs IH]; intros [|i] H; simpl in *; try discriminate.
  - injection H as ->. lia.
  - apply IH in H. lia.
Qed.
Lemma after_keys a ps : Forall all_keys ps -> Forall all_keys (after a ps).
Proof.
  intros H. apply Forall_forall. intros p Hp. apply in_after_paths in Hp. rewrite Forall_forall in H. apply H in Hp.
  inversion Hp; assumption.
Qed.
Lemma covers_keys : forall n v ps, (dval_size v <= n)%nat -> Forall all_keys ps -> covers v ps.
Proof.
  induction n as [|n IH]; intros v ps Hn HK; [destruct v; simpl in Hn; lia|]. destruct v as [es|vs|].
  - constructor. intros k v Hg. apply table_get_size in Hg. apply IH; [lia|]. apply after_keys. exact HK.
  - constructor.
    + intros Hi. destruct (firsts ps) as [|a l] eqn:E; [simpl; lia|]. exfalso.
      assert (Ha : In a (firsts ps)) by (rewrite E; left; reflexivity). apply in_firsts in Ha as [p Hp].
      rewrite Forall_forall in HK. apply HK in Hp. inversion Hp; subst. simpl in Hi.
      destruct a; [discriminate Hi|discriminate].
    + intros i a v _ Hv. apply nth_size in Hv. apply IH; [lia|]. apply after_keys. exact HK.
  - constructor.
Qed.

(** *** Entries with the same path keep their order *)
Fixpoint path_eqb (p q : list accessor) : bool :=
  match p, q with
  | [], [] => true
  | a :: p, b :: q => acc_eqb a b && path_eqb p q
  | _, _ => false
  end.
Lemma path_eqb_eq p q : path_eqb p q = true <-> p = q.
Proof.
  revert q. induction p as [|a p IH]; intros [|b q]; simpl; split; intros H; try discriminate; try reflexivity.
  - apply andb_true_iff in H as [H1 H2]. apply acc_eqb_eq in H1. apply IH in H2. congruence.
  - injection H as -> ->. rewrite acc_eqb_refl. apply IH. reflexivity.
Qed.
Lemma path_eqb_app pre p q : path_eqb (pre ++ p) (pre ++ q) = path_eqb p q.
Proof. induction pre as [|a pre IH]; simpl; [reflexivity|]. rewrite acc_eqb_refl. exact IH. Qed.
Section Stable.
Context {T S : Type} (path : T -> list accessor) (e : env S).
Definition keep (p : list accessor) (l : list T) : list T := filter (fun t => path_eqb (path t) p) l.
Definition rooted (pre : list accessor) (ts : list (@target T)) : Prop := Forall (fun x => path (snd x) = pre ++ fst x) ts.
Definition want (q : list accessor) (ts : list (@target T)) : list T := map snd (filter (fun x => path_eqb (fst x) q) ts).
Lemma rooted_after pre a ts : rooted pre ts -> rooted (pre ++ [a]) (after_targets a ts).
Proof.
  intros H. apply Forall_forall. intros [p x] Hx. apply in_after in Hx. unfold rooted in H. rewrite Forall_forall in H.
  apply H in Hx. simpl in *. rewrite Hx, <- app_assoc. reflexivity.
Qed.
Lemma want_after a q ts : want q (after_targets a ts) = want (a :: q) ts.
Proof.
  unfold want. induction ts as [|[[|b p] x] ts IH]; simpl; [reflexivity|exact IH|].
  destruct (acc_eqb a b) eqn:E; simpl.
  - apply acc_eqb_eq in E. subst b. rewrite acc_eqb_refl. simpl. destruct (path_eqb p q); simpl; congruence.
  - assert (E' : acc_eqb b a = false) by (apply acc_eqb_neq; apply acc_eqb_neq in E; congruence). rewrite E'. simpl. exact IH.
Qed.
Lemma here_want ts : here ts = want [] ts.
Proof. unfold want. induction ts as [|[[|b p] x] ts IH]; simpl; congruence. Qed.
Lemma keep_app p l l' : keep p (l ++ l') = keep p l ++ keep p l'. Proof. unfold keep. apply filter_app. Qed.
Lemma keep_perm_nil p l l' : Permutation l l' -> keep p l' = [] -> keep p l = [].
Proof.
  intros HP H. unfold keep. apply filter_nil. intros x Hx. apply (Permutation_in _ HP) in Hx.
  destruct (path_eqb (path x) p) eqn:E; [|reflexivity].
  assert (K : In x (keep p l')) by (apply filter_In; split; assumption). rewrite H in K. destruct K.
Qed.
Lemma keep_rooted pre q ts : rooted pre ts -> keep (pre ++ q) (map snd ts) = want q ts.
Proof.
  unfold keep, want, rooted. induction ts as [|[p x] ts IH]; simpl; intros H; [reflexivity|].
  inversion H as [|? ? H1 H2]; subst. simpl in H1. rewrite H1, path_eqb_app. rewrite IH by exact H2. destruct (path_eqb p q); reflexivity.
Qed.
Lemma keep_other pre a b q ts : a <> b -> rooted (pre ++ [a]) ts -> keep (pre ++ b :: q) (map snd ts) = [].
Proof.
  intros HN H. unfold keep. apply filter_nil. intros x Hx. apply in_map_iff in Hx as ([p y] & <- & Hy).
  unfold rooted in H. rewrite Forall_forall in H. apply H in Hy. simpl in *. rewrite Hy, <- app_assoc, path_eqb_app. simpl.
  apply acc_eqb_neq in HN. rewrite HN. reflexivity.
Qed.
Lemma keep_nil_other pre a ts : rooted (pre ++ [a]) ts -> keep pre (map snd ts) = [].
Proof.
  intros H. unfold keep. apply filter_nil. intros x Hx. apply in_map_iff in Hx as ([p y] & <- & Hy).
  unfold rooted in H. rewrite Forall_forall in H. apply H in Hy. simpl in *. rewrite Hy, <- app_assoc.
  rewrite <- (app_nil_r pre) at 2. rewrite path_eqb_app. reflexivity.
Qed.
(** The groups of a level, in any order, each sorted by [f], keep what they should. *)
Lemma extend_keep {X} (f : X -> sres (list T)) (acc : X -> accessor) (gts : X -> list (@target T)) pre ts : forall xs r,
  rooted pre ts -> NoDup (map acc xs) -> (forall x, In x xs -> gts x = after_targets (acc x) ts) ->
  (forall x r, In x xs -> f x = Done r -> Permutation r (map snd (gts x)) /\ forall q, keep ((pre ++ [acc x]) ++ q) r = want q (gts x)) ->
  extend_all f xs = Done r ->
  keep pre r = [] /\ forall a q, keep (pre ++ a :: q) r = if existsb (fun x => acc_eqb a (acc x)) xs then want (a :: q) ts else [].
Proof.
  induction xs as [|x xs IH]; simpl; intros r HR HN HG HF H.
  - apply some_eq in H. subst r. split; reflexivity.
  - destruct (f x) as [| |r1] eqn:E1; try discriminate. destruct (extend_all f xs) as [| |r2] eqn:E2; try discriminate.
    apply some_eq in H. subst r. inversion HN as [|? ? HN1 HN2]; subst.
    destruct (IH r2 HR HN2 (fun y Hy => HG y (or_intror Hy)) (fun y r Hy => HF y r (or_intror Hy)) eq_refl) as [I1 I2].
    destruct (HF x r1 (or_introl eq_refl) E1) as [P1 P2]. pose proof (HG x (or_introl eq_refl)) as G.
    assert (HR1 : rooted (pre ++ [acc x]) (gts x)) by (rewrite G; apply rooted_after; exact HR).
    split.
    + rewrite keep_app, I1, app_nil_r. apply (keep_perm_nil _ _ _ P1). apply (keep_nil_other pre (acc x)). exact HR1.
    + intros a q. rewrite keep_app, I2. destruct (acc_eqb a (acc x)) eqn:E; simpl.
      * apply acc_eqb_eq in E. subst a. specialize (P2 q). rewrite <- app_assoc in P2. simpl in P2. rewrite P2, G, want_after.
        destruct (existsb _ xs) eqn:F; [|apply app_nil_r]. exfalso. apply existsb_exists in F as (y & Hy & Q).
        apply acc_eqb_eq in Q. apply HN1. rewrite Q. apply in_map. exact Hy.
      * apply acc_eqb_neq in E. rewrite (keep_perm_nil (pre ++ a :: q) _ _ P1); [reflexivity|].
        apply (keep_other pre (acc x)); [congruence|exact HR1].
Qed.
Lemma want_none a q (ts : list (@target T)) : ~ In a (firsts (map fst ts)) -> want (a :: q) ts = [].
Proof.
  intros H. unfold want. rewrite filter_nil; [reflexivity|]. intros [p x] Hx. simpl. destruct p as [|b p]; [reflexivity|]. simpl.
  destruct (acc_eqb b a) eqn:E; [|reflexivity]. exfalso. apply acc_eqb_eq in E. subst b. apply H. apply in_firsts. exists p.
  apply (in_map fst) in Hx. exact Hx.
Qed.
End Stable.

(** The cases of a level: the groups are visited one by one, in an order which is a permutation of theirs. *)
Lemma firsts_group {T} (ts : list (@target T)) : map fst (snd (group_targets ts)) = firsts (map fst ts).
Proof. destruct (group_spec ts) as [_ H]. rewrite H, map_map. simpl. apply map_id. Qed.
Lemma in_group {T} (ts : list (@target T)) x : In x (snd (group_targets ts)) -> In (fst x) (firsts (map fst ts)) /\ snd x = after_targets (fst x) ts.
Proof. destruct (group_spec ts) as [_ H]. rewrite H. intros K. apply in_map_iff in K as (a & <- & Ha). split; [exact Ha|reflexivity]. Qed.
Lemma done_app {A} (r : sres (list A)) results l : match r with Done l => Done (results ++ l) | x => x end = Done l ->
  exists r', r = Done r' /\ l = results ++ r'.
Proof. destruct r; intros H; try discriminate. apply some_eq in H. eauto. Qed.
Lemma extend_flat {X T} (g : X -> list T) : forall xs, extend_all (fun x => Done (g x)) xs = Done (flat_map g xs).
Proof. induction xs as [|x xs IH]; simpl; [reflexivity|]. rewrite IH. reflexivity. Qed.
Lemma map_fst_enumerate {A} : forall (l : list A) i, map snd (enumerate_from i l) = l.
Proof. induction l as [|x l IH]; intros i; simpl; [reflexivity|]. rewrite IH. reflexivity. Qed.
Lemma map_snd_combine {A B} : forall (vs : list A) (m : list B), (length m <= length vs)%nat -> map snd (combine vs m) = m.
Proof. induction vs as [|v vs IH]; intros [|x m] H; simpl in *; try reflexivity; [lia|]. rewrite IH by lia. reflexivity. Qed.

(** How a level runs: either flat, or one recursive call per group. *)
Inductive level_case {T S} (rec : dval -> list accessor -> list (@target T) -> option S -> option order -> sres (list T))
    (e : env S) v accs (ts : list (@target T)) cs o : list T -> Prop :=
| LFlat : (forall es, v = DTable es -> forallb (fun x => is_key (fst x)) (snd (group_targets ts)) = false) -> level_case rec e v accs ts cs o (here ts ++ flat_map (fun x => map snd (snd x)) (snd (group_targets ts)))
| LTable es sorted r :
    v = DTable es -> forallb (fun x => is_key (fst x)) (snd (group_targets ts)) = true ->
    Permutation sorted (snd (group_targets ts)) ->
    (e_comment_override e accs = None -> e_schema_override e cs accs = None ->
     forall o', o = Some o' -> sorted = sort_targets (snd (group_targets ts)) o' (match cs with Some s => match e_view e s with VTable t => Some t | _ => None end | None => None end)) ->
    (exists next : accessor -> option (dval * S),
       (forall k w s, next (AKey k) = Some (w, s) -> table_get (to_key_string k) es = Some w /\ cs <> None) /\
       extend_all (fun x => match next (fst x) with
                            | Some (w, s) => rec w (accs ++ [fst x]) (snd x) (Some s) o
                            | None => rec v (accs ++ [fst x]) (snd x) None o end) sorted = Done r) ->
    level_case rec e v accs ts cs o (here ts ++ r)
| LArray vs r :
    v = DArray vs -> forallb (fun x => is_index (fst x)) (snd (group_targets ts)) = true ->
    (exists items, extend_all (fun x => rec (fst (snd x)) (accs ++ [AIndex (fst x)]) (snd (snd (snd x))) items o)
       (enumerate_from 0 (combine vs (snd (group_targets ts)))) = Done r) ->
    level_case rec e v accs ts cs o (here ts ++ r).
Lemma extend_ext {X T} (f g : X -> sres (list T)) : forall xs, (forall x, In x xs -> f x = g x) -> extend_all f xs = extend_all g xs.
Proof.
  induction xs as [|x xs IH]; simpl; intros H; [reflexivity|]. rewrite (H x (or_introl eq_refl)), IH; [reflexivity|].
  intros y Hy. apply H. right. exact Hy.
Qed.
Lemma level_cases {T S} (e : env S) rec v accs (ts : list (@target T)) cs o l :
  sort_level rec e v accs ts cs o = Done l -> level_case rec e v accs ts cs o l.
Proof.
  unfold sort_level. destruct (group_spec ts) as [HH _].
  destruct (group_targets ts) as [results m] eqn:EG. simpl in HH. subst results.
  assert (Em : snd (group_targets ts) = m) by (rewrite EG; reflexivity).
  assert (Hflat : (forall es, v = DTable es -> forallb (fun x => is_key (fst x)) m = false) ->
    Done (here ts ++ flat_map (fun x => map snd (snd x)) m) = Done l -> level_case rec e v accs ts cs o l).
  { intros Hv K. apply some_eq in K. subst l. rewrite <- Em. constructor. rewrite Em. exact Hv. }
  destruct v as [es|vs|]; [| |apply Hflat; discriminate].
  - destruct (forallb (fun x => is_key (fst x)) m) eqn:Ek; [|apply Hflat; intros; first [reflexivity|exact Ek]]. cbv zeta.
    set (tsch := match cs with Some s => match e_view e s with VTable t => Some t | _ => None end | None => None end) in *.
    match goal with |- context [extend_all _ ?s] => set (sorted := s) end.
    assert (HS : Permutation sorted m).
    { unfold sorted. match goal with |- context [if ?c then _ else _] => destruct c end; [reflexivity|apply sort_table_targets_perm]. }
    assert (HO : e_comment_override e accs = None -> e_schema_override e cs accs = None ->
      forall o', o = Some o' -> sorted = sort_targets m o' tsch).
    { intros E1 E2 o' ->. unfold sorted. rewrite E1, E2. reflexivity. }
    clearbody sorted. intros K. apply done_app in K as (r & K & ->). subst m. econstructor; try eassumption; [reflexivity|].
    exists (fun a => match table_get (acc_to_string a) es, tsch with
                 | Some v, Some t =>
                     match ts_property t a with
                     | Some s => Some (v, s)
                     | None => match ts_additional t with Some s => Some (v, s) | None => None end
                     end
                 | _, _ => None
                 end). split.
    + intros k w s. cbn [acc_to_string]. destruct (table_get (to_key_string k) es) as [w'|]; [|discriminate].
      destruct tsch as [t|] eqn:Et; [|discriminate]. intros Q. split.
      * destruct (ts_property t (AKey k)); [congruence|]. destruct (ts_additional t); congruence.
      * intros ->. discriminate Et.
    + rewrite <- K. apply extend_ext. intros [a xs] _. reflexivity.
  - destruct (forallb (fun x => is_index (fst x)) m) eqn:Ek; [|apply Hflat; discriminate]. cbv zeta. intros K. apply done_app in K as (r & K & ->). subst m.
    econstructor; [reflexivity|exact Ek|]. eexists. rewrite <- K. apply extend_ext. intros [i [w [a xs]]] _. reflexivity.
Qed.
Definition ready {T S} (v : dval) (ts : list (@target T)) (cs : option S) : Prop :=
  covers v (map fst ts) \/ (exists es, v = DTable es) /\ cs = None.
Lemma ready_key {T S} es (ts : list (@target T)) (cs : option S) k w (s : S) :
  ready (DTable es) ts cs -> table_get (to_key_string k) es = Some w -> cs <> None -> ready w (after_targets (AKey k) ts) (Some s).
Proof.
  intros [H|[_ H]] HG HN; [|contradiction]. left. rewrite after_targets_fst. inversion H as [? ? H'| |]; subst. apply H'. exact HG.
Qed.
Lemma ready_same {T S} es (ts : list (@target T)) : ready (DTable es) ts (@None S).
Proof. right. split; [exists es; reflexivity|reflexivity]. Qed.
Lemma ready_index {T S} vs (ts : list (@target T)) (cs : option S) i a w items :
  ready (DArray vs) ts cs -> nth_error (firsts (map fst ts)) i = Some a -> nth_error vs i = Some w -> ready w (after_targets a ts) (items : option S).
Proof.
  intros [H|[[es H] _]] H1 H2; [|discriminate]. left. rewrite after_targets_fst. inversion H as [|? ? _ H'|]; subst. eapply H'; eassumption.
Qed.
Lemma ready_len {T S} vs (ts : list (@target T)) (cs : option S) :
  ready (DArray vs) ts cs -> forallb (fun x => is_index (fst x)) (snd (group_targets ts)) = true -> (length (snd (group_targets ts)) <= length vs)%nat.
Proof.
  intros [H|[[es H] _]] H1; [|discriminate]. inversion H as [|? ? H' _|]; subst.
  rewrite <- (map_length fst), firsts_group. apply H'. rewrite forallb_forall in H1 |- *. intros a Ha.
  rewrite <- firsts_group in Ha. apply in_map_iff in Ha as (x & <- & Hx). apply H1. exact Hx.
Qed.
(** an element of the zip of the array's values with the groups *)
Lemma in_zip {T} vs (ts : list (@target T)) (x : nat * (dval * (accessor * list (@target T)))) : In x (enumerate_from 0 (combine vs (snd (group_targets ts)))) ->
  nth_error vs (fst x) = Some (fst (snd x)) /\ nth_error (firsts (map fst ts)) (fst x) = Some (fst (snd (snd x))) /\
  snd (snd (snd x)) = after_targets (fst (snd (snd x))) ts.
Proof.
  destruct x as [i [w [a xs]]]. intros Hin. apply in_enumerate in Hin as [Hin _]. rewrite Nat.sub_0_r in Hin. apply nth_combine in Hin as [H1 H2]. simpl.
  split; [exact H1|]. destruct (group_spec ts) as [_ HG]. rewrite HG in H2. rewrite nth_error_map in H2.
  destruct (nth_error (firsts (map fst ts)) i) as [a'|]; [|discriminate]. injection H2 as <- <-. split; reflexivity.
Qed.
Lemma zip_accs {T} vs (ts : list (@target T)) : (length (snd (group_targets ts)) <= length vs)%nat ->
  map (fun x : nat * (dval * (accessor * list (@target T))) => fst (snd (snd x))) (enumerate_from 0 (combine vs (snd (group_targets ts)))) = firsts (map fst ts).
Proof.
  intros H. rewrite <- firsts_group. rewrite <- (map_snd_combine vs (snd (group_targets ts)) H) at 2.
  rewrite <- (map_fst_enumerate (combine vs (snd (group_targets ts))) 0) at 2. rewrite !map_map. reflexivity.
Qed.

Section Keep.
Context {T S : Type} (path : T -> list accessor) (e : env S).
Lemma level_keep rec v accs (ts : list (@target T)) cs o l pre :
  (forall v accs (ts : list (@target T)) cs o l pre, ready v ts cs -> rooted path pre ts -> rec v accs ts cs o = Done l ->
     Permutation l (map snd ts) /\ forall q, keep path (pre ++ q) l = want q ts) ->
  ready v ts cs -> rooted path pre ts -> sort_level rec e v accs ts cs o = Done l ->
  forall q, keep path (pre ++ q) l = want q ts.
Proof.
  intros IH HC HR H. apply level_cases in H.
  assert (HK : forall (X : Type) (f : X -> sres (list T)) (acc : X -> accessor) (gts : X -> list (@target T)) xs r,
    NoDup (map acc xs) -> (forall a, In a (map acc xs) <-> In a (firsts (map fst ts))) ->
    (forall x, In x xs -> gts x = after_targets (acc x) ts) ->
    (forall x r, In x xs -> f x = Done r -> Permutation r (map snd (gts x)) /\ forall q, keep path ((pre ++ [acc x]) ++ q) r = want q (gts x)) ->
    extend_all f xs = Done r -> forall q, keep path (pre ++ q) (here ts ++ r) = want q ts).
  { intros X f acc gts xs r H1 H2 H3 H4 H5 q. destruct (extend_keep path f acc gts pre ts xs r HR H1 H3 H4 H5) as [K1 K2].
    rewrite keep_app. destruct q as [|a q].
    - rewrite app_nil_r, K1, app_nil_r. rewrite here_want. unfold want.
      assert (HW : forall l : list (@target T), rooted path pre l -> keep path pre (map snd (filter (fun x => path_eqb (fst x) []) l)) = map snd (filter (fun x => path_eqb (fst x) []) l)).
      { clear. induction l as [|[p x] l IHl]; simpl; intros HR; [reflexivity|]. inversion HR as [|? ? R1 R2]; subst. simpl in R1.
        destruct p as [|b p]; simpl; [|apply IHl; exact R2]. unfold keep in *. simpl. rewrite R1, app_nil_r.
        assert (Q : path_eqb pre pre = true) by (apply path_eqb_eq; reflexivity). rewrite Q, IHl by exact R2. reflexivity. }
      apply HW. exact HR.
    - rewrite K2. assert (HW : keep path (pre ++ a :: q) (here ts) = []).
      { unfold keep. apply filter_nil. intros x Hx. rewrite here_want in Hx. unfold want in Hx. apply in_map_iff in Hx as ([p y] & <- & Hy).
        apply filter_In in Hy as [Hy1 Hy2]. apply path_eqb_eq in Hy2. simpl in Hy2. subst p.
        unfold rooted in HR. rewrite Forall_forall in HR. apply HR in Hy1. simpl in Hy1. simpl. rewrite Hy1, app_nil_r.
        rewrite <- (app_nil_r pre) at 1. rewrite path_eqb_app. reflexivity. }
      rewrite HW. simpl. destruct (existsb _ xs) eqn:E; [reflexivity|]. symmetry. apply want_none. intros K. rewrite <- H2 in K.
      apply in_map_iff in K as (x & <- & Hx). assert (existsb (fun y => acc_eqb (acc x) (acc y)) xs = true); [|congruence].
      apply existsb_exists. exists x. split; [exact Hx|apply acc_eqb_refl]. }
  destruct H as [_|es sorted r Ev Hk HP _ (next & Hn & Hr)|vs r Ev Hk (items & Hr)].
  - apply (HK _ (fun x : accessor * list (@target T) => Done (map snd (snd x))) fst snd (snd (group_targets ts))).
    + rewrite firsts_group. apply firsts_nodup.
    + intros a. rewrite firsts_group. reflexivity.
    + intros x Hx. apply in_group in Hx as [_ Hx]. exact Hx.
    + intros x r Hx Hr. apply some_eq in Hr. subst r. split; [reflexivity|]. intros q. apply keep_rooted.
      apply in_group in Hx as [_ Hx]. rewrite Hx. apply rooted_after. exact HR.
    + apply extend_flat.
  - intros q. apply (HK _ _ fst snd sorted r) with (q := q) in Hr; [exact Hr| | | |].
    + eapply Permutation_NoDup; [symmetry; apply Permutation_map; exact HP|]. rewrite firsts_group. apply firsts_nodup.
    + intros a. rewrite <- firsts_group. split; apply Permutation_in; [|symmetry]; apply Permutation_map; exact HP.
    + intros x Hx. apply (Permutation_in _ HP) in Hx. apply in_group in Hx as [_ Hx]. exact Hx.
    + intros [a xs] r' Hx Hr'. apply (Permutation_in _ HP) in Hx. pose proof Hx as Hx'. apply in_group in Hx as [_ Hx]. simpl in Hx. subst xs. simpl in Hr' |- *.
      rewrite forallb_forall in Hk. apply Hk in Hx'. simpl in Hx'. destruct a as [k|]; [|discriminate].
      destruct (next (AKey k)) as [[w s]|] eqn:En.
      * apply Hn in En as [En1 En2]. subst v. refine (IH _ _ _ _ _ _ _ _ _ Hr'); [|apply rooted_after; exact HR].
        eapply ready_key; eassumption.
      * subst v. refine (IH _ _ _ _ _ _ _ _ _ Hr'); [apply ready_same|apply rooted_after; exact HR].
  - subst v. pose proof (ready_len _ _ _ HC Hk) as HL.
    intros q. eapply (HK _ _ (fun x : nat * (dval * (accessor * list (@target T))) => fst (snd (snd x))) (fun x => snd (snd (snd x)))) with (q := q) in Hr; [exact Hr| | | |].
    + rewrite zip_accs by exact HL. apply firsts_nodup.
    + intros a. rewrite zip_accs by exact HL. reflexivity.
    + intros x Hx. apply in_zip in Hx as (_ & _ & Hx). exact Hx.
    + intros x r' Hx Hr'. apply in_zip in Hx as (H1 & H2 & H3). rewrite H3 in Hr' |- *.
      refine (IH _ _ _ _ _ _ _ _ _ Hr'); [|apply rooted_after; exact HR]. eapply ready_index; eassumption.
Qed.
Lemma sorted_keep : forall fuel v accs (ts : list (@target T)) cs o l pre, ready v ts cs -> rooted path pre ts ->
  get_sorted_accessors fuel e v accs ts cs o = Done l ->
  Permutation l (map snd ts) /\ forall q, keep path (pre ++ q) l = want q ts.
Proof.
  induction fuel as [|fuel IH]; intros v accs ts cs o l pre HC HR H; [discriminate|].
  split; [exact (sorted_perm e _ _ _ _ _ _ _ HC H)|]. simpl in H. destruct (combinator_of e cs) as [[r k]|] eqn:E.
  - destruct r as [schemas|]; [|discriminate]. destruct (find _ schemas) as [s'|]; [|discriminate].
    refine (proj2 (IH _ _ _ _ _ _ pre _ HR H)). destruct HC as [HC|[_ HC]]; [left; exact HC|subst cs; discriminate].
  - eapply level_keep; eassumption.
Qed.
End Keep.

(** ** The order of the keys *)
Lemma str_cmp_lex : forall a b, str_cmp a b = lex N.compare a b.
Proof. intros; reflexivity. Qed.
Lemma str_total : total_order str_cmp.
Proof.
  destruct (lex_total _ N_total) as (H1 & H2 & H3). repeat split; intros *; rewrite ?str_cmp_lex; try apply H1; try apply H2; apply H3.
Qed.
Lemma str_cmp_trans a b c : str_cmp a b <> Gt -> str_cmp b c <> Gt -> str_cmp a c <> Gt.
Proof.
  destruct str_total as (H1 & H2 & H3). intros A B.
  destruct (str_cmp a b) eqn:E1; [apply H1 in E1; subst; exact B| |contradiction].
  destruct (str_cmp b c) eqn:E2; [apply H1 in E2; subst; congruence| |contradiction].
  rewrite (H3 _ _ _ E1 E2). discriminate.
Qed.
(** the order of two keys under a setting; [Schema] is not a comparison *)
Definition step_le (o : order) (a b : accessor) : bool :=
  match o with
  | Ascending => acc_le a b
  | Descending => acc_le b a
  | VersionSort => acc_version_le a b
  | Schema => true
  end.
Lemma le_of_true c : le_of c = true <-> c <> Gt. Proof. destruct c; simpl; split; congruence. Qed.
Lemma step_total o a b : step_le o a b = true \/ step_le o b a = true.
Proof.
  assert (HS : forall x y, acc_le x y = true \/ acc_le y x = true).
  { intros [x|i] [y|j]; unfold acc_le; simpl; auto.
    - rewrite !le_of_true. destruct str_total as (_ & H & _). rewrite (H x y). destruct (str_cmp x y); simpl; intuition congruence.
    - rewrite !le_of_true. rewrite (Nat.compare_antisym i j). destruct (Nat.compare i j); simpl; intuition congruence. }
  destruct o; simpl; auto; try apply HS.
  destruct a as [x|], b as [y|]; simpl; auto. rewrite !le_of_true, (version_sort_antisym x y). destruct (version_sort x y); simpl; intuition congruence.
Qed.
Lemma step_trans o a b c : is_key a = true -> is_key b = true -> is_key c = true -> step_le o a b = true -> step_le o b c = true -> step_le o a c = true.
Proof.
  destruct a as [x|], b as [y|], c as [z|]; simpl; try discriminate. intros _ _ _. destruct o; simpl; unfold acc_le; simpl; rewrite ?le_of_true; auto.
  - apply str_cmp_trans.
  - intros H1 H2. exact (str_cmp_trans _ _ _ H2 H1).
  - apply version_sort_trans.
Qed.
Lemma insert_sorted_on {A} (P : A -> Prop) (le : A -> A -> bool) x l :
  (forall a b, le a b = true \/ le b a = true) -> (forall a b c, P a -> P b -> P c -> le a b = true -> le b c = true -> le a c = true) ->
  P x -> Forall P l -> StronglySorted (fun a b => le a b = true) l -> StronglySorted (fun a b => le a b = true) (insert_sorted le x l).
Proof.
  intros HT HTr Px. induction l as [|y l IH]; simpl; intros HP HS; [constructor; constructor|].
  inversion HP as [|? ? Py Pl]; subst. inversion HS as [|? ? HS' HF]; subst. destruct (le x y) eqn:E.
  - constructor; [exact HS|]. constructor; [exact E|].
    apply Forall_forall. intros z Hz. rewrite Forall_forall in HF, Pl. exact (HTr x y z Px Py (Pl z Hz) E (HF z Hz)).
  - constructor; [apply IH; assumption|].
    eapply Permutation_Forall; [symmetry; apply insert_perm|]. constructor; [|exact HF].
    destruct (HT x y) as [K|K]; [congruence|exact K].
Qed.
Lemma sort_sorted_on {A} (P : A -> Prop) (le : A -> A -> bool) l :
  (forall a b, le a b = true \/ le b a = true) -> (forall a b c, P a -> P b -> P c -> le a b = true -> le b c = true -> le a c = true) ->
  Forall P l -> StronglySorted (fun a b => le a b = true) (stable_sort le l).
Proof.
  intros HT HTr. induction l as [|x l IH]; simpl; intros HP; [constructor|]. inversion HP as [|? ? Px Pl]; subst.
  apply (insert_sorted_on P); try assumption; [|apply IH; exact Pl].
  eapply Permutation_Forall; [symmetry; apply sort_perm|exact Pl].
Qed.
Lemma sort_targets_sorted {T S} (m : @targets_map T) o (t : option (table_schema S)) : o <> Schema ->
  forallb (fun x => is_key (fst x)) m = true -> StronglySorted (fun x y => step_le o (fst x) (fst y) = true) (sort_targets m o t).
Proof.
  intros HO HK. assert (HP : Forall (fun x => is_key (fst x) = true) m) by (apply Forall_forall; rewrite forallb_forall in HK; exact HK).
  destruct o; simpl; try contradiction; apply (sort_sorted_on (fun x => is_key (fst x) = true)); try exact HP.
  - intros a b. apply (step_total Ascending).
  - intros a b c. apply (step_trans Ascending).
  - intros a b. apply (step_total Descending).
  - intros a b c. apply (step_trans Descending).
  - intros a b. apply (step_total VersionSort).
  - intros a b c. apply (step_trans VersionSort).
Qed.
(** Paths: shorter first, then by the first step that differs. *)
Fixpoint path_le (o : order) (p q : list accessor) : bool :=
  match p, q with
  | [], _ => true
  | _ :: _, [] => false
  | a :: p, b :: q => if acc_eqb a b then path_le o p q else step_le o a b
  end.
Lemma path_le_app o pre p q : path_le o (pre ++ p) (pre ++ q) = path_le o p q.
Proof. induction pre as [|a pre IH]; simpl; [reflexivity|]. rewrite acc_eqb_refl. exact IH. Qed.
(** along this path of keys the document's values are tables *)
Fixpoint table_path (v : dval) (p : list accessor) : Prop :=
  match p with
  | [] => True
  | AKey k :: p => exists es, v = DTable es /\ forall w, table_get (to_key_string k) es = Some w -> table_path w p
  | AIndex _ :: _ => False
  end.
Lemma app_sorted {A} (R : A -> A -> Prop) l l' : StronglySorted R l -> StronglySorted R l' -> (forall x y, In x l -> In y l' -> R x y) -> StronglySorted R (l ++ l').
Proof.
  induction l as [|x l IH]; simpl; intros H H' HR; [exact H'|]. inversion H as [|? ? H1 H2]; subst. constructor.
  - apply IH; [exact H1|exact H'|]. intros; apply HR; auto.
  - apply Forall_app. split; [exact H2|]. apply Forall_forall. intros y Hy. apply HR; auto.
Qed.
Section Ordered.
Context {T S : Type} (path : T -> list accessor) (e : env S) (o : order).
Definition ordered (l : list T) : Prop := StronglySorted (fun x y => path_le o (path x) (path y) = true) l.
Definition ready_keys (v : dval) (ts : list (@target T)) (cs : option S) : Prop :=
  Forall all_keys (map fst ts) /\ (Forall (table_path v) (map fst ts) \/ (exists es, v = DTable es) /\ cs = None).
Lemma extend_ordered {X} (f : X -> sres (list T)) (acc : X -> accessor) (gts : X -> list (@target T)) pre : forall xs r,
  NoDup (map acc xs) -> StronglySorted (fun x y => step_le o (acc x) (acc y) = true) xs ->
  (forall x, In x xs -> rooted path (pre ++ [acc x]) (gts x)) ->
  (forall x r, In x xs -> f x = Done r -> Permutation r (map snd (gts x)) /\ ordered r) ->
  extend_all f xs = Done r -> ordered r /\ forall t, In t r -> exists x p, In x xs /\ path t = pre ++ acc x :: p.
Proof.
  induction xs as [|x xs IH]; simpl; intros r HN HS HG HF H.
  - apply some_eq in H. subst r. split; [constructor|]. intros t [].
  - destruct (f x) as [| |r1] eqn:E1; try discriminate. destruct (extend_all f xs) as [| |r2] eqn:E2; try discriminate.
    apply some_eq in H. subst r. inversion HN as [|? ? HN1 HN2]; subst. inversion HS as [|? ? HS1 HS2]; subst.
    destruct (IH r2 HN2 HS1 (fun y Hy => HG y (or_intror Hy)) (fun y r Hy => HF y r (or_intror Hy)) eq_refl) as [I1 I2].
    destruct (HF x r1 (or_introl eq_refl) E1) as [P1 P2].
    assert (HX : forall t, In t r1 -> exists p, path t = pre ++ acc x :: p).
    { intros t Ht. apply (Permutation_in _ P1) in Ht. apply in_map_iff in Ht as ([p y] & <- & Hy).
      pose proof (HG x (or_introl eq_refl)) as G. unfold rooted in G. rewrite Forall_forall in G. apply G in Hy. simpl in *.
      exists p. rewrite Hy, <- app_assoc. reflexivity. }
    split.
    + apply app_sorted; [exact P2|exact I1|]. intros t u Ht Hu. apply HX in Ht as [p ->]. apply I2 in Hu as (y & q & Hy & ->).
      rewrite path_le_app. simpl. destruct (acc_eqb (acc x) (acc y)) eqn:E.
      * apply acc_eqb_eq in E. exfalso. apply HN1. rewrite E. apply in_map. exact Hy.
      * rewrite Forall_forall in HS2. apply HS2. exact Hy.
    + intros t Ht. apply in_app_or in Ht as [Ht|Ht].
      * apply HX in Ht as [p ->]. exists x, p. split; [left; reflexivity|reflexivity].
      * apply I2 in Ht as (y & q & Hy & ->). exists y, q. split; [right; exact Hy|reflexivity].
Qed.
Lemma here_ordered pre ts : rooted path pre ts -> ordered (here ts) /\ forall t, In t (here ts) -> path t = pre.
Proof.
  intros HR. assert (H : forall t, In t (here ts) -> path t = pre).
  { intros t Ht. rewrite here_want in Ht. unfold want in Ht. apply in_map_iff in Ht as ([p y] & <- & Hy).
    apply filter_In in Hy as [Hy1 Hy2]. apply path_eqb_eq in Hy2. simpl in Hy2. subst p.
    unfold rooted in HR. rewrite Forall_forall in HR. apply HR in Hy1. simpl in *. rewrite app_nil_r in Hy1. exact Hy1. }
  split; [|exact H]. unfold ordered. induction (here ts) as [|x l IH]; constructor.
  - apply IH. intros; apply H; right; assumption.
  - apply Forall_forall. intros y Hy. rewrite (H x (or_introl eq_refl)), (H y (or_intror Hy)).
    rewrite <- (app_nil_r pre) at 1 2. rewrite path_le_app. reflexivity.
Qed.
Lemma level_ordered rec v accs (ts : list (@target T)) cs l pre :
  o <> Schema -> (forall cs accs, e_comment_override e accs = None /\ e_schema_override e cs accs = None) ->
  (forall v accs (ts : list (@target T)) cs l pre, ready_keys v ts cs -> rooted path pre ts -> rec v accs ts cs (Some o) = Done l ->
     Permutation l (map snd ts) /\ ordered l) ->
  ready_keys v ts cs -> rooted path pre ts -> sort_level rec e v accs ts cs (Some o) = Done l -> ordered l.
Proof.
  intros HO HN IH [HK HC] HR H. apply level_cases in H. destruct (here_ordered pre ts HR) as [HH1 HH2].
  assert (HFK : forall a, In a (firsts (map fst ts)) -> is_key a = true).
  { intros a Ha. apply in_firsts in Ha as [p Hp]. rewrite Forall_forall in HK. apply HK in Hp. inversion Hp; assumption. }
  assert (HJ : forall r, ordered r -> (forall t, In t r -> exists a p, path t = pre ++ a :: p) -> ordered (here ts ++ r)).
  { intros r H1 H2. apply app_sorted; [exact HH1|exact H1|]. intros x y Hx Hy. apply HH2 in Hx. apply H2 in Hy as (a & p & ->).
    rewrite Hx. rewrite <- (app_nil_r pre) at 1. rewrite path_le_app. reflexivity. }
  assert (HNil : firsts (map fst ts) = [] -> ordered (here ts ++ [])).
  { intros _. apply HJ; [constructor|]. intros t []. }
  destruct H as [H|es sorted r Ev Hk HP Hs (next & Hn & Hr)|vs r Ev Hk (items & Hr)].
  - assert (HE : snd (group_targets ts) = []).
    { destruct (snd (group_targets ts)) as [|x m] eqn:E; [reflexivity|]. exfalso.
      assert (Hv : exists es, v = DTable es).
      { assert (Hx : In (fst x) (firsts (map fst ts))) by (rewrite <- firsts_group, E; left; reflexivity).
        pose proof (HFK _ Hx) as Hkx. apply in_firsts in Hx as [p Hp]. destruct HC as [HC|[Hv _]]; [|exact Hv].
        rewrite Forall_forall in HC. apply HC in Hp. destruct (fst x); [|discriminate]. simpl in Hp. destruct Hp as (es & Hp & _). exists es. exact Hp. }
      destruct Hv as [es Hv]. specialize (H es Hv). rewrite <- E in H. assert (K : forallb (fun x => is_key (fst x)) (snd (group_targets ts)) = true); [|congruence].
      apply forallb_forall. intros y Hy. apply HFK. rewrite <- firsts_group. apply in_map. exact Hy. }
    rewrite HE. apply HJ; [constructor|]. intros t [].
  - destruct (HN cs accs) as [N1 N2]. specialize (Hs N1 N2 o eq_refl). subst sorted.
    eapply (extend_ordered _ fst snd pre) in Hr.
    + destruct Hr as [Hr1 Hr2]. apply HJ; [exact Hr1|]. intros t Ht. apply Hr2 in Ht as (x & p & _ & Ht). eauto.
    + eapply Permutation_NoDup; [symmetry; apply Permutation_map; exact HP|]. rewrite firsts_group. apply firsts_nodup.
    + apply sort_targets_sorted; assumption.
    + intros x Hx. apply (Permutation_in _ HP) in Hx. apply in_group in Hx as [_ Hx]. rewrite Hx. apply rooted_after. exact HR.
    + intros [a xs] r' Hx Hr'. apply (Permutation_in _ HP) in Hx. pose proof Hx as Hx'. apply in_group in Hx as [_ Hx]. simpl in Hx. subst xs. simpl in Hr' |- *.
      rewrite forallb_forall in Hk. apply Hk in Hx'. simpl in Hx'. destruct a as [k|]; [|discriminate].
      assert (HK' : Forall all_keys (map fst (after_targets (AKey k) ts))) by (rewrite after_targets_fst; apply after_keys; exact HK).
      destruct (next (AKey k)) as [[w s]|] eqn:En.
      * apply Hn in En as [En1 En2]. subst v. refine (IH _ _ _ _ _ _ _ _ Hr'); [|apply rooted_after; exact HR].
        split; [exact HK'|]. left. destruct HC as [HC|[_ HC]]; [|contradiction]. apply Forall_forall. intros p Hp. rewrite after_targets_fst in Hp.
        apply in_after_paths in Hp. rewrite Forall_forall in HC. apply HC in Hp. destruct Hp as (es' & Q & Hp). injection Q as <-. apply Hp. exact En1.
      * subst v. refine (IH _ _ _ _ _ _ _ _ Hr'); [|apply rooted_after; exact HR]. split; [exact HK'|]. right. split; [exists es; reflexivity|reflexivity].
  - assert (HE : snd (group_targets ts) = []).
    { destruct (snd (group_targets ts)) as [|x m] eqn:E; [reflexivity|]. exfalso. rewrite forallb_forall in Hk.
      specialize (Hk x (or_introl eq_refl)). assert (Hx : In (fst x) (firsts (map fst ts))) by (rewrite <- firsts_group, E; left; reflexivity).
      apply HFK in Hx. destruct (fst x); discriminate. }
    rewrite HE in Hr. replace (combine vs (@nil (accessor * list (@target T)))) with (@nil (dval * (accessor * list (@target T)))) in Hr by (destruct vs; reflexivity).
    simpl in Hr. apply some_eq in Hr. subst r. apply HJ; [constructor|]. intros t [].
Qed.
Lemma sorted_ordered : o <> Schema -> (forall cs accs, e_comment_override e accs = None /\ e_schema_override e cs accs = None) ->
  forall fuel v accs (ts : list (@target T)) cs l pre, ready_keys v ts cs -> rooted path pre ts ->
  get_sorted_accessors fuel e v accs ts cs (Some o) = Done l -> Permutation l (map snd ts) /\ ordered l.
Proof.
  intros HO HN. induction fuel as [|fuel IH]; intros v accs ts cs l pre HC HR H; [discriminate|].
  split; [refine (sorted_perm e _ _ _ _ _ _ _ _ H); left; eapply covers_keys; [apply le_n|exact (proj1 HC)]|].
  simpl in H. destruct (combinator_of e cs) as [[r k]|] eqn:E.
  - destruct r as [schemas|]; [|discriminate]. destruct (find _ schemas) as [s'|]; [|discriminate].
    refine (proj2 (IH _ _ _ _ _ pre _ HR H)). destruct HC as [HK [HC|[_ HC]]]; [split; [exact HK|left; exact HC]|subst cs; discriminate].
  - eapply level_ordered; eassumption.
Qed.
End Ordered.
(** Without a schema the call ends, with a result. *)
Lemma no_schema_done {T S} (e : env S) : forall fuel v accs (ts : list (@target T)) o,
  (forall p, In p (map fst ts) -> (length p < fuel)%nat) -> (0 < fuel)%nat -> exists l, get_sorted_accessors fuel e v accs ts None o = Done l.
Proof.
  induction fuel as [|fuel IH]; intros v accs ts o HL HF; [lia|].
  assert (HA : forall a accs v, In a (firsts (map fst ts)) -> exists l, get_sorted_accessors fuel e v accs (after_targets a ts) None o = Done l).
  { intros a accs' v' Ha. apply in_firsts in Ha as [p Hp]. apply HL in Hp. simpl in Hp. apply IH; [|lia].
    intros q Hq. rewrite after_targets_fst in Hq. apply in_after_paths in Hq. apply HL in Hq. simpl in Hq. lia. }
  assert (HE : forall (X : Type) (f : X -> sres (list T)) xs, (forall x, In x xs -> exists l, f x = Done l) -> exists l, extend_all f xs = Done l).
  { clear. induction xs as [|x xs IHx]; simpl; intros H; [eexists; reflexivity|]. destruct (H x (or_introl eq_refl)) as [l ->].
    destruct IHx as [l' ->]; [intros; apply H; right; assumption|]. eexists; reflexivity. }
  simpl. unfold sort_level. pose proof (fun x => in_group ts x) as HG. destruct (group_spec ts) as [_ HM].
  pose proof (in_zip (T := T)) as HZ. destruct (group_targets ts) as [results m] eqn:EG. simpl snd in *.
  destruct v as [es|vs|]; [| |eexists; reflexivity].
  - destruct (forallb _ m); [|eexists; reflexivity]. cbv zeta. match goal with |- context [extend_all _ ?s] => set (sorted := s) end.
    assert (HS : Permutation sorted m).
    { unfold sorted. match goal with |- context [if ?c then _ else _] => destruct c end; [reflexivity|apply sort_table_targets_perm]. }
    clearbody sorted. match goal with |- context [extend_all ?f sorted] => destruct (HE _ f sorted) as [l ->] end; [|eexists; reflexivity].
    intros [a xs] Hx. apply (Permutation_in _ HS) in Hx. apply HG in Hx as [H1 H2]. simpl in H1, H2. subst xs.
    replace (match table_get (acc_to_string a) es with Some _ | _ => None end) with (@None (dval * S)) by (destruct (table_get _ es); reflexivity).
    apply HA. exact H1.
  - destruct (forallb _ m); [|eexists; reflexivity]. cbv zeta.
    match goal with |- context [extend_all ?f ?s] => destruct (HE _ f s) as [l ->] end; [|eexists; reflexivity].
    intros [i [w [a xs]]] Hx. specialize (HZ vs ts (i, (w, (a, xs)))). rewrite EG in HZ. apply HZ in Hx as (_ & H2 & H3). simpl in H2, H3. subst xs.
    apply HA. eapply nth_error_In. exact H2.
Qed.
