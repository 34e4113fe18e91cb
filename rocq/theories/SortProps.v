(** Final theorems about the sorting of keys and tables (C16, C42). *)
From Coq Require Import String Ascii List NArith Bool Arith Lia Permutation Sorted.
From Verif Require Import Base TomlTextModel VersionSortModel VersionSortProofs SortModel SortProofs.
Import ListNotations.
Open Scope N_scope.
Open Scope list_scope.

(** * C16: nothing is lost *)

(** The entries of a table or inline table: every entry comes with its keys, the result has the same entries, for every schema,
    document value, order setting and override. *)
Theorem C16_keys_kept : forall (T S : Type) (e : env S) fuel v accs (ts : list (list accessor * T)) cs o l,
  (forall p x a, In (p, x) ts -> In a p -> exists k, a = AKey k) ->
  get_sorted_accessors fuel e v accs ts cs o = Done l -> Permutation l (map snd ts).
Proof.
  intros T S e fuel v accs ts cs o l HK H. apply (sorted_perm e) in H; [exact H|]. left. apply (covers_keys (dval_size v)); [lia|].
  apply Forall_forall. intros p Hp. apply in_map_iff in Hp. destruct Hp as ([p' x] & <- & Hp). apply Forall_forall. intros a Ha.
  destruct (HK p' x a Hp Ha) as [k ->]. reflexivity.
Qed.
Print Assumptions C16_keys_kept.

(** Tables and arrays of tables, whose paths go through array elements: the same if the document's arrays have an element for every
    index a path goes through ([covers]).  Missing: that the paths made from the headers of a document meet this. *)
Theorem C16_headers_kept_partial : forall (T S : Type) (e : env S) fuel v accs (ts : list (list accessor * T)) cs o l,
  covers v (map fst ts) -> get_sorted_accessors fuel e v accs ts cs o = Done l -> Permutation l (map snd ts).
Proof. intros T S e fuel v accs ts cs o l HC H. apply (sorted_perm e) in H; [exact H|]. left. exact HC. Qed.
Print Assumptions C16_headers_kept_partial.

(** Entries with the same keys, such as the tables of an array of tables, keep their order. *)
Theorem C16_same_path_in_order_partial : forall (T S : Type) (path : T -> list accessor) (e : env S) fuel v accs (xs : list T) cs o l,
  covers v (map path xs) -> get_sorted_accessors fuel e v accs (map (fun x => (path x, x)) xs) cs o = Done l ->
  forall p, filter (fun x => path_eqb (path x) p) l = filter (fun x => path_eqb (path x) p) xs.
Proof.
  intros T S path e fuel v accs xs cs o l HC H p.
  assert (HR : rooted path [] (map (fun x => (path x, x)) xs)).
  { apply Forall_forall. intros [q x] Hx. apply in_map_iff in Hx. destruct Hx as (y & E & _). injection E as <- <-. reflexivity. }
  assert (HRd : ready v (map (fun x => (path x, x)) xs) cs) by (left; rewrite map_map; exact HC).
  destruct (sorted_keep path e fuel v accs _ cs o l [] HRd HR H) as [_ HK]. specialize (HK p). cbn [app] in HK. unfold keep in HK. rewrite HK. unfold want. clear.
  induction xs as [|x xs IH]; [reflexivity|]. cbn [map filter fst]. destruct (path_eqb (path x) p); cbn [map snd]; rewrite IH; reflexivity.
Qed.
Print Assumptions C16_same_path_in_order_partial.

(** The hypothesis is needed: a document array that is too short loses entries. *)
Definition plain_env : env unit := {| e_view := fun _ => VOther; e_valid := fun _ _ _ => true; e_enabled := fun _ => true;
  e_schema_override := fun _ _ => None; e_comment_override := fun _ => None |}.
Example C16_short_array : get_sorted_accessors 5 plain_env (DArray [DTable []]) [] [([AIndex 0], 10); ([AIndex 1], 11)] None None = Done [10].
Proof. reflexivity. Qed.
(** [c.x], [a], [c.y], [b] under a schema with the properties [b] and [c], by the schema's order *)
Definition schema1 (n : nat) : schema_view nat :=
  match n with
  | 0%nat => VTable {| ts_accessors := [AKey (lit "b"); AKey (lit "c")]; ts_pattern := fun _ => false;
                       ts_property := fun a => match a with AKey k => if str_eqb k (lit "c") then Some 1%nat else Some 2%nat | _ => None end;
                       ts_additional := None; ts_keys_order := Some (OAll Schema) |}
  | 1%nat => VTable {| ts_accessors := [AKey (lit "y"); AKey (lit "x")]; ts_pattern := fun _ => false;
                       ts_property := fun _ => Some 2%nat; ts_additional := None; ts_keys_order := Some (OAll Schema) |}
  | _ => VOther
  end.
Definition env1 : env nat := {| e_view := schema1; e_valid := fun _ _ _ => true; e_enabled := fun _ => true;
  e_schema_override := fun _ _ => None; e_comment_override := fun _ => None |}.
Definition doc1 : dval := DTable [(lit "c", DTable [(lit "x", DOther); (lit "y", DOther)]); (lit "a", DOther); (lit "b", DOther)].
Example C16_example :
  let ts := [([AKey (lit "c"); AKey (lit "x")], 1); ([AKey (lit "a")], 2); ([AKey (lit "c"); AKey (lit "y")], 3); ([AKey (lit "b")], 4)] in
  get_sorted_accessors 9 env1 doc1 [] ts (Some 0%nat) None = Done [4; 3; 1; 2] /\ covers doc1 (map fst ts) /\
  (forall p x a, In (p, x) ts -> In a p -> exists k, a = AKey k).
Proof.
  cbv zeta. split; [vm_compute; reflexivity|]. split.
  - apply (covers_keys (dval_size doc1)); [lia|]. repeat constructor.
  - intros p x a [H|[H|[H|[H|[]]]]]; injection H as <- _; simpl; intuition (subst; eauto).
Qed.

(** * C42: the entries end in the order asked for *)

(** Text order, and the order of keys under a setting. *)
Definition key_before (o : order) (a b : str) : Prop :=
  match o with
  | Ascending => str_cmp a b <> Gt
  | Descending => str_cmp b a <> Gt
  | VersionSort => version_sort a b <> Gt
  | Schema => True
  end.
(** Dotted keys: a prefix first, then by the first key that differs. *)
Inductive keys_before (o : order) : list str -> list str -> Prop :=
| Kb_prefix p q : keys_before o p (p ++ q)
| Kb_differ p a b q r : a <> b -> key_before o a b -> keys_before o (p ++ a :: q) (p ++ b :: r).
Definition steps_of (p : list str) : list accessor := map AKey p.
Lemma steps_all_keys p : all_keys (steps_of p).
Proof. apply Forall_forall. intros a Ha. apply in_map_iff in Ha. destruct Ha as (k & <- & _). reflexivity. Qed.
Lemma path_le_before o p : forall q, path_le o (steps_of p) (steps_of q) = true -> keys_before o p q.
Proof.
  induction p as [|a p IH]; intros q H; [exact (Kb_prefix o [] q)|]. destruct q as [|b q]; [discriminate|]. cbn [steps_of map path_le] in H.
  destruct (acc_eqb (AKey a) (AKey b)) eqn:E.
  - apply acc_eqb_eq in E. injection E as <-. destruct (IH q H) as [p' q'|p' x y q' r HN HB].
    + exact (Kb_prefix o (a :: p') q').
    + exact (Kb_differ o (a :: p') x y q' r HN HB).
  - apply (Kb_differ o [] a b p q).
    + intros ->. rewrite acc_eqb_refl in E. discriminate.
    + destruct o; cbn [step_le key_before] in *; try exact I; unfold acc_le in H; cbn [acc_cmp acc_version_le] in H; apply le_of_true; exact H.
Qed.
Lemma strong_impl {A} (R R' : A -> A -> Prop) l : (forall x y, R x y -> R' x y) -> StronglySorted R l -> StronglySorted R' l.
Proof. intros H HS. induction HS as [|x l _ IH HF]; constructor; [exact IH|]. eapply Forall_impl; [|exact HF]. intros y. apply H. Qed.

(** Without a schema the call always ends, and the entries are in order. *)
Theorem C42_ordered_without_schema : forall (T S : Type) (keys : T -> list str) (e : env S) fuel es accs (xs : list T) o,
  o <> Schema -> (forall cs accs, e_comment_override e accs = None /\ e_schema_override e cs accs = None) ->
  (forall x, In x xs -> (length (keys x) < fuel)%nat) -> (0 < fuel)%nat ->
  exists l, get_sorted_accessors fuel e (DTable es) accs (map (fun x => (steps_of (keys x), x)) xs) None (Some o) = Done l /\
    Permutation l xs /\ StronglySorted (fun x y => keys_before o (keys x) (keys y)) l.
Proof.
  intros T S keys e fuel es accs xs o HO HN HF HF0. set (ts := map (fun x => (steps_of (keys x), x)) xs).
  assert (Hsnd : map snd ts = xs) by (unfold ts; rewrite map_map; apply map_id).
  assert (HK : Forall all_keys (map fst ts)).
  { unfold ts. rewrite map_map. apply Forall_forall. intros p Hp. apply in_map_iff in Hp. destruct Hp as (x & <- & _). apply steps_all_keys. }
  assert (HD : exists l, get_sorted_accessors fuel e (DTable es) accs ts None (Some o) = Done l).
  { apply no_schema_done; [|exact HF0]. intros p Hp. unfold ts in Hp. rewrite map_map in Hp. apply in_map_iff in Hp. destruct Hp as (x & <- & Hx).
    cbn [fst]. unfold steps_of. rewrite map_length. apply HF. exact Hx. }
  destruct HD as [l HL]. exists l. split; [exact HL|].
  assert (HR : rooted (fun x => steps_of (keys x)) [] ts).
  { apply Forall_forall. intros [q x] Hx. apply in_map_iff in Hx. destruct Hx as (y & E & _). injection E as <- <-. reflexivity. }
  destruct (sorted_ordered (fun x => steps_of (keys x)) e o HO HN fuel (DTable es) accs ts None l []) as [H1 H2].
  - split; [exact HK|]. right. split; [exists es; reflexivity|reflexivity].
  - exact HR.
  - exact HL.
  - rewrite Hsnd in H1. split; [exact H1|]. revert H2. apply strong_impl. intros x y. apply path_le_before.
Qed.
Print Assumptions C42_ordered_without_schema.

(** With a schema, an order given for the table overrides the schema's, below it too; the dotted keys must lead through tables. *)
Theorem C42_ordered_with_schema_partial : forall (T S : Type) (keys : T -> list str) (e : env S) fuel v accs (xs : list T) cs o l,
  o <> Schema -> (forall cs accs, e_comment_override e accs = None /\ e_schema_override e cs accs = None) ->
  (forall x, In x xs -> table_path v (steps_of (keys x))) ->
  get_sorted_accessors fuel e v accs (map (fun x => (steps_of (keys x), x)) xs) cs (Some o) = Done l ->
  Permutation l xs /\ StronglySorted (fun x y => keys_before o (keys x) (keys y)) l.
Proof.
  intros T S keys e fuel v accs xs cs o l HO HN HT HL. set (ts := map (fun x => (steps_of (keys x), x)) xs) in *.
  assert (Hsnd : map snd ts = xs) by (unfold ts; rewrite map_map; apply map_id).
  destruct (sorted_ordered (fun x => steps_of (keys x)) e o HO HN fuel v accs ts cs l []) as [H1 H2].
  - split; [|left]; unfold ts; rewrite map_map; apply Forall_forall; intros p Hp; apply in_map_iff in Hp; destruct Hp as (x & <- & Hx);
      [apply steps_all_keys|apply HT; exact Hx].
  - apply Forall_forall. intros [q x] Hx. apply in_map_iff in Hx. destruct Hx as (y & E & _). injection E as <- <-. reflexivity.
  - exact HL.
  - rewrite Hsnd in H1. split; [exact H1|]. revert H2. apply strong_impl. intros x y. apply path_le_before.
Qed.
Print Assumptions C42_ordered_with_schema_partial.
Example C42_example :
  let xs := [[lit "c"; lit "x"]; [lit "a"]; [lit "c"; lit "b"]; [lit "b"]] in
  get_sorted_accessors 9 env1 doc1 [] (map (fun x => (steps_of x, x)) xs) (Some 0%nat) (Some Descending) =
    Done [[lit "c"; lit "x"]; [lit "c"; lit "b"]; [lit "b"]; [lit "a"]] /\
  (forall x, In x xs -> table_path doc1 (steps_of x)).
Proof.
  cbv zeta. split; [vm_compute; reflexivity|]. intros x [<-|[<-|[<-|[<-|[]]]]]; cbn [steps_of map table_path]; eexists; (split; [reflexivity|]);
    intros w Hw; vm_compute in Hw; try injection Hw as <-; try exact I; eexists; (split; [reflexivity|]); intros; exact I.
Qed.

(** ** One table, with simple keys *)
Section Flat.
Context {T S : Type} (key : T -> str).
Notation tmap := (@targets_map T).
Definition single (x : T) : accessor * list (@target T) := (AKey (key x), [([], x)]).
Lemma map_push_new a x : forall m : tmap, ~ In a (map fst m) -> map_push a x m = m ++ [(a, [x])].
Proof.
  induction m as [|[b ys] m IH]; intros H; [reflexivity|]. cbn [map_push]. destruct (acc_eqb a b) eqn:E.
  - apply acc_eqb_eq in E. exfalso. apply H. left. symmetry. exact E.
  - cbn [app]. f_equal. apply IH. intros HI. apply H. right. exact HI.
Qed.
Lemma group_single xs : NoDup (map key xs) -> group_targets (map (fun x => ([AKey (key x)], x)) xs) = ([], map single xs).
Proof.
  intros HD. unfold group_targets.
  enough (HG : forall m : tmap, NoDup (map fst m ++ map (fun x => AKey (key x)) xs) ->
    fold_left push_target (map (fun x => ([AKey (key x)], x)) xs) ([], m) = ([], m ++ map single xs)).
  { apply (HG []). cbn [map app]. rewrite <- (map_map key AKey). apply FinFun.Injective_map_NoDup; [intros a b E; congruence|exact HD]. }
  clear HD. induction xs as [|x xs IH]; intros m HD; cbn [map fold_left]; [rewrite app_nil_r; reflexivity|].
  unfold push_target at 2. cbn [fst snd]. rewrite map_push_new.
  - rewrite IH; [rewrite <- app_assoc; reflexivity|]. rewrite map_app, <- app_assoc. exact HD.
  - intros HI. cbn [map] in HD. apply NoDup_remove_2 in HD. apply HD. apply in_app_iff. left. exact HI.
Qed.
Lemma extend_single (f : accessor * list (@target T) -> sres (list T)) : forall sorted r,
  (forall y q, In y sorted -> f y = Done q -> exists x, y = single x /\ q = [x]) -> extend_all f sorted = Done r -> sorted = map single r.
Proof.
  induction sorted as [|y sorted IH]; intros r HF H; cbn [extend_all] in H; [apply some_eq in H; subst r; reflexivity|].
  destruct (f y) as [| |q] eqn:E; try discriminate. destruct (extend_all f sorted) as [| |r'] eqn:E'; try discriminate. apply some_eq in H. subst r.
  destruct (HF y q (or_introl eq_refl) E) as (x & -> & ->). cbn [app map]. f_equal. apply IH; [|reflexivity]. intros z q Hz. apply HF. right. exact Hz.
Qed.
(** A schema whose order settings are on, without overrides. *)
Definition governs (e : env S) (s : S) (t : table_schema S) (accs : list accessor) : Prop :=
  e_view e s = VTable t /\ e_enabled e (Some s) = true /\ e_comment_override e accs = None /\ e_schema_override e (Some s) accs = None.
Lemma flat_result (e : env S) s t accs fuel es xs l : governs e s t accs -> NoDup (map key xs) ->
  get_sorted_accessors fuel e (DTable es) accs (map (fun x => ([AKey (key x)], x)) xs) (Some s) None = Done l ->
  map single l = sort_table_targets (map single xs) (Some t) (ts_keys_order t).
Proof.
  intros (HV & HE & HC & HS) HD H. destruct fuel as [|fuel]; [discriminate|]. cbn [get_sorted_accessors] in H.
  unfold combinator_of in H. rewrite HV in H. unfold sort_level in H. rewrite (group_single xs HD) in H. rewrite HV, HC, HS in H. cbv zeta in H.
  match type of H with (if ?b then _ else _) = _ => replace b with true in H
    by (symmetry; apply forallb_forall; intros y Hy; apply in_map_iff in Hy; destruct Hy as (x & <- & _); reflexivity) end.
  cbn [order_of_override option_or is_disabled orb get_table_keys_order] in H. rewrite HE, HV in H. cbn [orb] in H.
  match type of H with context [extend_all ?f ?s] => assert (HX : s = sort_table_targets (map single xs) (Some t) (ts_keys_order t)) by (destruct (ts_keys_order t) as [[?|?]|]; reflexivity) end.
  rewrite HX in H. apply done_app in H. destruct H as (r & H & ->). cbn [app]. symmetry. revert H. apply extend_single.
  intros [a ys] q Hy. apply (Permutation_in _ (sort_table_targets_perm _ _ _)) in Hy. apply in_map_iff in Hy. destruct Hy as (x & E & _).
  unfold single in E. injection E as <- <-.
  assert (HG : forall v accs cs, get_sorted_accessors fuel e v accs [([], x)] cs None = Done q -> exists z, single x = single z /\ q = [z]).
  { intros v accs' cs HR. exists x. split; [reflexivity|]. apply sorted_perm in HR.
    - apply Permutation_sym, Permutation_length_1_inv in HR. exact HR.
    - left. apply (covers_keys (dval_size v)); [lia|]. repeat constructor. }
  match goal with |- match ?m with _ => _ end = _ -> _ => destruct m as [[w s']|] end; apply HG.
Qed.

(** *** By the schema *)
(** the first place of [a] among the properties is not after that of [b] *)
Definition comes_before (props : list accessor) (a b : accessor) : Prop := exists p r, props = p ++ a :: r /\ ~ In b p.
Lemma schema_sort_spec : forall ord (m : tmap), exists l1, schema_sort ord m = l1 ++ filter (fun x => negb (existsb (acc_eqb (fst x)) ord)) m /\
  Forall (fun x => In (fst x) ord /\ In x m) l1 /\ StronglySorted (fun x y => comes_before ord (fst x) (fst y)) l1.
Proof.
  induction ord as [|a ord IH]; intros m.
  - exists []. cbn [schema_sort app existsb negb]. split; [|split; constructor]. induction m as [|x m IHm]; [reflexivity|]. cbn [filter]. rewrite <- IHm. reflexivity.
  - cbn [schema_sort]. match goal with |- context [schema_sort ord ?q] => set (m' := q) end. destruct (IH m') as (l1 & E & HF & HS).
    exists (filter (fun e => acc_eqb (fst e) a) m ++ l1). split; [|split].
    + rewrite E, app_assoc. f_equal. unfold m'. clear. induction m as [|x m IHm]; [reflexivity|]. cbn [filter existsb].
      destruct (acc_eqb (fst x) a) eqn:Ea; cbn [negb orb filter]; [exact IHm|]. destruct (existsb (acc_eqb (fst x)) ord); cbn [negb]; rewrite IHm; reflexivity.
    + apply Forall_app. split.
      * apply Forall_forall. intros x Hx. apply filter_In in Hx. destruct Hx as [Hx Ex]. apply acc_eqb_eq in Ex. split; [left; symmetry; exact Ex|exact Hx].
      * eapply Forall_impl; [|exact HF]. intros x [H1 H2]. apply filter_In in H2. split; [right; exact H1|apply H2].
    + apply app_sorted.
      * assert (HA : forall m, StronglySorted (fun x y => comes_before (a :: ord) (fst x) (fst y)) (filter (fun e : accessor * list (@target T) => acc_eqb (fst e) a) m)).
        { clear. induction m as [|x m IHm]; [constructor|]. cbn [filter]. destruct (acc_eqb (fst x) a) eqn:Ea; [|exact IHm]. constructor; [exact IHm|].
          apply Forall_forall. intros y _. apply acc_eqb_eq in Ea. exists [], ord. rewrite Ea. split; [reflexivity|intros []]. }
        apply HA.
      * assert (HI : Forall (fun x => fst x <> a) l1).
        { eapply Forall_impl; [|exact HF]. intros x [_ H2]. apply filter_In in H2. destruct H2 as [_ H2]. apply negb_true_iff in H2. apply acc_eqb_neq. exact H2. }
        clear -HS HI. induction HS as [|x l _ IHl HF]; constructor; inversion HI as [|? ? Hx Hl]; subst; [apply IHl; exact Hl|].
        rewrite Forall_forall in *. intros y Hy. destruct (HF y Hy) as (p & r & -> & HN). exists (a :: p), r. split; [reflexivity|].
        intros [K|K]; [apply (Hl y Hy); symmetry; exact K|exact (HN K)].
      * intros x y Hx _. apply filter_In in Hx. destruct Hx as [_ Ex]. apply acc_eqb_eq in Ex. exists [], ord. rewrite Ex. split; [reflexivity|intros []].
Qed.
Lemma map_single_filter (p : accessor -> bool) xs : filter (fun y => p (fst y)) (map single xs) = map single (filter (fun x => p (AKey (key x))) xs).
Proof. induction xs as [|x xs IH]; [reflexivity|]. cbn [map filter fst single]. rewrite IH. destruct (p (AKey (key x))); reflexivity. Qed.
Lemma map_single_inj : forall l l' : list T, map single l = map single l' -> l = l'.
Proof. induction l as [|x l IH]; intros [|y l'] E; try discriminate; [reflexivity|]. cbn [map] in E. unfold single in E at 1 3. injection E as _ -> E. f_equal. apply IH. exact E. Qed.
Lemma sorted_single (R : accessor -> accessor -> Prop) : forall l, StronglySorted (fun x y => R (fst x) (fst y)) (map single l) -> StronglySorted (fun x y => R (AKey (key x)) (AKey (key y))) l.
Proof.
  induction l as [|x l IH]; intros H; [constructor|]. cbn [map] in H. inversion H as [|? ? H1 H2]; subst. constructor; [apply IH; exact H1|].
  apply Forall_forall. intros y Hy. rewrite Forall_forall in H2. apply (H2 (single y)). apply in_map. exact Hy.
Qed.
(** Under a schema that asks for its own order: the entries with a property in the schema come first, in the order of the
    properties; the others follow in the order they had. *)
Theorem C42_schema_order : forall (e : env S) s t accs fuel es xs l, governs e s t accs -> ts_keys_order t = Some (OAll Schema) -> NoDup (map key xs) ->
  get_sorted_accessors fuel e (DTable es) accs (map (fun x => ([AKey (key x)], x)) xs) (Some s) None = Done l ->
  exists l1, l = l1 ++ filter (fun x => negb (existsb (acc_eqb (AKey (key x))) (ts_accessors t))) xs /\
    (forall x, In x l1 -> In (AKey (key x)) (ts_accessors t)) /\
    StronglySorted (fun x y => comes_before (ts_accessors t) (AKey (key x)) (AKey (key y))) l1.
Proof.
  intros e s t accs fuel es xs l HG HO HD H. pose proof (flat_result e s t accs fuel es xs l HG HD H) as HR. rewrite HO in HR. cbn [sort_table_targets sort_targets] in HR.
  destruct (schema_sort_spec (ts_accessors t) (map single xs)) as (l1 & E & HF & HS). rewrite E in HR.
  rewrite (map_single_filter (fun a => negb (existsb (acc_eqb a) (ts_accessors t)))) in HR.
  assert (HL : exists l1', l1 = map single l1').
  { assert (HI : Forall (fun x => In x (map single xs)) l1) by (eapply Forall_impl; [|exact HF]; intros x [_ Hx]; exact Hx). clear -HI.
    induction HI as [|y l1 Hy _ [l1' ->]]; [exists []; reflexivity|]. apply in_map_iff in Hy. destruct Hy as (x & <- & _). exists (x :: l1'). reflexivity. }
  destruct HL as [l1' ->]. rewrite <- map_app in HR. apply map_single_inj in HR. exists l1'. split; [exact HR|]. split.
  - intros x Hx. rewrite Forall_forall in HF. apply (HF (single x)). apply in_map. exact Hx.
  - apply sorted_single. exact HS.
Qed.

(** *** By groups *)
Lemma fill_slots_false (spec : accessor * list (@target T) -> bool) : forall (m s : tmap) i x, length s = length (filter spec m) ->
  nth_error m i = Some x -> spec x = false -> nth_error (fill_slots (map spec m) s (filter (fun x => negb (spec x)) m)) i = Some x.
Proof.
  induction m as [|y m IH]; intros s i x HL HN HS; [destruct i; discriminate|]. cbn [map filter fill_slots] in *. destruct (spec y) eqn:Ey; cbn [negb].
  - destruct s as [|z s]; [discriminate|]. destruct i as [|i]; [cbn in HN; injection HN as <-; congruence|]. cbn [nth_error]. apply IH; [cbn in HL; congruence|exact HN|exact HS].
  - destruct i as [|i]; [exact HN|]. cbn [nth_error]. apply IH; assumption.
Qed.
Lemma fill_slots_true (spec : accessor * list (@target T) -> bool) : forall (m s : tmap), length s = length (filter spec m) ->
  Forall (fun x => spec x = true) s -> filter spec (fill_slots (map spec m) s (filter (fun x => negb (spec x)) m)) = s.
Proof.
  induction m as [|y m IH]; intros s HL HF; cbn [map filter fill_slots] in *; [destruct s; [reflexivity|discriminate]|]. destruct (spec y) eqn:Ey; cbn [negb].
  - destruct s as [|z s]; [discriminate|]. inversion HF as [|? ? Hz Hs]; subst. cbn [filter]. rewrite Hz. f_equal. apply IH; [cbn in HL; congruence|exact Hs].
  - cbn [filter]. rewrite Ey. apply IH; assumption.
Qed.
Definition specified (t : table_schema S) (gs : list (group_kind * order)) (a : accessor) : bool := in_sort_group gs (kind_of t a).
Definition bucket_of (t : table_schema S) gs (m : tmap) : @buckets T :=
  fun k => filter (fun x => specified t gs (fst x) && kind_eqb (kind_of t (fst x)) k) m.
Definition placed (t : table_schema S) gs (m : tmap) : tmap :=
  let '(sorted, b') := sort_groups t gs (bucket_of t gs m) in place_additional t gs sorted b'.
Lemma groups_unfold (t : table_schema S) gs (m : tmap) : sort_table_targets m (Some t) (Some (OGroups gs)) =
  fill_slots (map (fun x => specified t gs (fst x)) m) (placed t gs m) (filter (fun x => negb (specified t gs (fst x))) m).
Proof.
  cbn [sort_table_targets]. unfold placed. change (fun k : group_kind => filter (fun x : accessor * list target => in_sort_group gs (kind_of t (fst x)) && kind_eqb (kind_of t (fst x)) k) m) with (bucket_of t gs m).
  destruct (sort_groups t gs (bucket_of t gs m)) as [l b']. reflexivity.
Qed.
Lemma placed_perm t gs m : Permutation (placed t gs m) (filter (fun x => specified t gs (fst x)) m).
Proof.
  pose proof (sort_table_targets_perm m (Some t) (Some (OGroups gs))) as HP. rewrite groups_unfold, fill_slots_perm in HP.
  rewrite <- (filter_split (fun x => specified t gs (fst x)) m) in HP at 3. apply Permutation_app_inv_r in HP. exact HP.
Qed.
Lemma kind_specified gs k : has_group k gs = true -> in_sort_group gs k = true.
Proof. destruct k; simpl; intros H; rewrite H; reflexivity. Qed.
(** the output of the groups, one kind at a time *)
Definition of_kind (t : table_schema S) (k : group_kind) (x : accessor * list (@target T)) : bool := kind_eqb (kind_of t (fst x)) k.
Lemma filter_all {A} (p : A -> bool) l : Forall (fun x => p x = true) l -> filter p l = l.
Proof. induction 1 as [|x l Hx _ IH]; [reflexivity|]. cbn [filter]. rewrite Hx, IH. reflexivity. Qed.
Lemma filter_none {A} (p : A -> bool) l : Forall (fun x => p x = false) l -> filter p l = [].
Proof. induction 1 as [|x l Hx _ IH]; [reflexivity|]. cbn [filter]. rewrite Hx, IH. reflexivity. Qed.
Definition first_order (k : group_kind) (gs : list (group_kind * order)) : option order :=
  match find (fun g => kind_eqb (fst g) k) gs with Some g => Some (snd g) | None => None end.
Lemma sort_groups_kind t : forall gs (b : @buckets T) k, (forall k, Forall (fun x => of_kind t k x = true) (b k)) ->
  filter (of_kind t k) (fst (sort_groups t gs b)) = match first_order k gs with Some o => sort_targets (b k) o (Some t) | None => [] end.
Proof.
  induction gs as [|[k0 o] gs IH]; intros b k HB; [reflexivity|]. cbn [sort_groups].
  assert (HB' : forall k, Forall (fun x => of_kind t k x = true) (take_bucket b k0 k)) by (intros k'; unfold take_bucket; destruct (kind_eqb k0 k'); [constructor|apply HB]).
  specialize (IH (take_bucket b k0) k HB'). destruct (sort_groups t gs (take_bucket b k0)) as [l b'] eqn:E. cbn [fst] in *. rewrite filter_app, IH.
  assert (HK : Forall (fun x => of_kind t k0 x = true) (sort_targets (b k0) o (Some t))) by (eapply Permutation_Forall; [symmetry; apply sort_targets_perm|apply HB]).
  unfold first_order. cbn [find fst snd]. destruct (kind_eqb k0 k) eqn:Ek.
  - apply kind_eqb_eq in Ek. subst k0. rewrite (filter_all _ _ HK). unfold take_bucket. rewrite kind_eqb_refl.
    transitivity (sort_targets (b k) o (Some t) ++ []); [|apply app_nil_r]. f_equal. destruct (find _ gs) as [[? o']|]; [|reflexivity]. cbn [snd].
    apply Permutation_nil. symmetry. apply sort_targets_perm.
  - rewrite filter_none.
    + unfold take_bucket. rewrite Ek. reflexivity.
    + eapply Forall_impl; [|exact HK]. intros x Hx. unfold of_kind in *. apply kind_eqb_eq in Hx. rewrite Hx. exact Ek.
Qed.
Lemma bucket_kind t gs m : forall k, Forall (fun x => of_kind t k x = true) (bucket_of t gs m k).
Proof. intros k. apply Forall_forall. intros x Hx. apply filter_In in Hx. destruct Hx as [_ Hx]. apply andb_true_iff in Hx. apply Hx. Qed.
Lemma first_has k gs : has_group k gs = match first_order k gs with Some _ => true | None => false end.
Proof. unfold has_group, first_order. induction gs as [|g gs IH]; [reflexivity|]. cbn [existsb find]. destruct (kind_eqb (fst g) k); [reflexivity|exact IH]. Qed.
Lemma placed_kind t gs m k o : first_order k gs = Some o -> filter (of_kind t k) (placed t gs m) = sort_targets (filter (of_kind t k) m) o (Some t).
Proof.
  intros HO. unfold placed. pose proof (sort_groups_kind t gs (bucket_of t gs m) k (bucket_kind t gs m)) as HK. pose proof (sort_groups_rest t gs (bucket_of t gs m)) as HR.
  destruct (sort_groups t gs (bucket_of t gs m)) as [l b'] eqn:E. cbn [fst snd] in HK, HR. rewrite HO in HK.
  assert (HB : bucket_of t gs m k = filter (of_kind t k) m).
  { unfold bucket_of. apply filter_ext. intros x. unfold of_kind. destruct (kind_eqb (kind_of t (fst x)) k) eqn:Ek; [|apply andb_false_r].
    apply kind_eqb_eq in Ek. unfold specified. rewrite Ek, kind_specified; [reflexivity|]. rewrite first_has, HO. reflexivity. }
  rewrite HB in HK.
  assert (HA : forall o', filter (of_kind t k) (sort_targets (b' GAdditionalKeys) o' (Some t)) = []).
  { intros o'. apply filter_none. eapply Permutation_Forall; [symmetry; apply sort_targets_perm|]. rewrite HR. destruct (has_group GAdditionalKeys gs) eqn:EA; [constructor|].
    eapply Forall_impl; [|apply bucket_kind]. intros x Hx. unfold of_kind in *. apply kind_eqb_eq in Hx. rewrite Hx. destruct k; try reflexivity.
    rewrite first_has, HO in EA. discriminate. }
  unfold place_additional. destruct (fallback_additional_order gs) as [[]|]; rewrite ?filter_app, ?HA, ?app_nil_r; exact HK.
Qed.
Lemma nth_map_single l i x : nth_error (map single l) i = Some (single x) -> nth_error l i = Some x.
Proof.
  rewrite nth_error_map. destruct (nth_error l i) as [y|]; cbn [option_map]; [|discriminate]. intros H. unfold single in H. injection H as _ ->. reflexivity.
Qed.
Lemma flat_groups_others_stay : forall (e : env S) s t gs accs fuel es xs l, governs e s t accs -> ts_keys_order t = Some (OGroups gs) -> NoDup (map key xs) ->
  get_sorted_accessors fuel e (DTable es) accs (map (fun x => ([AKey (key x)], x)) xs) (Some s) None = Done l ->
  forall i x, nth_error xs i = Some x -> in_sort_group gs (kind_of t (AKey (key x))) = false -> nth_error l i = Some x.
Proof.
  intros e s t gs accs fuel es xs l HG HO HD H i x HN HS. pose proof (flat_result e s t accs fuel es xs l HG HD H) as HR. rewrite HO, groups_unfold in HR.
  apply nth_map_single. rewrite HR. apply fill_slots_false.
  - apply Permutation_length. apply placed_perm.
  - rewrite nth_error_map, HN. reflexivity.
  - exact HS.
Qed.
Lemma flat_groups_sorted : forall (e : env S) s t gs accs fuel es xs l, governs e s t accs -> ts_keys_order t = Some (OGroups gs) -> NoDup (map key xs) ->
  get_sorted_accessors fuel e (DTable es) accs (map (fun x => ([AKey (key x)], x)) xs) (Some s) None = Done l ->
  forall g1 k o g2, gs = g1 ++ (k, o) :: g2 -> ~ In k (map fst g1) ->
  let mine := filter (fun x => kind_eqb (kind_of t (AKey (key x))) k) in
  Permutation (mine l) (mine xs) /\
  (o <> Schema -> StronglySorted (fun x y => key_before o (key x) (key y)) (mine l)) /\
  (o = Schema -> k = GKeys -> StronglySorted (fun x y => comes_before (ts_accessors t) (AKey (key x)) (AKey (key y))) (mine l)).
Proof.
  intros e s t gs accs fuel es xs l HG HO HD H g1 k o g2 Hgs Hk mine. pose proof (flat_result e s t accs fuel es xs l HG HD H) as HR. rewrite HO, groups_unfold in HR.
  assert (HF : first_order k gs = Some o).
  { rewrite Hgs. unfold first_order. clear -Hk. induction g1 as [|[k1 o1] g1 IH]; cbn [app find fst]; [rewrite kind_eqb_refl; reflexivity|].
    destruct (kind_eqb k1 k) eqn:E; [apply kind_eqb_eq in E; exfalso; apply Hk; left; exact E|]. apply IH. intros HI. apply Hk. right. exact HI. }
  assert (HP : map single (mine l) = sort_targets (map single (mine xs)) o (Some t)).
  { unfold mine. rewrite <- (map_single_filter (fun a => kind_eqb (kind_of t a) k)), HR.
    rewrite <- (map_single_filter (fun a => kind_eqb (kind_of t a) k) xs).
    change (fun y : accessor * list (@target T) => kind_eqb (kind_of t (fst y)) k) with (of_kind t k).
    rewrite <- (placed_kind t gs (map single xs) k o HF).
    rewrite <- (fill_slots_true (fun x => specified t gs (fst x)) (map single xs) (placed t gs (map single xs))) at 2.
    - symmetry. generalize (fill_slots (map (fun x => specified t gs (fst x)) (map single xs)) (placed t gs (map single xs)) (filter (fun x => negb (specified t gs (fst x))) (map single xs))).
      intros q. induction q as [|y q IH]; [reflexivity|]. cbn [filter]. destruct (of_kind t k y) eqn:Ek.
      + assert (Hy : specified t gs (fst y) = true).
        { unfold specified. unfold of_kind in Ek. apply kind_eqb_eq in Ek. rewrite Ek. apply kind_specified. rewrite first_has, HF. reflexivity. }
        rewrite Hy. cbn [filter]. rewrite Ek, IH. reflexivity.
      + destruct (specified t gs (fst y)); cbn [filter]; rewrite ?Ek; exact IH.
    - apply Permutation_length. apply placed_perm.
    - eapply Permutation_Forall; [symmetry; apply placed_perm|]. apply Forall_forall. intros x Hx. apply filter_In in Hx. apply Hx. }
  split; [|split].
  - assert (HQ : Permutation (map single (mine l)) (map single (mine xs))) by (rewrite HP; apply sort_targets_perm).
    apply (Permutation_map (fun y : accessor * list (@target T) => map snd (snd y))) in HQ. rewrite !map_map in HQ. cbn in HQ.
    apply (Permutation_flat_map (fun y : list T => y)) in HQ. clear -HQ. assert (HE : forall q : list T, flat_map (fun y => y) (map (fun x => [x]) q) = q).
    { induction q as [|x q IH]; [reflexivity|]. cbn [map flat_map app]. rewrite IH. reflexivity. }
    rewrite !HE in HQ. exact HQ.
  - intros Ho. assert (HS := sort_targets_sorted (map single (mine xs)) o (Some t) Ho). rewrite <- HP in HS.
    apply (sorted_single (fun a b => step_le o a b = true)) in HS.
    + revert HS. apply strong_impl. intros x y Hxy. destruct o; cbn [step_le key_before] in *; try exact I; unfold acc_le in Hxy; cbn [acc_cmp acc_version_le] in Hxy; apply le_of_true; exact Hxy.
    + apply forallb_forall. intros y Hy. apply in_map_iff in Hy. destruct Hy as (x & <- & _). reflexivity.
  - intros -> ->. cbn [sort_targets] in HP. destruct (schema_sort_spec (ts_accessors t) (map single (mine xs))) as (l1 & E & _ & HS).
    rewrite filter_none in E.
    + rewrite app_nil_r in E. rewrite <- HP in E. rewrite <- E in HS. apply sorted_single. exact HS.
    + apply Forall_forall. intros y Hy. apply in_map_iff in Hy. destruct Hy as (x & <- & Hx). apply filter_In in Hx. destruct Hx as [_ Hx]. apply kind_eqb_eq in Hx.
      cbn [fst single]. unfold kind_of in Hx. destruct (existsb (acc_eqb (AKey (key x))) (ts_accessors t)); [reflexivity|]. destruct (ts_pattern t (key x)); discriminate.
Qed.

Definition none_of (t : table_schema S) k (l : tmap) : Prop := Forall (fun x => of_kind t k x = false) l.
Lemma none_filter t k : forall l, filter (of_kind t k) l = [] -> none_of t k l.
Proof. induction l as [|x l IH]; intros H; [constructor|]. cbn [filter] in H. destruct (of_kind t k x) eqn:E; [discriminate|]. constructor; [exact E|apply IH; exact H]. Qed.
Lemma kind_other t k k' (l : tmap) : k <> k' -> Forall (fun x => of_kind t k x = true) l -> none_of t k' l.
Proof.
  intros HN HF. eapply Forall_impl; [|exact HF]. intros x Hx. unfold of_kind in *. apply kind_eqb_eq in Hx. rewrite Hx.
  destruct (kind_eqb k k') eqn:E; [apply kind_eqb_eq in E; contradiction|reflexivity].
Qed.
Lemma sort_groups_split t k1 o1 k2 gs2 : k1 <> k2 -> forall g1 (b : @buckets T), (forall k, Forall (fun x => of_kind t k x = true) (b k)) -> ~ In k2 (map fst g1) ->
  exists A B, fst (sort_groups t (g1 ++ (k1, o1) :: gs2) b) = A ++ B /\ none_of t k2 A /\ none_of t k1 B.
Proof.
  intros HN. induction g1 as [|[k o] g1 IH]; intros b HB Hk.
  - cbn [app sort_groups]. assert (HB' : forall k, Forall (fun x => of_kind t k x = true) (take_bucket b k1 k)) by (intros k'; unfold take_bucket; destruct (kind_eqb k1 k'); [constructor|apply HB]).
    pose proof (sort_groups_kind t gs2 (take_bucket b k1) k1 HB') as HK. destruct (sort_groups t gs2 (take_bucket b k1)) as [l b']. cbn [fst] in *.
    exists (sort_targets (b k1) o1 (Some t)), l. split; [reflexivity|]. split.
    + apply (kind_other t k1); [exact HN|]. eapply Permutation_Forall; [symmetry; apply sort_targets_perm|apply HB].
    + apply none_filter. rewrite HK. destruct (first_order k1 gs2); [|reflexivity]. unfold take_bucket. rewrite kind_eqb_refl. apply Permutation_nil. symmetry. apply sort_targets_perm.
  - cbn [app sort_groups]. assert (HB' : forall k', Forall (fun x => of_kind t k' x = true) (take_bucket b k k')) by (intros k'; unfold take_bucket; destruct (kind_eqb k k'); [constructor|apply HB]).
    destruct (IH (take_bucket b k) HB') as (A & B & E & HA & HC); [intros HI; apply Hk; right; exact HI|].
    destruct (sort_groups t (g1 ++ (k1, o1) :: gs2) (take_bucket b k)) as [l b']. cbn [fst] in *. subst l.
    exists (sort_targets (b k) o (Some t) ++ A), B. split; [apply app_assoc|]. split; [|exact HC]. apply Forall_app. split; [|exact HA].
    apply (kind_other t k); [intros ->; apply Hk; left; reflexivity|]. eapply Permutation_Forall; [symmetry; apply sort_targets_perm|apply HB].
Qed.
Lemma has_app k g1 g2 : has_group k (g1 ++ g2) = has_group k g1 || has_group k g2.
Proof. unfold has_group. apply existsb_app. Qed.
Lemma placed_split t gs m k1 k2 g1 o1 g2 o2 g3 : gs = g1 ++ (k1, o1) :: g2 ++ (k2, o2) :: g3 -> k1 <> k2 -> ~ In k2 (map fst g1) ->
  exists A B, placed t gs m = A ++ B /\ none_of t k2 A /\ none_of t k1 B.
Proof.
  intros Hgs HN Hk. destruct (sort_groups_split t k1 o1 k2 (g2 ++ (k2, o2) :: g3) HN g1 (bucket_of t gs m) (bucket_kind t gs m) Hk) as (A & B & E & HA & HC).
  rewrite <- Hgs in E. unfold placed. pose proof (sort_groups_rest t gs (bucket_of t gs m)) as HR.
  destruct (sort_groups t gs (bucket_of t gs m)) as [l b']. cbn [fst snd] in *. subst l. unfold place_additional.
  destruct (fallback_additional_order gs) as [o|] eqn:EF; [|exists A, B; auto].
  assert (HG : has_group GAdditionalKeys gs = false) by (unfold fallback_additional_order in EF; destruct (has_group GAdditionalKeys gs); [discriminate|reflexivity]).
  assert (HX : forall k, k = k1 \/ k = k2 -> GAdditionalKeys <> k).
  { intros k HK <-. rewrite Hgs, has_app in HG. cbn [has_group existsb fst] in HG. fold (has_group GAdditionalKeys (g2 ++ (k2, o2) :: g3)) in HG.
    rewrite has_app in HG. cbn [has_group existsb fst] in HG. destruct HK as [<-|<-]; cbn [kind_eqb orb] in HG; rewrite !orb_true_r in HG; discriminate. }
  assert (HO : forall o k, k = k1 \/ k = k2 -> none_of t k (sort_targets (b' GAdditionalKeys) o (Some t))).
  { intros o' k HK. apply (kind_other t GAdditionalKeys); [apply HX; exact HK|]. eapply Permutation_Forall; [symmetry; apply sort_targets_perm|].
    rewrite HR, HG. apply bucket_kind. }
  destruct o.
  1, 3, 4: eexists (_ ++ A), B; split; [rewrite <- app_assoc; reflexivity|]; split; [apply Forall_app; split; [apply HO; auto|exact HA]|exact HC].
  exists A, (B ++ sort_targets (b' GAdditionalKeys) Descending (Some t)). split; [rewrite <- app_assoc; reflexivity|]. split; [exact HA|]. apply Forall_app. split; [exact HC|apply HO; auto].
Qed.
(** nothing of the second kind before something of the first *)
Lemma split_order {A} (f1 f2 : A -> bool) : forall l p x q y r, l = p ++ x :: q ++ y :: r -> f2 x = true -> f1 y = true ->
  forall a b, l = a ++ b -> Forall (fun x => f2 x = false) a -> Forall (fun x => f1 x = false) b -> False.
Proof.
  intros l p x q y r HL Hx Hy a b HE Ha Hb. rewrite HL in HE. clear HL l. revert p HE. induction a as [|z a IH]; intros p HE.
  - cbn [app] in HE. subst b. rewrite Forall_forall in Hb. rewrite (Hb y) in Hy; [discriminate|]. apply in_app_iff. right. right. apply in_app_iff. right. left. reflexivity.
  - inversion Ha as [|? ? Hz Ha']; subst. destruct p as [|w p]; cbn [app] in HE; injection HE as -> HE; [congruence|]. exact (IH Ha' p HE).
Qed.
Lemma filter_two {A} (f : A -> bool) p x q y r : f x = true -> f y = true -> filter f (p ++ x :: q ++ y :: r) = filter f p ++ x :: filter f q ++ y :: filter f r.
Proof. intros Hx Hy. rewrite filter_app. cbn [filter]. rewrite Hx, filter_app. cbn [filter]. rewrite Hy. reflexivity. Qed.
Lemma before_of_placed t gs (k1 k2 : group_kind) m l : map single l = sort_table_targets m (Some t) (Some (OGroups gs)) ->
  in_sort_group gs k1 = true -> in_sort_group gs k2 = true ->
  (exists A B, placed t gs m = A ++ B /\ none_of t k2 A /\ none_of t k1 B) ->
  forall p x q y r, l = p ++ x :: q ++ y :: r -> kind_of t (AKey (key x)) = k2 -> kind_of t (AKey (key y)) <> k1.
Proof.
  intros HR H1 H2 (A & B & HP & HA & HB) p x q y r -> Hx Hy. rewrite groups_unfold in HR.
  apply (f_equal (filter (fun x => specified t gs (fst x)))) in HR. rewrite (fill_slots_true (fun x => specified t gs (fst x))) in HR.
  - rewrite map_app in HR. cbn [map] in HR. rewrite map_app in HR. cbn [map] in HR.
    rewrite filter_two in HR by (cbn [fst single]; unfold specified; rewrite ?Hx, ?Hy; assumption).
    rewrite HP in HR. symmetry in HR.
    refine (split_order (of_kind t k1) (of_kind t k2) _ _ _ _ _ _ HR _ _ A B eq_refl HA HB); unfold of_kind; cbn [fst single]; apply kind_eqb_eq; assumption.
  - apply Permutation_length. apply placed_perm.
  - eapply Permutation_Forall; [symmetry; apply placed_perm|]. apply Forall_forall. intros z Hz. apply filter_In in Hz. apply Hz.
Qed.
Lemma flat_groups_in_sequence : forall (e : env S) s t gs accs fuel es xs l, governs e s t accs -> ts_keys_order t = Some (OGroups gs) -> NoDup (map key xs) ->
  get_sorted_accessors fuel e (DTable es) accs (map (fun x => ([AKey (key x)], x)) xs) (Some s) None = Done l ->
  forall g1 k1 o1 g2 k2 o2 g3, gs = g1 ++ (k1, o1) :: g2 ++ (k2, o2) :: g3 -> k1 <> k2 -> ~ In k2 (map fst g1) ->
  forall p x q y r, l = p ++ x :: q ++ y :: r -> kind_of t (AKey (key x)) = k2 -> kind_of t (AKey (key y)) <> k1.
Proof.
  intros e s t gs accs fuel es xs l HG HO HD H g1 k1 o1 g2 k2 o2 g3 Hgs HN Hk. pose proof (flat_result e s t accs fuel es xs l HG HD H) as HR. rewrite HO in HR.
  apply (before_of_placed t gs k1 k2 (map single xs) l HR).
  - apply kind_specified. rewrite Hgs, has_app. cbn [has_group existsb fst]. rewrite kind_eqb_refl, orb_true_r. reflexivity.
  - apply kind_specified. rewrite Hgs, has_app. cbn [has_group existsb fst]. fold (has_group k2 (g2 ++ (k2, o2) :: g3)). rewrite has_app. cbn [has_group existsb fst].
    rewrite kind_eqb_refl. cbn [orb]. rewrite !orb_true_r. reflexivity.
  - apply (placed_split t gs _ k1 k2 g1 o1 g2 o2 g3); assumption.
Qed.
Lemma flat_unknown_keys_placed : forall (e : env S) s t gs accs fuel es xs l k0 o0 rest, governs e s t accs -> ts_keys_order t = Some (OGroups gs) -> NoDup (map key xs) ->
  get_sorted_accessors fuel e (DTable es) accs (map (fun x => ([AKey (key x)], x)) xs) (Some s) None = Done l ->
  gs = (k0, o0) :: rest -> o0 <> Schema -> ~ In GAdditionalKeys (map fst gs) ->
  (StronglySorted (fun x y => key_before o0 (key x) (key y)) (filter (fun x => kind_eqb (kind_of t (AKey (key x))) GAdditionalKeys) l)) /\
  forall k p x q y r, In k (map fst gs) -> l = p ++ x :: q ++ y :: r ->
    if match o0 with Descending => true | _ => false end
    then kind_of t (AKey (key x)) = GAdditionalKeys -> kind_of t (AKey (key y)) <> k
    else kind_of t (AKey (key x)) = k -> kind_of t (AKey (key y)) <> GAdditionalKeys.
Proof.
  intros e s t gs accs fuel es xs l k0 o0 rest HG HO HD H Hgs Ho Hk. pose proof (flat_result e s t accs fuel es xs l HG HD H) as HR. rewrite HO in HR.
  assert (HA : has_group GAdditionalKeys gs = false).
  { destruct (has_group GAdditionalKeys gs) eqn:E; [|reflexivity]. exfalso. apply Hk. unfold has_group in E. apply existsb_exists in E. destruct E as (g & Hg & E).
    apply kind_eqb_eq in E. rewrite <- E. apply in_map. exact Hg. }
  assert (HF : fallback_additional_order gs = Some o0) by (unfold fallback_additional_order; rewrite HA, Hgs; destruct o0; congruence).
  assert (Hfo : first_order GAdditionalKeys gs = None) by (pose proof (first_has GAdditionalKeys gs) as K; rewrite HA in K; destruct (first_order GAdditionalKeys gs); [discriminate|reflexivity]).
  assert (Hsp : in_sort_group gs GAdditionalKeys = true) by (simpl; rewrite HF; apply orb_true_r).
  pose proof (sort_groups_kind t gs (bucket_of t gs (map single xs)) GAdditionalKeys (bucket_kind t gs _)) as HK.
  pose proof (sort_groups_rest t gs (bucket_of t gs (map single xs)) GAdditionalKeys) as HRest. rewrite HA in HRest. rewrite Hfo in HK.
  assert (HP : exists G, none_of t GAdditionalKeys G /\ placed t gs (map single xs) =
     let E := sort_targets (bucket_of t gs (map single xs) GAdditionalKeys) o0 (Some t) in match o0 with Descending => G ++ E | _ => E ++ G end).
  { unfold placed. destruct (sort_groups t gs (bucket_of t gs (map single xs))) as [G b'] eqn:E. cbn [fst snd] in *. exists G. split; [apply none_filter; exact HK|].
    unfold place_additional. rewrite HF, HRest. destruct o0; reflexivity. }
  destruct HP as (G & HG' & HP). cbv zeta in HP. set (E := sort_targets (bucket_of t gs (map single xs) GAdditionalKeys) o0 (Some t)) in *.
  assert (HE : Forall (fun x => of_kind t GAdditionalKeys x = true) E) by (eapply Permutation_Forall; [symmetry; apply sort_targets_perm|apply bucket_kind]).
  split.
  - assert (HS : map single (filter (fun x => kind_eqb (kind_of t (AKey (key x))) GAdditionalKeys) l) = E).
    { rewrite <- (map_single_filter (fun a => kind_eqb (kind_of t a) GAdditionalKeys)), HR, groups_unfold.
      assert (HX : filter (of_kind t GAdditionalKeys) (placed t gs (map single xs)) = E).
      { assert (HGn : filter (of_kind t GAdditionalKeys) G = []) by (apply filter_none; exact HG').
        rewrite HP. destruct o0; rewrite filter_app, HGn, (filter_all _ _ HE), ?app_nil_r; reflexivity. }
      transitivity (filter (of_kind t GAdditionalKeys) (placed t gs (map single xs))); [|exact HX]. clear HX.
      rewrite <- (fill_slots_true (fun x => specified t gs (fst x)) (map single xs) (placed t gs (map single xs))) at 2.
      - change (fun y : accessor * list (@target T) => kind_eqb (kind_of t (fst y)) GAdditionalKeys) with (of_kind t GAdditionalKeys).
        generalize (fill_slots (map (fun x => specified t gs (fst x)) (map single xs)) (placed t gs (map single xs)) (filter (fun x => negb (specified t gs (fst x))) (map single xs))).
        intros q. induction q as [|y q IH]; [reflexivity|]. cbn [filter]. destruct (of_kind t GAdditionalKeys y) eqn:Ek.
        + assert (Hy : specified t gs (fst y) = true) by (unfold specified; unfold of_kind in Ek; apply kind_eqb_eq in Ek; rewrite Ek; exact Hsp).
          rewrite Hy. cbn [filter]. rewrite Ek, IH. reflexivity.
        + destruct (specified t gs (fst y)); cbn [filter]; rewrite ?Ek; exact IH.
      - apply Permutation_length. apply placed_perm.
      - eapply Permutation_Forall; [symmetry; apply placed_perm|]. apply Forall_forall. intros x Hx. apply filter_In in Hx. apply Hx. }
    assert (HS' : StronglySorted (fun x y => step_le o0 (fst x) (fst y) = true) E).
    { apply sort_targets_sorted; [exact Ho|]. apply forallb_forall. intros y Hy. apply filter_In in Hy. destruct Hy as [Hy _]. apply in_map_iff in Hy. destruct Hy as (x & <- & _). reflexivity. }
    rewrite <- HS in HS'. apply (sorted_single (fun a b => step_le o0 a b = true)) in HS'. revert HS'. apply strong_impl. intros x y Hxy.
    destruct o0; cbn [step_le key_before] in *; try exact I; unfold acc_le in Hxy; cbn [acc_cmp acc_version_le] in Hxy; apply le_of_true; exact Hxy.
  - intros k p x q y r Hin Hl.
    assert (Hkn : GAdditionalKeys <> k) by (intros <-; contradiction).
    assert (Hks : in_sort_group gs k = true).
    { apply kind_specified. unfold has_group. apply existsb_exists. apply in_map_iff in Hin. destruct Hin as (g & <- & Hg). exists g. split; [exact Hg|apply kind_eqb_refl]. }
    assert (HEn : none_of t k E) by (apply (kind_other t GAdditionalKeys); assumption).
    destruct o0; cbn beta iota; try contradiction.
    + apply (before_of_placed t gs GAdditionalKeys k (map single xs) l HR Hsp Hks) with (2 := Hl). exists E, G. split; [exact HP|]. split; assumption.
    + apply (before_of_placed t gs k GAdditionalKeys (map single xs) l HR Hks Hsp) with (2 := Hl). exists G, E. split; [exact HP|]. split; assumption.
    + apply (before_of_placed t gs GAdditionalKeys k (map single xs) l HR Hsp Hks) with (2 := Hl). exists E, G. split; [exact HP|]. split; assumption.
Qed.
(** The kinds of keys: properties of the schema, other keys matching one of its patterns, and the rest. *)
Definition belongs (t : table_schema S) (k : group_kind) (name : str) : bool :=
  let listed := existsb (fun a => match a with AKey p => str_eqb p name | AIndex _ => false end) (ts_accessors t) in
  match k with
  | GKeys => listed
  | GPatternKeys => negb listed && ts_pattern t name
  | GAdditionalKeys => negb listed && negb (ts_pattern t name)
  end.
Lemma belongs_kind t k name : belongs t k name = kind_eqb (kind_of t (AKey name)) k.
Proof.
  unfold belongs, kind_of.
  assert (HL : existsb (fun a => match a with AKey p => str_eqb p name | AIndex _ => false end) (ts_accessors t) = existsb (acc_eqb (AKey name)) (ts_accessors t)).
  { generalize (ts_accessors t). intros l. induction l as [|[p|i] l IH]; [reflexivity| |]; cbn [existsb]; rewrite IH; [|reflexivity]. f_equal.
    destruct (str_eqb p name) eqn:E.
    - apply str_eqb_eq in E. subst p. symmetry. apply acc_eqb_refl.
    - symmetry. apply acc_eqb_neq. intros EQ. injection EQ as ->. rewrite str_eqb_refl in E. discriminate. }
  rewrite HL. destruct (existsb (acc_eqb (AKey name)) (ts_accessors t)); [destruct k; reflexivity|]. destruct (ts_pattern t name); destruct k; reflexivity.
Qed.
Lemma belongs_iff t k name : belongs t k name = true <-> kind_of t (AKey name) = k.
Proof. rewrite belongs_kind. apply kind_eqb_eq. Qed.
Lemma mine_ext t k (l : list T) : filter (fun x => belongs t k (key x)) l = filter (fun x => kind_eqb (kind_of t (AKey (key x))) k) l.
Proof. apply filter_ext. intros x. apply belongs_kind. Qed.
(** Under a schema that sorts its keys in groups: a key in no group keeps its place.  Keys the schema does not know are also
    moved if the first group is not in schema order. *)
Definition ungrouped (t : table_schema S) (gs : list (group_kind * order)) (name : str) : Prop :=
  (forall k o, In (k, o) gs -> belongs t k name = false) /\ (belongs t GAdditionalKeys name = true -> forall k o rest, gs = (k, o) :: rest -> o = Schema).
Theorem C42_groups_others_stay : forall (e : env S) s t gs accs fuel es xs l, governs e s t accs -> ts_keys_order t = Some (OGroups gs) -> NoDup (map key xs) ->
  get_sorted_accessors fuel e (DTable es) accs (map (fun x => ([AKey (key x)], x)) xs) (Some s) None = Done l ->
  forall i x, nth_error xs i = Some x -> ungrouped t gs (key x) -> nth_error l i = Some x.
Proof.
  intros e s t gs accs fuel es xs l HG HO HD H i x HN [H1 H2]. apply (flat_groups_others_stay e s t gs accs fuel es xs l HG HO HD H i x HN).
  assert (HF : has_group (kind_of t (AKey (key x))) gs = false).
  { destruct (has_group (kind_of t (AKey (key x))) gs) eqn:E; [|reflexivity]. unfold has_group in E. apply existsb_exists in E. destruct E as ([k o] & Hg & E).
    apply kind_eqb_eq in E. cbn [fst] in E. specialize (H1 k o Hg). rewrite belongs_kind, E, kind_eqb_refl in H1. discriminate. }
  apply in_sort_group_none; [exact HF|]. intros HK. rewrite HK in HF. unfold fallback_additional_order. rewrite HF. destruct gs as [|[k o] rest]; [reflexivity|].
  rewrite (H2 (proj2 (belongs_iff t GAdditionalKeys (key x)) HK) k o rest eq_refl). reflexivity.
Qed.
(** The keys of a group are sorted in the group's order. *)
Theorem C42_groups_sorted : forall (e : env S) s t gs accs fuel es xs l, governs e s t accs -> ts_keys_order t = Some (OGroups gs) -> NoDup (map key xs) ->
  get_sorted_accessors fuel e (DTable es) accs (map (fun x => ([AKey (key x)], x)) xs) (Some s) None = Done l ->
  forall g1 k o g2, gs = g1 ++ (k, o) :: g2 -> ~ In k (map fst g1) ->
  let mine := filter (fun x => belongs t k (key x)) in
  Permutation (mine l) (mine xs) /\
  (o <> Schema -> StronglySorted (fun x y => key_before o (key x) (key y)) (mine l)) /\
  (o = Schema -> k = GKeys -> StronglySorted (fun x y => comes_before (ts_accessors t) (AKey (key x)) (AKey (key y))) (mine l)).
Proof.
  intros e s t gs accs fuel es xs l HG HO HD H g1 k o g2 Hgs Hk mine. unfold mine. rewrite !mine_ext.
  exact (flat_groups_sorted e s t gs accs fuel es xs l HG HO HD H g1 k o g2 Hgs Hk).
Qed.
(** The groups come in the sequence in which the schema lists them. *)
Theorem C42_groups_in_sequence : forall (e : env S) s t gs accs fuel es xs l, governs e s t accs -> ts_keys_order t = Some (OGroups gs) -> NoDup (map key xs) ->
  get_sorted_accessors fuel e (DTable es) accs (map (fun x => ([AKey (key x)], x)) xs) (Some s) None = Done l ->
  forall g1 k1 o1 g2 k2 o2 g3, gs = g1 ++ (k1, o1) :: g2 ++ (k2, o2) :: g3 -> k1 <> k2 -> ~ In k2 (map fst g1) ->
  forall p x q y r, l = p ++ x :: q ++ y :: r -> belongs t k2 (key x) = true -> belongs t k1 (key y) = false.
Proof.
  intros e s t gs accs fuel es xs l HG HO HD H g1 k1 o1 g2 k2 o2 g3 Hgs HN Hk p x q y r Hl Hx. apply belongs_iff in Hx.
  pose proof (flat_groups_in_sequence e s t gs accs fuel es xs l HG HO HD H g1 k1 o1 g2 k2 o2 g3 Hgs HN Hk p x q y r Hl Hx) as HY.
  destruct (belongs t k1 (key y)) eqn:E; [|reflexivity]. apply belongs_iff in E. contradiction.
Qed.
(** Keys the schema does not know, when the schema lists no group for them and its first group is not in schema order: they
    are sorted in the order of the first group, and put before every group, or after every group if that order is descending. *)
Theorem C42_unknown_keys_placed : forall (e : env S) s t gs accs fuel es xs l k0 o0 rest, governs e s t accs -> ts_keys_order t = Some (OGroups gs) -> NoDup (map key xs) ->
  get_sorted_accessors fuel e (DTable es) accs (map (fun x => ([AKey (key x)], x)) xs) (Some s) None = Done l ->
  gs = (k0, o0) :: rest -> o0 <> Schema -> ~ In GAdditionalKeys (map fst gs) ->
  (StronglySorted (fun x y => key_before o0 (key x) (key y)) (filter (fun x => belongs t GAdditionalKeys (key x)) l)) /\
  forall k p x q y r, In k (map fst gs) -> l = p ++ x :: q ++ y :: r ->
    if match o0 with Descending => true | _ => false end
    then belongs t GAdditionalKeys (key x) = true -> belongs t k (key y) = false
    else belongs t k (key x) = true -> belongs t GAdditionalKeys (key y) = false.
Proof.
  intros e s t gs accs fuel es xs l k0 o0 rest HG HO HD H Hgs Ho Hk.
  destruct (flat_unknown_keys_placed e s t gs accs fuel es xs l k0 o0 rest HG HO HD H Hgs Ho Hk) as [H1 H2]. split; [rewrite mine_ext; exact H1|].
  intros k p x q y r Hin Hl. specialize (H2 k p x q y r Hin Hl).
  assert (HB : forall ka kb, (kind_of t (AKey (key x)) = ka -> kind_of t (AKey (key y)) <> kb) -> belongs t ka (key x) = true -> belongs t kb (key y) = false).
  { intros ka kb HX HA. apply belongs_iff in HA. specialize (HX HA). destruct (belongs t kb (key y)) eqn:E; [|reflexivity]. apply belongs_iff in E. contradiction. }
  destruct o0; apply HB; exact H2.
Qed.
End Flat.
Print Assumptions C42_schema_order.
Print Assumptions C42_groups_others_stay.
Print Assumptions C42_groups_sorted.
Print Assumptions C42_groups_in_sequence.
Print Assumptions C42_unknown_keys_placed.
(** properties [name], [id]; keys starting with [x] match a pattern *)
Definition schema2 (order : xorder) : table_schema nat :=
  {| ts_accessors := [AKey (lit "name"); AKey (lit "id")]; ts_pattern := fun k => match k with 120 :: _ => true | _ => false end;
     ts_property := fun _ => None; ts_additional := None; ts_keys_order := Some order |}.
Definition env2 (order : xorder) : env nat := {| e_view := fun _ => VTable (schema2 order); e_valid := fun _ _ _ => true; e_enabled := fun _ => true;
  e_schema_override := fun _ _ => None; e_comment_override := fun _ => None |}.
Definition keys2 : list str := [lit "z"; lit "id"; lit "xb"; lit "name"; lit "a"; lit "xa"].
Definition sort2 (order : xorder) : sres (list str) := get_sorted_accessors 3 (env2 order) (DTable []) [] (map (fun k => ([AKey k], k)) keys2) (Some 0%nat) None.
Example C42_schema_example : governs (env2 (OAll Schema)) 0%nat (schema2 (OAll Schema)) [] /\ NoDup (map (fun k => k) keys2) /\
  sort2 (OAll Schema) = Done [lit "name"; lit "id"; lit "z"; lit "xb"; lit "a"; lit "xa"].
Proof.
  split; [repeat split|]. split; [|vm_compute; reflexivity]. vm_compute. repeat constructor; simpl; intuition discriminate.
Qed.
Example C42_groups_example :
  sort2 (OGroups [(GPatternKeys, Ascending); (GKeys, Schema); (GAdditionalKeys, Descending)]) = Done [lit "xa"; lit "xb"; lit "name"; lit "id"; lit "z"; lit "a"] /\
  sort2 (OGroups [(GKeys, Schema); (GPatternKeys, Ascending)]) = Done [lit "z"; lit "name"; lit "id"; lit "xa"; lit "a"; lit "xb"] /\
  sort2 (OGroups [(GKeys, Ascending)]) = Done [lit "a"; lit "z"; lit "xb"; lit "id"; lit "name"; lit "xa"].
Proof. repeat split; vm_compute; reflexivity. Qed.

(** ** A table inside a table *)
(** [k.x1 = .., k.x2 = ..] where the schema of [k] asks for its own order *)
Definition nested_in_order (ok : str -> Prop) : Prop := forall (S : Type) (e : env S) fuel es es' s t k s' t' (xs l : list str), ok k ->
  governs e s t [] -> ts_property t (AKey k) = Some s' -> governs e s' t' [AKey k] -> ts_keys_order t' = Some (OAll Schema) ->
  In (k, DTable es') es -> NoDup (map fst es) -> NoDup xs -> xs <> [] -> (forall x, In x xs -> In (AKey x) (ts_accessors t')) ->
  get_sorted_accessors fuel e (DTable es) [] (map (fun x => ([AKey k; AKey x], x)) xs) (Some s) None = Done l ->
  StronglySorted (fun x y => comes_before (ts_accessors t') (AKey x) (AKey y)) l.
Lemma group_nested (k : str) xs : xs <> [] -> @group_targets str (map (fun x => ([AKey k; AKey x], x)) xs) = ([], [(AKey k, map (fun x => ([AKey x], x)) xs)]).
Proof.
  intros HN. destruct xs as [|x xs]; [contradiction|]. unfold group_targets. cbn [map fold_left]. unfold push_target at 2. cbn [fst snd map_push].
  enough (HG : forall ys zs, fold_left push_target (map (fun x : str => ([AKey k; AKey x], x)) ys) ([], [(AKey k, zs)]) = ([], [(AKey k, zs ++ map (fun x : str => ([AKey x], x)) ys)])) by (apply (HG xs [([AKey x], x)])).
  induction ys as [|y ys IH]; intros zs; cbn [map fold_left]; [rewrite app_nil_r; reflexivity|]. unfold push_target at 2. cbn [fst snd map_push]. rewrite acc_eqb_refl.
  rewrite IH, <- app_assoc. reflexivity.
Qed.
(** True when the key of the inner table needs no quotes ... *)
Theorem C42_nested_partial : nested_in_order (fun k => to_key_string k = k).
Proof.
  intros S e fuel es es' s t k s' t' xs l Hk HG HP HG' HO HI HD HX HN Hin H. destruct fuel as [|fuel]; [discriminate|]. cbn [get_sorted_accessors] in H.
  destruct HG as (HV & HE & HC & HS). unfold combinator_of in H. rewrite HV in H. unfold sort_level in H. rewrite (group_nested k xs HN) in H. rewrite HV, HC, HS in H. cbv zeta in H.
  cbn [forallb fst is_key andb order_of_override option_or is_disabled orb get_table_keys_order] in H. rewrite HE, HV in H. cbn [orb] in H.
  match type of H with context [extend_all ?f ?s] => assert (HY : s = [(AKey k, map (fun x => ([AKey x], x)) xs)]) end.
  { assert (HZ : sort_table_targets [(AKey k, map (fun x : str => ([AKey x], x)) xs)] (Some t) (ts_keys_order t) = [(AKey k, map (fun x : str => ([AKey x], x)) xs)])
      by (apply Permutation_length_1_inv; symmetry; apply sort_table_targets_perm). destruct (ts_keys_order t) as [[?|?]|]; [exact HZ|exact HZ|reflexivity]. }
  rewrite HY in H. apply done_app in H. destruct H as (r & H & ->). cbn [app]. cbn [extend_all] in H.
  assert (HT : table_get (acc_to_string (AKey k)) es = Some (DTable es')).
  { cbn [acc_to_string]. rewrite Hk. clear -HI HD. induction es as [|[k1 v] es IH]; [contradiction|]. cbn [table_get]. cbn [map fst] in HD. inversion HD as [|? ? H1 H2]; subst.
    destruct HI as [HI|HI]; [injection HI as -> ->; rewrite str_eqb_refl; reflexivity|].
    destruct (str_eqb k k1) eqn:E; [|apply IH; assumption]. apply str_eqb_eq in E. subst k1. exfalso. apply H1. exact (in_map fst _ _ HI). }
  rewrite HT, HP in H. cbn [app] in H.
  match type of H with match ?m with _ => _ end = _ => destruct m as [| |r'] eqn:E; try discriminate end. rewrite app_nil_r in H. apply some_eq in H. subst r.
  assert (HD' : NoDup (map (fun x : str => x) xs)) by (rewrite map_id; exact HX).
  destruct (C42_schema_order (fun x : str => x) e s' t' [AKey k] fuel es' xs r' HG' HO HD' E) as (l1 & Hl & _ & Hsorted).
  rewrite filter_none, app_nil_r in Hl; [subst r'; exact Hsorted|]. apply Forall_forall. intros x Hx. apply negb_false_iff. apply existsb_exists. exists (AKey x).
  split; [apply Hin; exact Hx|apply acc_eqb_refl].
Qed.
Print Assumptions C42_nested_partial.
(** ... and false for [["a b"]], whose table is looked up under the name with the quotes, so its schema is not found. *)
Definition outer3 : table_schema nat :=
  {| ts_accessors := [AKey (lit "a b")]; ts_pattern := fun _ => false; ts_property := fun _ => Some 1%nat; ts_additional := None; ts_keys_order := None |}.
Definition inner3 : table_schema nat :=
  {| ts_accessors := [AKey (lit "y"); AKey (lit "x")]; ts_pattern := fun _ => false; ts_property := fun _ => None; ts_additional := None; ts_keys_order := Some (OAll Schema) |}.
Definition schema3 (n : nat) : schema_view nat := match n with 0%nat => VTable outer3 | _ => VTable inner3 end.
Definition env3 : env nat := {| e_view := schema3; e_valid := fun _ _ _ => true; e_enabled := fun _ => true;
  e_schema_override := fun _ _ => None; e_comment_override := fun _ => None |}.
Theorem C42_nested_quoted_refuted : ~ nested_in_order (fun _ => True).
Proof.
  intros H.
  assert (HS : StronglySorted (fun x y => comes_before [AKey (lit "y"); AKey (lit "x")] (AKey x) (AKey y)) [lit "x"; lit "y"]).
  { refine (H nat env3 5%nat [(lit "a b", DTable [(lit "x", DOther); (lit "y", DOther)])] [(lit "x", DOther); (lit "y", DOther)] 0%nat outer3 (lit "a b") 1%nat inner3 [lit "x"; lit "y"] [lit "x"; lit "y"] I _ _ _ _ _ _ _ _ _ _);
      [repeat split|reflexivity|repeat split|reflexivity|left; reflexivity| | |discriminate| |vm_compute; reflexivity].
    - repeat constructor; intros [].
    - repeat constructor; simpl; intuition discriminate.
    - intros x [<-|[<-|[]]]; simpl; auto. }
  inversion HS as [|? ? _ HF]; subst. inversion HF as [|? ? HB _]; subst. destruct HB as (p & r & E & HN).
  destruct p as [|a [|b p]]; cbn [app] in E; injection E; intros; subst; [discriminate|apply HN; left; reflexivity|destruct p; discriminate].
Qed.
Print Assumptions C42_nested_quoted_refuted.
(** the same document with the key [ab], which is sorted *)
Example C42_nested_example : to_key_string (lit "ab") = lit "ab" /\
  get_sorted_accessors 5 env3 (DTable [(lit "ab", DTable [(lit "x", DOther); (lit "y", DOther)])]) [] (map (fun x => ([AKey (lit "ab"); AKey x], x)) [lit "x"; lit "y"]) (Some 0%nat) None = Done [lit "y"; lit "x"].
Proof. split; vm_compute; reflexivity. Qed.
