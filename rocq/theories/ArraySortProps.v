(** Final theorems about the sorting of array values, and about the commas and comments of sorted arrays and inline tables (C17, C44). *)
From Coq Require Import String Ascii List NArith ZArith Bool Arith Lia Permutation Sorted.
From Verif Require Import Base VersionSortModel VersionSortProofs SortModel SortProofs ArraySortModel ArraySortProofs.
Import ListNotations.
Open Scope N_scope.
Open Scope list_scope.

(** * Specification *)

(** What a scalar is compared by: its value, and for dates and times the text. *)
Inductive scalar : aval -> skey -> Prop :=
| Sc_bool b : scalar (ABool b) (KBool b)
| Sc_int z : scalar (AInt z) (KInt z)
| Sc_string s : scalar (AString s) (KText s)
| Sc_odt s : scalar (AOffsetDateTime s) (KText s)
| Sc_ldt s : scalar (ALocalDateTime s) (KText s)
| Sc_ld s : scalar (ALocalDate s) (KText s)
| Sc_lt s : scalar (ALocalTime s) (KText s).
(** An inline table is compared by the value of the key its schema names. *)
Inductive sorts_by (by_key : aval -> option str) : aval -> skey -> Prop :=
| Sb_scalar v k : scalar v k -> sorts_by by_key v k
| Sb_field kvs f w k : by_key (AInline kvs) = Some f -> inline_get f kvs = Some w -> scalar w k -> sorts_by by_key (AInline kvs) k.
(** Text is compared character by character, a prefix first. *)
Inductive text_le : str -> str -> Prop :=
| Tl_prefix a b : text_le a (a ++ b)
| Tl_less p x y a b : x < y -> text_le (p ++ x :: a) (p ++ y :: b).
Inductive key_le : skey -> skey -> Prop :=
| Kl_bool a b : (a = true -> b = true) -> key_le (KBool a) (KBool b)
| Kl_int a b : (a <= b)%Z -> key_le (KInt a) (KInt b)
| Kl_text a b : text_le a b -> key_le (KText a) (KText b).
Definition values {V} (l : list (entry V)) : list V := map (fun x => i_value (fst x)) l.
(** Every value but the last is followed by a comma. *)
Definition separated {V} (l : list (entry V)) : Prop := Forall (fun x => snd x <> None) (removelast l).
Definition numbered {V} (l : list (entry V)) : Prop := NoDup (map (fun x => i_id (fst x)) l).

(** * Lemmas *)
Lemma text_le_iff a : forall b, le_of (str_cmp a b) = true <-> text_le a b.
Proof.
  intros b. split.
  - revert b. induction a as [|x a IH]; intros [|y b] H.
    + apply (Tl_prefix [] []).
    + apply (Tl_prefix [] (y :: b)).
    + discriminate.
    + cbn [str_cmp] in H. destruct (N.compare x y) eqn:E.
      * apply N.compare_eq in E. subst y. destruct (IH b H) as [a b'|p u v a b' Hl].
        -- apply (Tl_prefix (x :: a) b').
        -- apply (Tl_less (x :: p) u v a b' Hl).
      * apply (Tl_less [] x y a b E).
      * discriminate.
  - intros H. apply le_of_true. destruct H as [a b'|p u v a b' Hl].
    + induction a as [|x a IH]; [destruct b'; discriminate|]. cbn [app str_cmp]. rewrite N.compare_refl. exact IH.
    + induction p as [|x p IH].
      * cbn [app str_cmp]. apply N.compare_lt_iff in Hl. rewrite Hl. discriminate.
      * cbn [app str_cmp]. rewrite N.compare_refl. exact IH.
Qed.
Definition key_of_type (t : sortable_type) (k : skey) : Prop :=
  match t, k with SBoolean, KBool _ | SInteger, KInt _ => True | SBoolean, _ | SInteger, _ => False | _, KText _ => True | _, _ => False end.
Lemma direct_scalar t v k : direct_key t v = Some k -> scalar v k /\ key_of_type t k.
Proof. destruct t, v; simpl; try discriminate; injection 1 as <-; (split; [constructor|exact I]). Qed.
Lemma table_key_sound t f all : forall l k, table_key t f all l = Some k -> exists w, inline_get f all = Some w /\ scalar w k /\ key_of_type t k.
Proof.
  induction l as [|[[|k' [|? ?]] v] l IH]; intros k H; try discriminate. cbn [table_key] in H. destruct (str_eqb k' f) eqn:E; [|apply IH; exact H].
  apply str_eqb_eq in E. subst k'. destruct (inline_get f all) as [w|] eqn:Ew; [|apply IH; exact H].
  destruct (direct_key t w) as [x|] eqn:Ed; [|apply IH; exact H]. injection H as <-. exists w. destruct (direct_scalar t w x Ed). auto.
Qed.
Lemma sort_key_sound by_key t v k : sort_key by_key t v = Some k -> sorts_by by_key v k /\ key_of_type t k.
Proof.
  unfold sort_key. destruct v; try (intros H; destruct (direct_scalar _ _ _ H); split; [apply Sb_scalar; assumption|assumption]).
  destruct (by_key (AInline kvs)) as [f|] eqn:E; [|discriminate]. intros H. destruct (table_key_sound _ _ _ _ _ H) as (w & H1 & H2 & H3).
  split; [eapply Sb_field; eassumption|exact H3].
Qed.
Lemma keyed_sound by_key t : forall l r, keyed by_key t l = Some r ->
  Forall2 filled l (map entry_of r) /\ Forall (fun y => sort_key by_key t (i_value (snd (fst y))) = Some (fst (fst y))) r.
Proof.
  induction l as [|[i c] l IH]; intros r H; cbn [keyed] in H; [injection H as <-; split; constructor|].
  destruct (sort_key by_key t (i_value i)) as [k|] eqn:Ek; [|discriminate]. destruct (keyed by_key t l) as [r'|]; [|discriminate].
  injection H as <-. destruct (IH r' eq_refl) as [H1 H2]. split; constructor; try assumption.
  split; [reflexivity|]. cbn. destruct c; [left; reflexivity|right; split; reflexivity].
Qed.
Lemma sortable_sound by_key l t r : sortable_values by_key l = Some (t, r) -> keyed by_key t l = Some r /\
  Forall (fun x => sortable_type_of by_key (i_value (fst x)) = Some t) l.
Proof.
  unfold sortable_values. destruct l as [|[i c] l]; [discriminate|]. destruct (sortable_type_of by_key (i_value i)) as [t'|] eqn:Et; [|discriminate].
  match goal with |- context [forallb ?f l] => destruct (forallb f l) eqn:Ef end; [|discriminate]. intros H. match type of H with match ?k with _ => _ end = _ => destruct k as [r'|] eqn:Ek end; [|discriminate H].
  injection H as <- <-. split; [exact Ek|]. constructor; [exact Et|]. rewrite forallb_forall in Ef. apply Forall_forall. intros x Hx. specialize (Ef x Hx).
  destruct (sortable_type_of by_key (i_value (fst x))) as [t2|]; [|discriminate]. f_equal. destruct t2, t'; simpl in Ef; congruence.
Qed.
Definition key_in (x : skey * item aval * comma) : skey := fst (fst x).
Definition order_of (o : aorder) (sv : sortable_type * list (skey * item aval * comma)) : list (skey * item aval * comma) :=
  match o with
  | AAscending => stable_sort (fun x y => skey_le (key_in x) (key_in y)) (snd sv)
  | ADescending => rev (stable_sort (fun x y => skey_le (key_in x) (key_in y)) (snd sv))
  | AVersionSort => stable_sort (fun x y => skey_version_le (fst sv) (key_in x) (key_in y)) (snd sv)
  end.
Lemma sort_array_order sv o : sort_array_values sv o = map entry_of (order_of o sv).
Proof. destruct o; reflexivity. Qed.
Lemma order_of_perm o sv : Permutation (snd sv) (order_of o sv).
Proof. destruct o; simpl; [|rewrite <- Permutation_rev|]; symmetry; apply sort_perm. Qed.
Lemma sort_values_reorders by_key l sv o : sortable_values by_key l = Some sv -> reorders l (sort_array_values sv o).
Proof.
  destruct sv as [t r]. intros H. apply sortable_sound in H. destruct H as [H _]. destruct (keyed_sound _ _ _ _ H) as [H1 _].
  exists (map entry_of r). split; [exact H1|]. rewrite sort_array_order. apply Permutation_map. exact (order_of_perm o (t, r)).
Qed.
Lemma sorted_all_reorders by_key l o s : sorted_all by_key l o = Some s -> reorders l s.
Proof.
  unfold sorted_all. destruct (sortable_values by_key l) as [sv|] eqn:E; [|discriminate]. intros H. injection H as <-. eapply sort_values_reorders. exact E.
Qed.
Lemma filled_refl {V} (x : entry V) : filled x x. Proof. split; [reflexivity|left; reflexivity]. Qed.
Lemma filled_list_refl {V} : forall l : list (entry V), Forall2 filled l l.
Proof. induction l; constructor; [apply filled_refl|assumption]. Qed.
Lemma reorders_perm {V} (l l' s : list (entry V)) : Permutation l l' -> reorders l' s -> reorders l s.
Proof.
  intros HP (m & HF & HM). apply Permutation_sym in HP. destruct (Permutation_Forall2 HP HF) as (m' & HP' & HF'). exists m'. split; [exact HF'|].
  transitivity m; [symmetry; exact HP'|exact HM].
Qed.
Lemma reorders_app {V} (a b sa sb : list (entry V)) : reorders a sa -> reorders b sb -> reorders (a ++ b) (sa ++ sb).
Proof. intros (m & F & P) (m' & F' & P'). exists (m ++ m'). split; [apply Forall2_app; assumption|apply Permutation_app; assumption]. Qed.
Lemma reorders_refl {V} (l : list (entry V)) : reorders l l.
Proof. exists l. split; [apply filled_list_refl|reflexivity]. Qed.
Lemma sorted_groups_reorders : forall groups l, reorders l (sorted_groups groups l).
Proof.
  induction groups as [|[[o valid] by_key] groups IH]; intros l; [apply reorders_refl|]. cbn [sorted_groups]. cbv zeta.
  eapply reorders_perm; [symmetry; apply (filter_split (fun x => valid (i_value (fst x))) l)|]. apply reorders_app; [|apply IH].
  destruct (filter (fun x => valid (i_value (fst x))) l) as [|x m] eqn:E; [apply reorders_refl|].
  destruct (sortable_values by_key (x :: m)) as [sv|] eqn:Es; [|apply reorders_refl]. eapply sort_values_reorders. exact Es.
Qed.

Lemma skey_total a b : skey_le a b = true \/ skey_le b a = true.
Proof.
  destruct a as [a|a|a], b as [b|b|b]; simpl; auto.
  - destruct a, b; auto.
  - rewrite !Z.leb_le. lia.
  - exact (step_total Ascending (AKey a) (AKey b)).
Qed.
Lemma skey_trans t a b c : key_of_type t a -> key_of_type t b -> key_of_type t c -> skey_le a b = true -> skey_le b c = true -> skey_le a c = true.
Proof.
  destruct a as [a|a|a], b as [b|b|b], c as [c|c|c]; try (destruct t; simpl; tauto); intros _ _ _; simpl.
  - destruct a, b, c; simpl; congruence.
  - rewrite !Z.leb_le. lia.
  - exact (step_trans Ascending (AKey a) (AKey b) (AKey c) eq_refl eq_refl eq_refl).
Qed.
Lemma skey_le_iff t a b : key_of_type t a -> key_of_type t b -> (skey_le a b = true <-> key_le a b).
Proof.
  destruct a as [a|a|a], b as [b|b|b]; try (destruct t; simpl; tauto); intros _ _; simpl.
  - split; [intros H; constructor; destruct a, b; simpl in *; congruence|inversion 1; subst; destruct a, b; simpl; auto].
  - rewrite Z.leb_le. split; [intros H; constructor; exact H|inversion 1; assumption].
  - rewrite text_le_iff. split; [intros H; constructor; exact H|inversion 1; assumption].
Qed.
Lemma version_total t a b : skey_version_le t a b = true \/ skey_version_le t b a = true.
Proof.
  destruct t; try apply skey_total. destruct a as [a|a|a], b as [b|b|b]; try apply skey_total. exact (step_total VersionSort (AKey a) (AKey b)).
Qed.
Lemma version_trans t a b c : key_of_type t a -> key_of_type t b -> key_of_type t c ->
  skey_version_le t a b = true -> skey_version_le t b c = true -> skey_version_le t a c = true.
Proof.
  destruct t; try (apply skey_trans). destruct a as [a|a|a], b as [b|b|b], c as [c|c|c]; simpl; try tauto.
  intros _ _ _. exact (step_trans VersionSort (AKey a) (AKey b) (AKey c) eq_refl eq_refl eq_refl).
Qed.
Lemma strong_map {A B} (f : A -> B) (R : B -> B -> Prop) l : StronglySorted (fun x y => R (f x) (f y)) l -> StronglySorted R (map f l).
Proof.
  induction 1 as [|x l _ IH HF]; constructor; [exact IH|]. apply Forall_forall. intros y Hy. apply in_map_iff in Hy. destruct Hy as (z & <- & Hz).
  rewrite Forall_forall in HF. apply HF. exact Hz.
Qed.
Lemma strong_weaken {A} (P : A -> Prop) (R R' : A -> A -> Prop) l : (forall x y, P x -> P y -> R x y -> R' x y) -> Forall P l -> StronglySorted R l -> StronglySorted R' l.
Proof.
  intros H HP HS. induction HS as [|x l _ IH HF]; constructor; inversion HP as [|? ? Px Pl]; subst; [apply IH; exact Pl|].
  rewrite Forall_forall in *. intros y Hy. apply H; auto.
Qed.
Lemma strong_rev {A} (R : A -> A -> Prop) l : StronglySorted R l -> StronglySorted (fun x y => R y x) (rev l).
Proof.
  induction 1 as [|x l HS IH HF]; [constructor|]. cbn [rev].
  assert (HG : forall m, StronglySorted (fun a b => R b a) m -> Forall (R x) m -> StronglySorted (fun a b => R b a) (m ++ [x])).
  { induction 1 as [|y m _ IHm Hy]; intros Hm; [repeat constructor|]. inversion Hm; subst. constructor; [apply IHm; assumption|].
    apply Forall_app. split; [exact Hy|]. constructor; [assumption|constructor]. }
  apply HG; [exact IH|]. apply Forall_rev. exact HF.
Qed.

(** * C17: sorting array values *)

(** Whatever the order, the values of the array are those it had before, each exactly once. *)
Theorem C17_values_kept : forall by_key o l, numbered l ->
  Permutation (values l) (values (array_edited (is_last_comma l) by_key o l)).
Proof.
  intros by_key o l HD. unfold array_edited.
  assert (HU : values (with_comma None (edit_group (is_last_comma l) l None)) = values l).
  { pose proof (unsorted_content (is_last_comma l) l HD) as H. apply (f_equal (map fst)) in H. rewrite !map_map in H. exact H. }
  destruct l as [|x l]; [reflexivity|]. destruct (sorted_all by_key (x :: l) o) as [s|] eqn:E; [|rewrite HU; reflexivity].
  pose proof (sorted_all_reorders _ _ _ _ E) as HR. unfold values. rewrite order_values; [|exact HD|exact HR|discriminate]. apply reorders_values. exact HR.
Qed.
Print Assumptions C17_values_kept.

(** The same when the schema sorts the values in groups. *)
Theorem C17_groups_values_kept : forall groups l, numbered l -> l <> [] ->
  Permutation (values l) (values (with_comma None (edit_group (is_last_comma l) l (Some (sorted_groups groups l))))).
Proof.
  intros groups l HD HN. pose proof (sorted_groups_reorders groups l) as HR. unfold values. rewrite order_values by assumption. apply reorders_values. exact HR.
Qed.
Print Assumptions C17_groups_values_kept.

(** The values read back are in the order asked for. *)
Definition in_order (o : aorder) (by_key : aval -> option str) (vs : list aval) : Prop :=
  exists ks, Forall2 (sorts_by by_key) vs ks /\
    match o with
    | AAscending => StronglySorted key_le ks
    | ADescending => StronglySorted (fun a b => key_le b a) ks
    | AVersionSort =>
        StronglySorted key_le ks \/
        exists texts, ks = map KText texts /\ StronglySorted (fun a b => version_sort a b <> Gt) texts
    end.
Lemma order_of_sorted by_key o t r : Forall (fun y => sort_key by_key t (i_value (snd (fst y))) = Some (fst (fst y))) r ->
  in_order o by_key (values (map entry_of (order_of o (t, r)))).
Proof.
  intros HK.
  assert (HT : Forall (fun y => key_of_type t (key_in y)) r).
  { revert HK. apply Forall_impl. intros y Hy. apply (sort_key_sound _ _ _ _ Hy). }
  assert (HP := order_of_perm o (t, r)). cbn [snd] in HP.
  assert (HT' := Permutation_Forall HP HT). assert (HK' := Permutation_Forall HP HK).
  exists (map key_in (order_of o (t, r))). split.
  - unfold values. rewrite map_map. revert HK'. generalize (order_of o (t, r)). induction 1 as [|y l Hy _ IH]; constructor; [|exact IH].
    apply (sort_key_sound _ _ _ _ Hy).
  - assert (HAsc : StronglySorted (fun x y => skey_le (key_in x) (key_in y) = true) (stable_sort (fun x y => skey_le (key_in x) (key_in y)) r)).
    { apply (sort_sorted_on (fun y => key_of_type t (key_in y))); [intros; apply skey_total|intros a b c; apply skey_trans|exact HT]. }
    destruct o; cbn [order_of fst snd] in HT' |- *.
    + apply strong_map. revert HAsc. apply (strong_weaken (fun y => key_of_type t (key_in y))); [|exact HT']. intros x y Hx Hy. apply (skey_le_iff t); assumption.
    + apply strong_map. apply strong_rev in HAsc. revert HAsc. apply (strong_weaken (fun y => key_of_type t (key_in y))); [|exact HT'].
      intros x y Hx Hy. apply (skey_le_iff t); assumption.
    + assert (HV : StronglySorted (fun x y => skey_version_le t (key_in x) (key_in y) = true) (stable_sort (fun x y => skey_version_le t (key_in x) (key_in y)) r)).
      { apply (sort_sorted_on (fun y => key_of_type t (key_in y))); [intros; apply version_total|intros a b c; apply version_trans|exact HT]. }
      assert (HD : t = SString \/ forall a b, skey_version_le t a b = skey_le a b) by (destruct t; auto). destruct HD as [->|HD].
      * right. exists (map (fun y => match key_in y with KText s => s | _ => [] end) (stable_sort (fun x y => skey_version_le SString (key_in x) (key_in y)) r)).
        split.
        -- rewrite map_map. apply map_ext_in. intros y Hy. rewrite Forall_forall in HT'. specialize (HT' y Hy). destruct (key_in y); simpl in HT'; tauto || reflexivity.
        -- apply strong_map. revert HV. apply (strong_weaken (fun y => key_of_type SString (key_in y))); [|exact HT'].
           intros x y Hx Hy. destruct (key_in x), (key_in y); simpl in *; try tauto. apply le_of_true.
      * left. apply strong_map. revert HV. apply (strong_weaken (fun y => key_of_type t (key_in y))); [|exact HT'].
        intros x y Hx Hy. rewrite HD. apply (skey_le_iff t); assumption.
Qed.
Theorem C17_in_order : forall by_key o l s, numbered l -> sorted_all by_key l o = Some s ->
  in_order o by_key (values (array_edited (is_last_comma l) by_key o l)).
Proof.
  intros by_key o l s HD HS. unfold array_edited. assert (HE : l <> []) by (intros ->; discriminate).
  replace (match l with [] => None | _ => sorted_all by_key l o end) with (Some s) by (destruct l; [congruence|symmetry; exact HS]).
  pose proof (sorted_all_reorders _ _ _ _ HS) as HR. unfold values. rewrite order_values; [|exact HD|exact HR|exact HE].
  unfold sorted_all in HS. destruct (sortable_values by_key l) as [[t r]|] eqn:E; [|discriminate]. injection HS as <-.
  apply sortable_sound in E. destruct E as [E _]. apply keyed_sound in E. destruct E as [_ E]. rewrite sort_array_order. apply order_of_sorted. exact E.
Qed.
Print Assumptions C17_in_order.

(** When the values are sorted: an array of scalars of one kind is, one with a float, an array, or values of two kinds is not. *)
Definition kind_of_value (v : aval) : option sortable_type :=
  match v with
  | ABool _ => Some SBoolean | AInt _ => Some SInteger | AString _ => Some SString | AOffsetDateTime _ => Some SOffsetDateTime
  | ALocalDateTime _ => Some SLocalDateTime | ALocalDate _ => Some SLocalDate | ALocalTime _ => Some SLocalTime
  | AInline _ | AUnsortable => None
  end.
Lemma kind_key by_key t v : kind_of_value v = Some t -> exists k, sort_key by_key t v = Some k.
Proof. destruct v; simpl; try discriminate; injection 1 as <-; eexists; reflexivity. Qed.
Theorem C17_scalars_are_sorted : forall by_key o l t, l <> [] -> (forall v, In v (values l) -> kind_of_value v = Some t) ->
  exists s, sorted_all by_key l o = Some s.
Proof.
  intros by_key o l t HN HK.
  assert (HT : forall x, In x l -> sortable_type_of by_key (i_value (fst x)) = Some t).
  { intros x Hx. specialize (HK (i_value (fst x)) (in_map (fun x => i_value (fst x)) _ _ Hx)). destruct (i_value (fst x)); simpl in *; congruence. }
  assert (HE : exists r, keyed by_key t l = Some r).
  { clear HN HT. induction l as [|[i c] l IH]; [exists []; reflexivity|]. destruct IH as [r Hr]; [intros v Hv; apply HK; right; exact Hv|].
    destruct (kind_key by_key t (i_value i) (HK _ (or_introl eq_refl))) as [k Ek]. cbn [keyed]. rewrite Ek, Hr. eexists. reflexivity. }
  destruct HE as [r Hr]. unfold sorted_all, sortable_values. destruct l as [|[i c] l]; [congruence|].
  rewrite (HT (i, c) (or_introl eq_refl) : sortable_type_of by_key (i_value i) = Some t).
  match goal with |- context [forallb ?f l] => replace (forallb f l) with true end; [rewrite Hr; eexists; reflexivity|]. symmetry. apply forallb_forall. intros x Hx. rewrite (HT x (or_intror Hx)). destruct t; reflexivity.
Qed.
Print Assumptions C17_scalars_are_sorted.
Theorem C17_mixed_left_alone : forall by_key o l v, In v (values l) ->
  (v = AUnsortable \/ exists w t t', In w (values l) /\ kind_of_value v = Some t /\ kind_of_value w = Some t' /\ t <> t') ->
  sorted_all by_key l o = None.
Proof.
  intros by_key o l v Hv H. unfold sorted_all. destruct (sortable_values by_key l) as [[t r]|] eqn:E; [|reflexivity]. exfalso.
  apply sortable_sound in E. destruct E as [_ E]. rewrite Forall_forall in E.
  assert (HT : forall u, In u (values l) -> sortable_type_of by_key u = Some t).
  { intros u Hu. apply in_map_iff in Hu. destruct Hu as (x & <- & Hx). apply E. exact Hx. }
  destruct H as [->|(w & a & b & Hw & Ka & Kb & Hab)]; [specialize (HT _ Hv); discriminate|].
  assert (HA := HT v Hv). assert (HB := HT w Hw). apply Hab. destruct v; simpl in Ka, HA; try discriminate; destruct w; simpl in Kb, HB; congruence.
Qed.
Print Assumptions C17_mixed_left_alone.

(** Ascending and version order leave values that compare equal in the order they had. *)
Theorem C17_stable_partial : forall by_key o l s (p : skey -> bool), o <> ADescending -> sorted_all by_key l o = Some s ->
  (forall a b, p a = true -> p b = true -> a = b) ->
  forall t, Forall (fun x => sortable_type_of by_key (i_value (fst x)) = Some t) l ->
  let pick := filter (fun x : entry aval => match sort_key by_key t (i_value (fst x)) with Some k => p k | None => false end) in
  map fst (pick s) = map fst (pick l).
Proof.
  intros by_key o l s p Ho HS Hp t HT pick. unfold sorted_all in HS. destruct (sortable_values by_key l) as [[t' r]|] eqn:E; [|discriminate]. injection HS as <-.
  destruct (sortable_sound _ _ _ _ E) as [E1 E2]. assert (t' = t).
  { destruct l as [|x l]; [discriminate|]. inversion HT; inversion E2; subst. congruence. }
  subst t'. destruct (keyed_sound _ _ _ _ E1) as [HF HK]. rewrite sort_array_order.
  assert (HPk : forall q, Forall (fun y => sort_key by_key t (i_value (snd (fst y))) = Some (fst (fst y))) q ->
    map fst (pick (map entry_of q)) = map fst (map entry_of (filter (fun y => p (key_in y)) q))).
  { induction 1 as [|y q Hy _ IH]; [reflexivity|]. unfold pick in *. cbn [map filter]. unfold entry_of at 1. cbn [fst]. rewrite Hy. change (p (key_in y)) with (p (fst (fst y))).
    destruct (p (fst (fst y))); cbn [map]; [f_equal|]; exact IH. }
  rewrite HPk by (apply (Permutation_Forall (order_of_perm o (t, r))); exact HK).
  assert (Hrefl : forall a, skey_le a a = true) by (intros a; destruct (skey_total a a); assumption).
  assert (Hrefl' : forall a, skey_version_le t a a = true) by (intros a; destruct (version_total t a a); assumption).
  assert (HSt : filter (fun y => p (key_in y)) (order_of o (t, r)) = filter (fun y => p (key_in y)) r).
  { destruct o; [|congruence|]; apply sort_stable; intros x y Hx Hy; rewrite (Hp _ _ Hx Hy); auto. }
  rewrite HSt, <- HPk by exact HK. clear -HF. unfold pick. induction HF as [|x y a b [E _] _ IH]; [reflexivity|]. cbn [map filter]. rewrite <- E.
  destruct (match sort_key by_key t (i_value (fst x)) with Some k => p k | None => false end); cbn [map]; [f_equal; [symmetry; exact E|]|]; exact IH.
Qed.
Print Assumptions C17_stable_partial.

(** Sorting a sorted array changes nothing, in ascending and version order. *)
Lemma sort_id {A} (le : A -> A -> bool) l : StronglySorted (fun a b => le a b = true) l -> stable_sort le l = l.
Proof.
  induction 1 as [|x l _ IH HF]; [reflexivity|]. change (stable_sort le (x :: l)) with (insert_sorted le x (stable_sort le l)). rewrite IH. destruct l as [|y l]; [reflexivity|]. cbn [insert_sorted].
  inversion HF as [|? ? Hy _]; subst. rewrite Hy. reflexivity.
Qed.
Lemma keyed_again by_key t : forall r, Forall (fun y => sort_key by_key t (i_value (snd (fst y))) = Some (fst (fst y))) r ->
  keyed by_key t (map entry_of r) = Some r.
Proof.
  induction 1 as [|[[k i] c] r Hy _ IH]; [reflexivity|]. cbn in Hy. cbn [map entry_of fst snd keyed]. rewrite Hy, IH. reflexivity.
Qed.
Theorem C17_idempotent_partial : forall by_key o l s, o <> ADescending -> sorted_all by_key l o = Some s -> sorted_all by_key s o = Some s.
Proof.
  intros by_key o l s Ho HS. unfold sorted_all in HS. destruct (sortable_values by_key l) as [[t r]|] eqn:E; [|discriminate]. injection HS as <-.
  assert (HNr : r <> []).
  { intros ->. destruct (sortable_sound _ _ _ _ E) as [E1 _]. apply keyed_sound in E1. destruct E1 as [E1 _]. inversion E1. subst. discriminate. }
  destruct (sortable_sound _ _ _ _ E) as [E1 E2]. destruct (keyed_sound _ _ _ _ E1) as [HF HK]. rewrite sort_array_order.
  assert (HP := order_of_perm o (t, r)). cbn [snd] in HP. set (r' := order_of o (t, r)) in *.
  assert (HK' := Permutation_Forall HP HK). assert (HKe := keyed_again _ _ _ HK').
  assert (HT : Forall (fun x => sortable_type_of by_key (i_value (fst x)) = Some t) (map entry_of r')).
  { refine (Permutation_Forall (Permutation_map entry_of HP) _). clear -HF E2.
    induction HF as [|x y a b [He _] _ IH]; constructor; inversion E2; subst; [rewrite <- He; assumption|apply IH; assumption]. }
  assert (HSv : sortable_values by_key (map entry_of r') = Some (t, r')).
  { unfold sortable_values. destruct (map entry_of r') as [|[i c] q] eqn:Er.
    - exfalso. apply HNr. destruct r'; [|discriminate]. apply Permutation_sym, Permutation_nil in HP. exact HP.
    - inversion HT as [|? ? H1 H2]; subst. cbn [fst] in H1. rewrite H1.
      match goal with |- context [forallb ?f q] => replace (forallb f q) with true end.
      + rewrite HKe. reflexivity.
      + symmetry. apply forallb_forall. intros x Hx. rewrite Forall_forall in H2. rewrite (H2 x Hx). destruct t; reflexivity. }
  unfold sorted_all. rewrite HSv, sort_array_order. do 2 f_equal.
  assert (HTr : Forall (fun y => key_of_type t (key_in y)) r) by (revert HK; apply Forall_impl; intros y Hy; apply (sort_key_sound _ _ _ _ Hy)).
  assert (HId : forall le, (forall a b : skey, le a b = true \/ le b a = true) ->
      (forall a b c, key_of_type t a -> key_of_type t b -> key_of_type t c -> le a b = true -> le b c = true -> le a c = true) ->
      stable_sort (fun x y => le (key_in x) (key_in y)) (stable_sort (fun x y => le (key_in x) (key_in y)) r) = stable_sort (fun x y => le (key_in x) (key_in y)) r).
  { intros le H1 H2. apply sort_id. apply (sort_sorted_on (fun y => key_of_type t (key_in y))); [intros; apply H1|intros a b c; apply H2|exact HTr]. }
  destruct o; [|congruence|]; unfold r'; cbn [order_of fst snd].
  - apply HId; [apply skey_total|intros a b c; apply skey_trans].
  - apply HId; [apply version_total|intros a b c; apply version_trans].
Qed.
Print Assumptions C17_idempotent_partial.

(** In descending order neither holds: the code reverses the ascending order, so equal values are swapped every time. *)
Definition by_n (v : aval) : option str := Some (lit "n").
Definition table_of (n x : Z) : aval := AInline [([lit "n"], AInt n); ([lit "x"], AInt x)].
Definition at_ (k : nat) (v : aval) (c : option comma) : entry aval := ({| i_id := k; i_value := v; i_leading := []; i_trailing := None |}, c).
Definition plain (k : nat) : option comma := Some {| c_id := Some k; c_leading := []; c_trailing := None |}.
Theorem C17_descending_stable_refuted :
  exists l once twice, numbered l /\ values (array_edited (is_last_comma l) by_n ADescending l) = once /\
    values (array_edited true by_n ADescending (array_edited true by_n ADescending l)) = twice /\
    values l = [table_of 1 1; table_of 1 2] /\ once = [table_of 1 2; table_of 1 1] /\ twice = [table_of 1 1; table_of 1 2].
Proof.
  exists [at_ 0 (table_of 1 1) (plain 0); at_ 1 (table_of 1 2) (plain 1)], [table_of 1 2; table_of 1 1], [table_of 1 1; table_of 1 2].
  split; [repeat constructor; simpl; intuition congruence|]. vm_compute. repeat split; reflexivity.
Qed.
Print Assumptions C17_descending_stable_refuted.

(** Offset date-times are put in the order of their text, not of the instants they name. *)
Definition two (n : N) : str := [48 + n / 10; 48 + n mod 10].
(** [hour]:00 on one day, at an offset of [off] hours: the instant is [hour - off] o'clock UTC. *)
Definition at_offset (hour off : N) : str := lit "2024-01-02T" ++ two hour ++ lit ":00:00+" ++ two off ++ lit ":00".
Theorem C17_instants_refuted : exists h off h' off' s,
  sorted_all (fun _ => None) [at_ 0 (AOffsetDateTime (at_offset h off)) (plain 0); at_ 1 (AOffsetDateTime (at_offset h' off')) (plain 1)] AAscending = Some s /\
  (Z.of_N h - Z.of_N off < Z.of_N h' - Z.of_N off')%Z /\
  values s = [AOffsetDateTime (at_offset h' off'); AOffsetDateTime (at_offset h off)].
Proof. exists 10, 9, 2, 0. eexists. split; [vm_compute; reflexivity|]. split; [vm_compute; reflexivity|reflexivity]. Qed.
Print Assumptions C17_instants_refuted.

(** After sorting there is a comma between any two values, and the last has one if the last had one before. *)
Theorem C17_commas : forall (V : Type) (l sorted : list (entry V)), numbered l -> reorders l sorted -> l <> [] ->
  let r := with_comma None (edit_group (is_last_comma l) l (Some sorted)) in
  separated r /\ (is_last_comma l = true -> forall x, In x r -> snd x <> None).
Proof.
  intros V l sorted HD HR HN r. destruct (order_commas l sorted HD HR HN) as [H1 H2]. split; [exact H1|]. intros El x Hx.
  specialize (H2 El). rewrite Forall_forall in H2. apply H2. exact Hx.
Qed.
Print Assumptions C17_commas.

Example C17_example : let l := [at_ 0 (AInt 3) (plain 0); at_ 1 (AInt (-7)) (plain 1); at_ 2 (AInt 2) None] in
  numbered l /\ separated l /\ values (array_edited false (fun _ => None) AAscending l) = [AInt (-7); AInt 2; AInt 3] /\
  map snd (array_edited false (fun _ => None) AAscending l) = [plain 1; Some make_comma; None] /\
  array_edited false by_n AAscending (l ++ [at_ 3 AUnsortable None]) <> [] /\
  values (array_edited true by_n AVersionSort [at_ 0 (AString (lit "v10")) (plain 0); at_ 1 (AString (lit "v9")) (plain 1)]) = [AString (lit "v9"); AString (lit "v10")].
Proof. cbv zeta. split; [repeat constructor; simpl; intuition congruence|]. split; [repeat constructor; discriminate|]. vm_compute. repeat split; discriminate || reflexivity. Qed.

(** * C44: sorting keeps every comment with its value *)

(** [content x] is the value and all its comments in order: those before it, its trailing comment, and those of its comma.
    Moving the comments to the commas, without a new order, loses nothing. *)
Theorem C44_unsorted_comments_kept : forall (V : Type) append_last (l : list (entry V)), numbered l ->
  map content (with_comma None (edit_group append_last l None)) = map content l.
Proof. intros V al l HD. apply unsorted_content. exact HD. Qed.
Print Assumptions C44_unsorted_comments_kept.

(** With a new order every value keeps its comments, unless the value which becomes the last had a comment before a plain comma and
    the list has no trailing comma. *)
Theorem C44_comments_kept_partial : forall (V : Type) (l sorted : list (entry V)), numbered l -> separated l -> l <> [] -> reorders l sorted ->
  ~ (is_last_comma l = false /\ exists r i c c' t, sorted = r ++ [(i, c')] /\ In (i, Some c) l /\ has_comments c = false /\ i_trailing i = Some t) ->
  map content (with_comma None (edit_group (is_last_comma l) l (Some sorted))) = map content sorted /\
  Permutation (map content l) (map content (with_comma None (edit_group (is_last_comma l) l (Some sorted)))).
Proof.
  intros V l sorted HD HS HN HR HL. pose proof (order_content l sorted HD HR HN HS HL) as H. split; [exact H|]. rewrite H. apply reorders_content. exact HR.
Qed.
Print Assumptions C44_comments_kept_partial.

(** In that case the comment is deleted: [a = [5 # c⏎, 4]], sorted in ascending order, becomes [a = [4, 5]]. *)
Theorem C44_comment_lost_refuted :
  exists l : list (entry aval), numbered l /\ separated l /\ In (lit "# c") (flat_map comments l) /\
    flat_map comments (array_edited (is_last_comma l) (fun _ => None) AAscending l) = [] /\
    values (array_edited (is_last_comma l) (fun _ => None) AAscending l) = [AInt 4; AInt 5].
Proof.
  exists [({| i_id := 0; i_value := AInt 5; i_leading := []; i_trailing := Some (lit "# c") |}, plain 0); at_ 1 (AInt 4) None].
  split; [repeat constructor; simpl; intuition congruence|]. split; [repeat constructor; discriminate|]. split; [left; reflexivity|].
  vm_compute. split; reflexivity.
Qed.
Print Assumptions C44_comment_lost_refuted.

(** The orders the code computes: one order for all values, groups of values, and the keys of an inline table. *)
Theorem C44_orders : 
  (forall by_key l o s, sorted_all by_key l o = Some s -> reorders l s) /\
  (forall groups l, reorders l (sorted_groups groups l)) /\
  (forall (T S : Type) (e : env S) fuel v accs (ts : list (@target (entry T))) cs o s,
     Forall all_keys (map fst ts) -> get_sorted_accessors fuel e v accs ts cs o = Done s -> reorders (map snd ts) s).
Proof.
  split; [exact sorted_all_reorders|]. split; [exact sorted_groups_reorders|].
  intros T S e fuel v accs ts cs o s HK H. apply sorted_perm in H; [|left; apply (covers_keys (dval_size v)); [lia|exact HK]].
  exists (map snd ts). split; [apply filled_list_refl|symmetry; exact H].
Qed.
Print Assumptions C44_orders.

(** Comments before a value, after it, and around commas, all kept: sorted, with and without a trailing comma. *)
Example C44_example :
  let l := [({| i_id := 0; i_value := AInt 5; i_leading := [lit "# a"]; i_trailing := Some (lit "# b") |},
               Some {| c_id := Some 0%nat; c_leading := [lit "# c"]; c_trailing := Some (lit "# d") |});
            ({| i_id := 1; i_value := AInt 3; i_leading := []; i_trailing := Some (lit "# e") |}, plain 1);
            ({| i_id := 2; i_value := AInt 4; i_leading := []; i_trailing := Some (lit "# f") |}, None)] in
  numbered l /\ separated l /\
  map content (array_edited false (fun _ => None) AAscending l) =
    [(AInt 3, [lit "# e"]); (AInt 4, [lit "# f"]); (AInt 5, [lit "# a"; lit "# b"; lit "# c"; lit "# d"])] /\
  ~ loses_comment l [(fst (nth 1 l (at_ 0 AUnsortable None)), plain 1); (fst (nth 2 l (at_ 0 AUnsortable None)), Some make_comma); nth 0 l (at_ 0 AUnsortable None)].
Proof.
  cbv zeta. split; [repeat constructor; simpl; intuition congruence|]. split; [repeat constructor; discriminate|]. split; [vm_compute; reflexivity|].
  intros [_ (r & i & c & c' & t & E & HI & HC & HT)]. cbn [nth fst] in E.
  match type of E with [?a; ?b; ?d] = _ => change ([a; b; d]) with ([a; b] ++ [d]) in E end.
  apply app_inj_tail in E. destruct E as [_ E]. injection E as <- _. 
  destruct HI as [HI|[HI|[HI|[]]]]; try discriminate. injection HI as <-. discriminate.
Qed.
