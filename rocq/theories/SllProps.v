(** * C46: the ring of elements is the sorted list that the edits rely on *)
From Coq Require Import List Bool Arith Lia Sorted Permutation.
From Verif Require Import MutModel SllModel.
Import ListNotations.
Open Scope list_scope.
Open Scope nat_scope.

(** ** Specification *)
(** from [a], the elements [l] follow one after the other, and each points back *)
Fixpoint linked (s : ring) (a : nat) (l : list nat) : Prop := match l with [] => True | b :: l => next s a = b /\ prev s b = a /\ linked s b l end.
(** the elements [l] follow one after the other in a circle *)
Definition circle (s : ring) (l : list nat) : Prop := match l with [] => True | x :: r => linked s x (r ++ [x]) end.
(** the ring holds the elements [l], in this order *)
Definition holds (s : ring) (l : list nat) : Prop := NoDup l /\ head s = hd_error l /\ circle s l.
(** the keys grow *)
Definition ordered (s : ring) (l : list nat) : Prop := StronglySorted (fun x y => key s x < key s y) l.

Lemma set_same f x v : set f x v x = v. Proof. unfold set. rewrite Nat.eqb_refl. reflexivity. Qed.
Lemma set_other f x v y : y <> x -> set f x v y = f y. Proof. intros H. unfold set. apply Nat.eqb_neq in H. rewrite H. reflexivity. Qed.
Lemma linked_app s l1 : forall a b l2, linked s a (l1 ++ b :: l2) <-> linked s a (l1 ++ [b]) /\ linked s b l2.
Proof. induction l1 as [|x l1 IH]; intros a b l2; cbn [app linked]; [tauto|]. rewrite IH. tauto. Qed.
Lemma linked_frame s s' l : forall a, (forall y, In y (a :: removelast l) -> next s' y = next s y) -> (forall y, In y l -> prev s' y = prev s y) -> linked s a l -> linked s' a l.
Proof.
  induction l as [|b l IH]; intros a HN HP H; [exact I|]. cbn [linked] in *. destruct H as (A & B & C). split; [rewrite HN by (left; reflexivity); exact A|]. split; [rewrite HP by (left; reflexivity); exact B|].
  destruct l as [|c l]; [exact I|]. apply IH; [|intros y Hy; apply HP; right; exact Hy|exact C]. intros y Hy. apply HN. right. exact Hy.
Qed.
(** a circle can be read from any of its elements *)
Lemma rotate s l1 l2 : circle s (l1 ++ l2) <-> circle s (l2 ++ l1).
Proof.
  destruct l1 as [|x l1]; [cbn [app]; rewrite app_nil_r; reflexivity|]. destruct l2 as [|y l2]; [cbn [app]; rewrite app_nil_r; reflexivity|].
  cbn [app circle]. rewrite <- !app_assoc. cbn [app]. rewrite (linked_app s l1 x y (l2 ++ [x])), (linked_app s l2 y x (l1 ++ [y])). apply and_comm.
Qed.

(** ** Finding a place *)
Lemma link_loop_ok s k : forall l1 fuel curr l2 x, linked s x (l1 ++ curr :: l2) -> key s x <= k -> List.length l1 + 2 <= fuel ->
  link_loop fuel s k curr = match find (fun e => snd e <=? k) (rev (map (fun y => (y, key s y)) (x :: l1 ++ [curr]))) with Some (e, kk) => if kk <? k then After e else Already e | None => Loops end.
Proof.
  intros l1. induction l1 as [|c l1 IH] using rev_ind; intros fuel curr l2 x HL HX HF.
  - cbn [app map rev find snd]. destruct fuel as [|fuel]; [lia|]. cbn [link_loop]. cbn [app linked] in HL. destruct HL as (_ & HP & _).
    destruct (Nat.compare_spec (key s curr) k) as [HE|HLt|HGt].
    + replace (key s curr <=? k) with true by (symmetry; apply Nat.leb_le; lia). replace (key s curr <? k) with false by (symmetry; apply Nat.ltb_ge; lia). reflexivity.
    + replace (key s curr <=? k) with true by (symmetry; apply Nat.leb_le; lia). replace (key s curr <? k) with true by (symmetry; apply Nat.ltb_lt; lia). reflexivity.
    + replace (key s curr <=? k) with false by (symmetry; apply Nat.leb_gt; lia). rewrite HP. destruct fuel as [|fuel]; [cbn in HF; lia|]. cbn [link_loop]. replace (key s x <=? k) with true by (symmetry; apply Nat.leb_le; lia).
      destruct (Nat.compare_spec (key s x) k) as [HE|HLt|HGt2]; [replace (key s x <? k) with false by (symmetry; apply Nat.ltb_ge; lia); reflexivity|replace (key s x <? k) with true by (symmetry; apply Nat.ltb_lt; lia); reflexivity|lia].
  - rewrite app_length in HF. cbn [List.length] in HF. destruct fuel as [|fuel]; [lia|]. cbn [link_loop]. rewrite app_comm_cons, map_app, rev_app_distr. cbn [map rev app find snd].
    destruct (Nat.compare_spec (key s curr) k) as [HE|HLt|HGt].
    + replace (key s curr <=? k) with true by (symmetry; apply Nat.leb_le; lia). replace (key s curr <? k) with false by (symmetry; apply Nat.ltb_ge; lia). reflexivity.
    + replace (key s curr <=? k) with true by (symmetry; apply Nat.leb_le; lia). replace (key s curr <? k) with true by (symmetry; apply Nat.ltb_lt; lia). reflexivity.
    + replace (key s curr <=? k) with false by (symmetry; apply Nat.leb_gt; lia). rewrite <- app_assoc in HL. cbn [app] in HL.
      assert (HP : prev s curr = c). { rewrite linked_app in HL. destruct HL as [_ HL]. cbn [linked] in HL. tauto. }
      rewrite HP. apply (IH fuel c (curr :: l2) x HL HX). lia.
Qed.
(** The place that is found by following the pointers is the place in the list; the loop ends. *)
Theorem C46_ring_link : forall s l e, holds s l -> forall fuel, List.length l < fuel -> link_ptr fuel s e = link (map (fun y => (y, key s y)) l) (key s e).
Proof.
  intros s l e (HND & HH & HL) fuel HF. unfold link_ptr, link. rewrite HH. destruct l as [|x r]; [reflexivity|]. cbn [hd_error map circle] in *. destruct (key s e <? key s x) eqn:EL; [reflexivity|]. apply Nat.ltb_ge in EL.
  destruct r as [|y r] using rev_ind.
  - cbn [app linked] in HL. destruct HL as (_ & HP & _). rewrite HP. destruct fuel as [|fuel]; [lia|]. cbn [link_loop map rev app find snd]. replace (key s x <=? key s e) with true by (symmetry; apply Nat.leb_le; lia).
    destruct (Nat.compare_spec (key s x) (key s e)) as [HE|HLt|HGt]; [replace (key s x <? key s e) with false by (symmetry; apply Nat.ltb_ge; lia); reflexivity|replace (key s x <? key s e) with true by (symmetry; apply Nat.ltb_lt; lia); reflexivity|lia].
  - clear IHr. rewrite <- app_assoc in HL. cbn [app] in HL. assert (HP : prev s x = y) by (rewrite linked_app in HL; destruct HL as [_ HL]; cbn [linked] in HL; tauto). rewrite HP.
    apply (link_loop_ok s (key s e) r fuel y [x] x HL EL). cbn [List.length] in HF. rewrite app_length in HF. cbn in HF. lia.
Qed.
Print Assumptions C46_ring_link.

(** ** Adding *)
Lemma insert_circle s s' p n q e : circle s (p :: q) -> next s p = n -> ~ In e (p :: q) -> NoDup (p :: q) ->
  next s' p = e -> prev s' e = p -> next s' e = n -> prev s' n = e ->
  (forall y, y <> p -> y <> e -> next s' y = next s y) -> (forall y, y <> n -> y <> e -> prev s' y = prev s y) -> circle s' (p :: e :: q).
Proof.
  intros HC Hn HI HND A B C D HN HP. cbn [circle app linked]. split; [exact A|]. split; [exact B|]. cbn [circle] in HC. destruct q as [|x q].
  - cbn [app linked] in *. destruct HC as (E & _). rewrite Hn in E. rewrite E in *. repeat split; assumption.
  - cbn [app linked] in *. destruct HC as (E & F & G). rewrite Hn in E. rewrite E in *. clear E. split; [exact C|]. split; [exact D|].
    apply NoDup_cons_iff in HND. destruct HND as [N1 N2]. apply NoDup_cons_iff in N2. destruct N2 as [N3 N4].
    eapply linked_frame; [| |exact G].
    + intros y Hy. rewrite removelast_last in Hy. apply HN; intros HE; subst y; [exact (N1 Hy)|]. apply HI. right. exact Hy.
    + intros y Hy. apply in_app_or in Hy. apply HP; intros HE; subst y; destruct Hy as [Hy|[Hy|[]]]; try congruence; [apply N1; left; auto|apply HI; right; right; exact Hy|apply HI; left; auto].
Qed.
Lemma circle_next s l1 x y l2 : circle s (l1 ++ x :: y :: l2) -> next s x = y /\ prev s y = x.
Proof. rewrite rotate. cbn [app circle linked]. tauto. Qed.
Lemma circle_wrap s x l : circle s (x :: l) -> prev s x = last (x :: l) x /\ next s (last (x :: l) x) = x.
Proof.
  intros H. destruct l as [|z l] using rev_ind; [cbn in H; tauto|]. clear IHl. change (x :: l ++ [z]) with ((x :: l) ++ [z]) in *. rewrite last_last. rewrite rotate in H. cbn [app circle linked] in H. tauto.
Qed.
Lemma insert_after_at l1 c l2 e : ~ In c l1 -> insert_after c e (l1 ++ c :: l2) = l1 ++ c :: e :: l2.
Proof. induction l1 as [|x l1 IH]; intros H; cbn [app insert_after]; [rewrite Nat.eqb_refl; reflexivity|]. destruct (Nat.eqb x c) eqn:E; [apply Nat.eqb_eq in E; subst; exfalso; apply H; left; reflexivity|]. rewrite IH; [reflexivity|]. intros HI. apply H. right. exact HI. Qed.
(** An element that is not in the ring is added where the place says, and no key changes. *)
Theorem C46_ring_add : forall s l e p, holds s l -> ~ In e l -> (match p with EmptyHead => l = [] | SmallerThanHead => l <> [] | After c => In c l | _ => False end) ->
  holds (add_ptr p e s) (add_to p e l) /\ (forall y, key (add_ptr p e s) y = key s y).
Proof.
  intros s l e p (HND & HH & HC) HN HP. destruct p as [| |c| |]; try contradiction.
  - subst l. split; [|reflexivity]. split; [constructor; [intros []|constructor]|]. split; [reflexivity|]. cbn. rewrite !set_same. auto.
  - destruct l as [|x r]; [congruence|]. cbn [hd_error] in HH. assert (Hxe : x <> e) by (intros ->; apply HN; left; reflexivity).
    destruct (circle_wrap s x r HC) as [HW1 HW2]. set (z := last (x :: r) x) in *.
    assert (Hz : exists q, x :: r = q ++ [z]). { exists (removelast (x :: r)). apply app_removelast_last. discriminate. }
    destruct Hz as [q Hq]. assert (Hze : z <> e) by (intros HE; apply HN; rewrite Hq; apply in_or_app; right; left; exact HE).
    unfold add_ptr. cbn [set_next set_prev head]. rewrite HH. cbn [add_to]. split; [|reflexivity]. split; [constructor; assumption|]. split; [reflexivity|].
    assert (HZ : set (prev s) e e x = z) by (rewrite set_other by exact Hxe; exact HW1).
    cbn [prev next key head set_head set_prev set_next]. rewrite HZ.
    rewrite Hq. change (e :: q ++ [z]) with ((e :: q) ++ [z]). rewrite rotate. cbn [app]. rewrite Hq in HC, HN, HND.
    apply (insert_circle s _ z x q e); cbn [next prev set_head set_prev set_next].
    + rewrite rotate in HC. exact HC.
    + exact HW2.
    + intros HI. apply HN. apply in_or_app. destruct HI as [HI|HI]; [right; left; exact HI|left; exact HI].
    + apply (Permutation_NoDup (l := q ++ [z])); [apply Permutation_app_comm|exact HND].
    + rewrite set_other, set_same by exact Hze. reflexivity.
    + apply set_same.
    + apply set_same.
    + rewrite set_other, set_same by exact Hxe. reflexivity.
    + intros y Y1 Y2. rewrite !set_other by assumption. reflexivity.
    + intros y Y1 Y2. rewrite !set_other by assumption. reflexivity.
  - apply in_split in HP. destruct HP as (l1 & l2 & ->). assert (Hc1 : ~ In c l1) by (apply NoDup_remove_2 in HND; intros HI; apply HND; apply in_or_app; left; exact HI).
    assert (Hce : c <> e) by (intros ->; apply HN; apply in_or_app; right; left; reflexivity). cbn [add_to]. rewrite (insert_after_at l1 c l2 e Hc1). split; [|reflexivity].
    split. { apply (Permutation_NoDup (l := e :: l1 ++ c :: l2)); [|constructor; assumption]. rewrite (Permutation_middle l1 (c :: l2) e). apply Permutation_app_head. apply perm_swap. }
    split. { cbn [add_ptr set_next set_prev head]. rewrite HH. destruct l1; reflexivity. }
    assert (Hnx : exists n, next s c = n /\ In n (l1 ++ c :: l2)).
    { eexists. split; [reflexivity|]. rewrite rotate in HC. cbn [app circle] in HC. destruct (l2 ++ l1) as [|n q] eqn:EQ.
      - cbn [app linked] in HC. destruct HC as (-> & _). apply in_or_app. right. left. reflexivity.
      - cbn [app linked] in HC. destruct HC as (-> & _). assert (HI : In n (l2 ++ l1)) by (rewrite EQ; left; reflexivity). apply in_app_or in HI. apply in_or_app. destruct HI; [right; right; assumption|left; assumption]. }
    destruct Hnx as (n & Hnx & HnI). assert (Hne : n <> e) by (intros ->; exact (HN HnI)).
    rewrite rotate. cbn [app]. change (c :: e :: l2 ++ l1) with (c :: e :: (l2 ++ l1)). assert (HZ : set (next s) e e c = n) by (rewrite set_other by exact Hce; exact Hnx).
    cbn [add_ptr prev next key head set_head set_prev set_next]. rewrite HZ.
    apply (insert_circle s _ c n (l2 ++ l1) e); cbn [next prev set_head set_prev set_next].
    + rewrite rotate in HC. exact HC.
    + exact Hnx.
    + intros HI. apply HN. apply in_or_app. destruct HI as [HI|HI]; [right; left; exact HI|]. apply in_app_or in HI. destruct HI; [right; right; assumption|left; assumption].
    + apply (Permutation_NoDup (l := l1 ++ c :: l2)); [|exact HND]. rewrite Permutation_app_comm. reflexivity.
    + rewrite set_other, set_same by exact Hce. reflexivity.
    + apply set_same.
    + apply set_same.
    + rewrite set_other, set_same by exact Hne. reflexivity.
    + intros y Y1 Y2. rewrite !set_other by assumption. reflexivity.
    + intros y Y1 Y2. rewrite !set_other by assumption. reflexivity.
Qed.
Print Assumptions C46_ring_add.

Lemma find_place s k l : (exists x, In x l /\ key s x <= k) ->
  exists l1 y l2, l = l1 ++ y :: l2 /\ find (fun e => snd e <=? k) (map (fun y => (y, key s y)) (rev l)) = Some (y, key s y) /\ key s y <= k /\ (forall z, In z l2 -> k < key s z).
Proof.
  induction l as [|a l IH] using rev_ind; intros (x & HI & HX); [destruct HI|]. rewrite rev_app_distr. cbn [rev app map find snd]. destruct (key s a <=? k) eqn:E.
  - apply Nat.leb_le in E. exists l, a, []. split; [reflexivity|]. split; [reflexivity|]. split; [exact E|]. intros z [].
  - apply Nat.leb_gt in E. apply in_app_or in HI. destruct HI as [HI|[<-|[]]]; [|lia]. destruct (IH (ex_intro _ x (conj HI HX))) as (l1 & y & l2 & A & B & C & D). exists l1, y, (l2 ++ [a]). split; [rewrite A, <- app_assoc; reflexivity|]. split; [exact B|]. split; [exact C|].
    intros z Hz. apply in_app_or in Hz. destruct Hz as [Hz|[<-|[]]]; [exact (D z Hz)|exact E].
Qed.
Lemma sorted_app {A} (R : A -> A -> Prop) l1 l2 : StronglySorted R (l1 ++ l2) <-> StronglySorted R l1 /\ StronglySorted R l2 /\ (forall x y, In x l1 -> In y l2 -> R x y).
Proof.
  induction l1 as [|a l1 IH]; cbn [app].
  - split; [intros H; split; [constructor|]; split; [exact H|intros x y []]|tauto].
  - split.
    + intros H. inversion H as [|? ? HS HF]; subst. apply IH in HS. destruct HS as (A1 & A2 & A3). rewrite Forall_forall in HF. split; [constructor; [exact A1|]; rewrite Forall_forall; intros y Hy; apply HF, in_or_app; left; exact Hy|]. split; [exact A2|].
      intros x y [<-|Hx] Hy; [apply HF, in_or_app; right; exact Hy|exact (A3 x y Hx Hy)].
    + intros (H1 & H2 & H3). inversion H1 as [|? ? HS HF]; subst. constructor; [apply IH; split; [exact HS|]; split; [exact H2|]; intros x y Hx Hy; apply H3; [right; exact Hx|exact Hy]|]. rewrite Forall_forall in *. intros y Hy. apply in_app_or in Hy. destruct Hy as [Hy|Hy]; [exact (HF y Hy)|apply H3; [left; reflexivity|exact Hy]].
Qed.
(** In a ring whose keys grow, a search for a key that is there finds its element; otherwise the element is added and the keys still
    grow. *)
Theorem C46_ring_insert : forall s l e, holds s l -> ordered s l -> ~ In e l -> forall fuel, List.length l < fuel ->
  (exists x, In x l /\ key s x = key s e /\ link_ptr fuel s e = Already x)
  \/ ((forall x, In x l -> key s x <> key s e)
      /\ let s' := add_ptr (link_ptr fuel s e) e s in
         exists l', Permutation (e :: l) l' /\ holds s' l' /\ ordered s' l' /\ (forall y, key s' y = key s y)).
Proof.
  intros s l e HH HO HN fuel HF. rewrite (C46_ring_link s l e HH fuel HF). unfold link.
  assert (ADD : forall p, (match p with EmptyHead => l = [] | SmallerThanHead => l <> [] | After c => In c l | _ => False end) -> Permutation (e :: l) (add_to p e l) -> StronglySorted (fun x y => key s x < key s y) (add_to p e l) ->
    let s' := add_ptr p e s in exists l', Permutation (e :: l) l' /\ holds s' l' /\ ordered s' l' /\ (forall y, key s' y = key s y)).
  { intros p Hp HPm HS s'. destruct (C46_ring_add s l e p HH HN Hp) as [A B]. exists (add_to p e l). split; [exact HPm|]. split; [exact A|]. split; [|exact B]. unfold ordered. clear - HS B. unfold s'. induction HS as [|x r HS IH HF]; constructor; [exact IH|]. eapply Forall_impl; [|exact HF]. intros y Hy. rewrite !B. exact Hy. }
  destruct l as [|x r]; cbn [map].
  { right. split; [intros x []|]. apply ADD; [reflexivity|reflexivity|]. cbn. constructor; [constructor|constructor]. }
  destruct (key s e <? key s x) eqn:EL.
  { apply Nat.ltb_lt in EL. inversion HO as [|? ? HS HA]; subst. rewrite Forall_forall in HA. right. split.
    - intros y [<-|Hy]; [lia|]. specialize (HA y Hy). cbn in HA. lia.
    - apply ADD; [discriminate|reflexivity|]. cbn [add_to]. constructor; [exact HO|]. constructor; [exact EL|]. rewrite Forall_forall. intros y Hy. specialize (HA y Hy). cbn in HA. lia. }
  apply Nat.ltb_ge in EL. change ((x, key s x) :: map (fun y => (y, key s y)) r) with (map (fun y => (y, key s y)) (x :: r)). rewrite <- map_rev.
  destruct (find_place s (key s e) (x :: r) (ex_intro _ x (conj (in_eq x r) EL))) as (l1 & y & l2 & E1 & E2 & E3 & E4). rewrite E2.
  assert (Hy : In y (x :: r)) by (rewrite E1; apply in_or_app; right; left; reflexivity).
  pose proof HO as HO'. unfold ordered in HO'. rewrite E1 in HO'. apply sorted_app in HO'. destruct HO' as (S1 & S2 & S3). inversion S2 as [|? ? S4 S5]; subst. rewrite Forall_forall in S5.
  destruct (key s y <? key s e) eqn:ELt.
  - apply Nat.ltb_lt in ELt. right. split.
    + intros z Hz. rewrite E1 in Hz. apply in_app_or in Hz. destruct Hz as [Hz|[<-|Hz]]; [specialize (S3 z y Hz (in_eq _ _)); cbn in S3; lia|lia|specialize (E4 z Hz); lia].
    + assert (HA : add_to (After y) e (x :: r) = l1 ++ y :: e :: l2). { cbn [add_to]. rewrite E1. apply insert_after_at. destruct HH as (HND & _). rewrite E1 in HND. apply NoDup_remove_2 in HND. intros HI. apply HND, in_or_app. left. exact HI. }
      apply ADD; [exact Hy| |]; rewrite HA.
      * rewrite E1. rewrite (Permutation_middle l1 (y :: l2) e). apply Permutation_app_head. apply perm_swap.
      * apply sorted_app. split; [exact S1|]. split.
        { constructor; [constructor; [exact S4|]|]; rewrite Forall_forall; [exact E4|]. intros z [<-|Hz]; [exact ELt|exact (S5 z Hz)]. }
        intros a b Ha [<-|[<-|Hb]]; [apply S3; [exact Ha|left; reflexivity]| |apply S3; [exact Ha|right; exact Hb]]. specialize (S3 a y Ha (in_eq _ _)). cbn in S3. lia.
  - apply Nat.ltb_ge in ELt. left. exists y. split; [exact Hy|]. split; [lia|reflexivity].
Qed.
Print Assumptions C46_ring_insert.

(** ** Removing *)
Lemma remove_at l1 x l2 : ~ In x (l1 ++ l2) -> filter (fun y => negb (Nat.eqb y x)) (l1 ++ x :: l2) = l1 ++ l2.
Proof.
  intros H. assert (HF : forall l, ~ In x l -> filter (fun y => negb (Nat.eqb y x)) l = l). { induction l as [|y l IH]; intros HN; [reflexivity|]. cbn [filter]. destruct (Nat.eqb y x) eqn:E; [apply Nat.eqb_eq in E; subst; exfalso; apply HN; left; reflexivity|]. cbn [negb]. rewrite IH; [reflexivity|]. intros HI. apply HN. right. exact HI. }
  rewrite filter_app. cbn [filter]. rewrite Nat.eqb_refl. cbn [negb]. rewrite <- filter_app. apply HF. exact H.
Qed.
(** An element of the ring is removed; it is left alone, pointing to itself. No key changes. *)
Theorem C46_ring_unlink : forall s l e, holds s l -> In e l ->
  let s' := unlink_ptr e s in
  holds s' (filter (fun y => negb (Nat.eqb y e)) l) /\ circle s' [e] /\ (forall y, key s' y = key s y).
Proof.
  intros s l e (HND & HH & HC) HI s'. apply in_split in HI. destruct HI as (l1 & l2 & ->). assert (HN := HND). apply NoDup_remove_2 in HN. rewrite (remove_at l1 e l2 HN). assert (HN1 := NoDup_remove_1 _ _ _ HND).
  rewrite rotate in HC. cbn [app] in HC.
  assert (KEY : forall y, key s' y = key s y). { intros y. unfold s', unlink_ptr. cbn [set_prev set_next head]. destruct (head s) as [x|]; [|reflexivity]. destruct (Nat.eqb x e); [|reflexivity]. reflexivity. }
  set (t := set_prev (next s e) (prev s e) (set_next (prev s e) (next s e) (set_next e e (set_prev e e s)))).
  assert (PN : (forall y, prev s' y = prev t y) /\ (forall y, next s' y = next t y)).
  { unfold s', unlink_ptr, t. cbn [set_prev set_next head next]. destruct (head s) as [x|]; [|split; reflexivity]. destruct (Nat.eqb x e); split; reflexivity. }
  destruct PN as [PP PNx].
  destruct (l2 ++ l1) as [|n q] eqn:EQ.
  - (* the only element *)
    apply app_eq_nil in EQ. destruct EQ as [-> ->]. cbn [app] in *. cbn [circle app linked] in HC. destruct HC as (A & B & _). split; [|split; [|exact KEY]].
    + split; [constructor|]. split; [|exact I]. unfold s', unlink_ptr. cbn [set_prev set_next head next]. rewrite HH. cbn [hd_error]. rewrite Nat.eqb_refl, A, Nat.eqb_refl. reflexivity.
    + cbn [circle app linked]. rewrite PNx, PP. unfold t. cbn [prev next set_prev set_next]. rewrite A, B, !set_same. auto.
  - assert (HNq : ~ In e (n :: q)). { rewrite <- EQ. intros HI. apply HN. apply in_app_or in HI. apply in_or_app. tauto. }
    assert (HNDq : NoDup (n :: q)). { rewrite <- EQ. apply (Permutation_NoDup (l := l1 ++ l2)); [apply Permutation_app_comm|exact HN1]. }
    cbn [circle app linked] in HC. destruct HC as (A & B & C).
    assert (Hne : n <> e) by (intros HE; apply HNq; left; exact HE).
    assert (HP : prev s e = last (n :: q) n /\ In (prev s e) (n :: q)).
    { destruct q as [|p q] using rev_ind; [cbn [app linked] in C; destruct C as (_ & C & _); rewrite C; cbn; auto|]. clear IHq. change (n :: q ++ [p]) with ((n :: q) ++ [p]). rewrite last_last. rewrite <- app_assoc in C. cbn [app] in C. rewrite linked_app in C. destruct C as [_ C]. cbn [linked] in C. destruct C as (_ & C & _). rewrite C. split; [reflexivity|]. right. apply in_or_app. right. left. reflexivity. }
    destruct HP as [HP HPi]. assert (Hpe : prev s e <> e) by (intros HE; rewrite HE in HPi; exact (HNq HPi)).
    assert (CQ : circle s' (n :: q)).
    { cbn [circle]. destruct q as [|p q] using rev_ind.
      - cbn [app linked]. cbn in HP. rewrite PNx, PP. unfold t. cbn [prev next set_prev set_next]. rewrite A, HP, !set_same. auto.
      - clear IHq. change (n :: q ++ [p]) with ((n :: q) ++ [p]) in HP. rewrite last_last in HP. rewrite <- app_assoc in C |- *. cbn [app] in C |- *. rewrite linked_app in C |- *. destruct C as [C _].
        inversion HNDq as [|? ? N1 N2]; subst. apply NoDup_remove_2 in N2. rewrite app_nil_r in N2. split.
        + eapply linked_frame; [| |exact C]; intros y Hy.
          * rewrite removelast_last in Hy. rewrite PNx. unfold t. cbn [next set_prev set_next]. rewrite !set_other; [reflexivity| |].
            -- intros HE. subst y. apply HNq. destruct Hy as [Hy|Hy]; [left; exact Hy|right; apply in_or_app; left; exact Hy].
            -- intros HE. subst y. destruct Hy as [Hy|Hy]; [apply N1, in_or_app; right; left; symmetry; exact Hy|exact (N2 Hy)].
          * rewrite PP. unfold t. cbn [prev set_prev set_next]. rewrite !set_other; [reflexivity| |]; intros HE; subst y; [apply HNq; right; exact Hy|exact (N1 Hy)].
        + cbn [linked]. rewrite PNx, PP. unfold t. cbn [prev next set_prev set_next]. rewrite !set_same. auto. }
    split; [|split; [|exact KEY]].
    + split; [exact HN1|]. split; [|rewrite rotate, EQ; exact CQ]. unfold s', unlink_ptr. cbn [set_prev set_next head next]. rewrite HH, A. destruct l1 as [|x l1].
      * cbn [app hd_error]. rewrite Nat.eqb_refl. apply Nat.eqb_neq in Hne. rewrite Hne. cbn [app] in EQ. rewrite app_nil_r in EQ. subst l2. reflexivity.
      * cbn [app hd_error]. assert (HX : Nat.eqb x e = false) by (apply Nat.eqb_neq; intros ->; apply HN; left; reflexivity). rewrite HX. cbn [set_prev set_next head]. exact HH.
    + cbn [circle app linked]. rewrite PNx, PP. unfold t. cbn [prev next set_prev set_next]. rewrite A. rewrite (set_other _ (prev s e)), (set_other _ n), !set_same by auto. auto.
Qed.
Print Assumptions C46_ring_unlink.

(** ** Moving keys *)
Lemma adjust_loop_ok from by_ e : forall q s curr fuel, linked s curr (q ++ [e]) -> NoDup (curr :: q) -> ~ In e q -> List.length q < fuel ->
  exists s', adjust_loop fuel from by_ e curr s = Some s' /\ (forall y, prev s' y = prev s y) /\ (forall y, next s' y = next s y) /\ head s' = head s
  /\ (forall y, key s' y = if existsb (Nat.eqb y) (curr :: q) && (from <=? key s y) then by_ (key s y) else key s y).
Proof.
  induction q as [|x q IH]; intros s curr fuel HL HND HN HF; (destruct fuel as [|fuel]; [cbn in HF; lia|]); cbn [adjust_loop].
  - cbn [app linked] in HL. destruct HL as (A & B & _).
    destruct (from <=? key s curr) eqn:E.
    + cbn [next set_key]. rewrite A, Nat.eqb_refl. eexists. split; [reflexivity|]. split; [reflexivity|]. split; [reflexivity|]. split; [reflexivity|]. intros y. cbn [key set_key existsb]. unfold set. destruct (Nat.eqb y curr) eqn:EY; [apply Nat.eqb_eq in EY; subst; rewrite E; reflexivity|reflexivity].
    + rewrite A, Nat.eqb_refl. eexists. split; [reflexivity|]. split; [reflexivity|]. split; [reflexivity|]. split; [reflexivity|]. intros y. cbn [existsb]. destruct (Nat.eqb y curr) eqn:EY; [apply Nat.eqb_eq in EY; subst; rewrite E; reflexivity|reflexivity].
  - cbn [app linked] in HL. destruct HL as (A & B & C). set (s1 := if from <=? key s curr then set_key curr (by_ (key s curr)) s else s).
    assert (F : (forall y, prev s1 y = prev s y) /\ (forall y, next s1 y = next s y) /\ head s1 = head s /\ (forall y, key s1 y = if Nat.eqb y curr && (from <=? key s y) then by_ (key s y) else key s y)).
    { unfold s1. destruct (from <=? key s curr) eqn:E; (split; [reflexivity|]; split; [reflexivity|]; split; [reflexivity|]); intros y; cbn [key set_key]; unfold set; destruct (Nat.eqb y curr) eqn:EY; try reflexivity; apply Nat.eqb_eq in EY; subst; rewrite E; reflexivity. }
    destruct F as (F1 & F2 & F3 & F4). rewrite F2, A. destruct (Nat.eqb x e) eqn:EX; [apply Nat.eqb_eq in EX; subst; exfalso; apply HN; left; reflexivity|].
    inversion HND as [|? ? N1 N2]; subst.
    destruct (IH s1 (next s curr) fuel) as (s' & R1 & R2 & R3 & R4 & R5); [|exact N2|intros HI; apply HN; right; exact HI|cbn in HF; lia|].
    { eapply linked_frame; [| |exact C]; intros; [apply F2|apply F1]. }
    exists s'. split; [exact R1|]. split; [intros y; rewrite R2; apply F1|]. split; [intros y; rewrite R3; apply F2|]. split; [congruence|].
    intros y. rewrite R5, F4. cbn [existsb]. destruct (Nat.eqb y curr) eqn:EY; cbn [andb orb]; [|reflexivity].
    apply Nat.eqb_eq in EY. subst y. assert (HE : Nat.eqb curr (next s curr) || existsb (Nat.eqb curr) q = false).
    { destruct (Nat.eqb curr (next s curr) || existsb (Nat.eqb curr) q) eqn:EE; [|reflexivity]. exfalso. apply N1. apply orb_true_iff in EE. destruct EE as [EE|EE]; [left; apply Nat.eqb_eq in EE; congruence|right; apply existsb_exists in EE; destruct EE as (z & Z1 & Z2); apply Nat.eqb_eq in Z2; subst; exact Z1]. }
    rewrite HE. reflexivity.
Qed.
(** Starting from any of its elements, the keys of the ring from [from] on are moved, each once, the other keys stay, and the ring holds the
    same elements. *)
Theorem C46_ring_adjust : forall s l e from by_, holds s l -> In e l -> forall fuel, List.length l <= fuel ->
  exists s', adjust_ptr fuel from by_ e s = Some s' /\ holds s' l
  /\ (forall y, In y l -> key s' y = if from <=? key s y then by_ (key s y) else key s y)
  /\ (forall y, ~ In y l -> key s' y = key s y).
Proof.
  intros s l e from by_ (HND & HH & HC) HI fuel HF. assert (HC0 := HC). apply in_split in HI. destruct HI as (l1 & l2 & ->). rewrite rotate in HC. cbn [app circle] in HC.
  assert (PM : Permutation (l1 ++ e :: l2) (e :: l2 ++ l1)) by apply Permutation_app_comm. assert (HND' : NoDup (e :: l2 ++ l1)) by (apply (Permutation_NoDup PM HND)).
  destruct (adjust_loop_ok from by_ e (l2 ++ l1) s e fuel HC HND') as (s' & A & B & C & D & E).
  { inversion HND'; assumption. }
  { rewrite (Permutation_length PM) in HF. cbn [List.length] in HF. lia. }
  exists s'. split; [exact A|]. split; [|split].
  - split; [exact HND|]. split; [rewrite D; exact HH|]. destruct (l1 ++ e :: l2) as [|x r]; [exact I|]. cbn [circle] in *. eapply linked_frame; [| |exact HC0]; intros; [apply C|apply B].
  - intros y Hy. rewrite E. replace (existsb (Nat.eqb y) (e :: l2 ++ l1)) with true; [reflexivity|]. symmetry. apply existsb_exists. exists y. split; [apply (Permutation_in _ PM Hy)|apply Nat.eqb_refl].
  - intros y Hy. rewrite E. replace (existsb (Nat.eqb y) (e :: l2 ++ l1)) with false; [reflexivity|]. symmetry. apply not_true_iff_false. intros HE. apply existsb_exists in HE. destruct HE as (z & Z1 & Z2). apply Nat.eqb_eq in Z2. subst z. apply Hy. apply (Permutation_in _ (Permutation_sym PM) Z1).
Qed.
Print Assumptions C46_ring_adjust.

(** ** Example: elements 10, 20, 30 with keys 5, 1, 3 are put into a ring, the keys from 3 on move up, 20 is removed, 40 with key 4 is found taken *)
Definition s0 : ring := MkRing (fun _ => 0) (fun _ => 0) (fun x => match x with 10 => 5 | 20 => 1 | 30 => 3 | 40 => 4 | _ => 0 end) None.
Definition put e s := add_ptr (link_ptr 9 s e) e s.
Definition s3 := put 30 (put 20 (put 10 s0)).
Example C46_ring_example :
  holds s0 [] /\ holds s3 [20; 30; 10] /\ ordered s3 [20; 30; 10]
  /\ (exists s4, adjust_ptr 9 3 S 10 s3 = Some s4 /\ map (key s4) [20; 30; 10] = [1; 4; 6] /\ link_ptr 9 s4 40 = Already 30
      /\ holds (unlink_ptr 20 s4) [30; 10]).
Proof.
  split; [split; [constructor|split; reflexivity]|]. split; [split; [repeat (constructor; [intros HI; cbn in HI; lia|]); constructor|split; [reflexivity|vm_compute; auto 20]]|]. split; [unfold ordered; repeat constructor; vm_compute; lia|].
  eexists. split; [vm_compute; reflexivity|]. split; [reflexivity|]. split; [reflexivity|]. split; [repeat (constructor; [intros HI; cbn in HI; lia|]); constructor|]. split; [reflexivity|]. vm_compute. auto 20.
Qed.
