(** * Proofs about edited red trees *)
From Coq Require Import List NArith Bool Arith Lia Sorted.
From Verif Require Import Base SyntaxKind TextModel RangeProps ParserModel GreenModel GreenProps RedModel RedProofs MutModel MutSpec.
Import ListNotations.
Open Scope list_scope.
Open Scope nat_scope.
Implicit Types h : heap.

Definition idx (h : heap) (x : nat) : nat := match h x with Some c => index c | None => 0 end.
Lemma upd_same h x c : upd h x c x = Some c. Proof. cbn. rewrite Nat.eqb_refl. reflexivity. Qed.
Lemma upd_other h x c y : y <> x -> upd h x c y = h y. Proof. intros H. cbn. apply Nat.eqb_neq in H. rewrite H. reflexivity. Qed.
Lemma del_same h x : del h x x = None. Proof. cbn. rewrite Nat.eqb_refl. reflexivity. Qed.
Lemma del_other h x y : y <> x -> del h x y = h y. Proof. intros H. cbn. apply Nat.eqb_neq in H. rewrite H. reflexivity. Qed.
Definition add (r : nat -> nat) (x : nat) : nat -> nat := fun y => if Nat.eqb y x then S (r y) else r y.
Definition sub (r : nat -> nat) (x : nat) : nat -> nat := fun y => if Nat.eqb y x then pred (r y) else r y.
Lemma add_same r x : add r x x = S (r x). Proof. unfold add. rewrite Nat.eqb_refl. reflexivity. Qed.
Lemma add_other r x y : y <> x -> add r x y = r y. Proof. intros H. unfold add. apply Nat.eqb_neq in H. rewrite H. reflexivity. Qed.
Lemma sub_same r x : sub r x x = pred (r x). Proof. unfold sub. rewrite Nat.eqb_refl. reflexivity. Qed.
Lemma sub_other r x y : y <> x -> sub r x y = r y. Proof. intros H. unfold sub. apply Nat.eqb_neq in H. rewrite H. reflexivity. Qed.

Section seg.
Context (seg : str -> list str).
(** the children of [p], when its green tree is about to become [g] *)
Definition kids_of (o : option (nat * green)) (p : nat) (cp : cell) : list green :=
  match o with Some (x, g) => if Nat.eqb p x then gchildren g else gchildren (cgreen cp) | None => gchildren (cgreen cp) end.
Record inv1 (o : option (nat * green)) (h : heap) (r : nat -> nat) : Prop := {
  i_parent : forall x c p, h x = Some c -> parent c = Some p ->
    exists cp, h p = Some cp /\ nth_error (kids_of o p cp) (index c) = Some (cgreen c) /\ In x (first cp);
  i_ring : forall p cp x, h p = Some cp -> In x (first cp) -> exists c, h x = Some c /\ parent c = Some p;
  i_sorted : forall p cp, h p = Some cp -> StronglySorted (fun x y => idx h x < idx h y) (first cp);
  i_rc : forall x c, h x = Some c -> rc c = r x + List.length (first c);
  i_handles : forall x, 0 < r x -> h x <> None;
  i_finite : exists n, forall x, n <= x -> h x = None;
  i_built : forall x c, h x = Some c -> built seg (cgreen c) }.
Definition inv (h : heap) (r : nat -> nat) : Prop := inv1 None h r /\ forall x c, h x = Some c -> rc c <> 0.
Lemma sorted_ext {A} (R R' : A -> A -> Prop) l : (forall x y, In x l -> In y l -> R x y -> R' x y) -> StronglySorted R l -> StronglySorted R' l.
Proof.
  intros H HS. induction HS as [|x l HS IH HF]; constructor.
  - apply IH. intros a b Ha Hb. apply H; right; assumption.
  - rewrite Forall_forall in *. intros y Hy. apply H; [left; reflexivity|right; exact Hy|]. exact (HF y Hy).
Qed.
Lemma sorted_filter {A} (R : A -> A -> Prop) f l : StronglySorted R l -> StronglySorted R (filter f l).
Proof.
  induction 1 as [|x l HS IH HF]; [constructor|]. cbn [filter]. destruct (f x); [|exact IH]. constructor; [exact IH|]. rewrite Forall_forall in *. intros y Hy. apply HF. apply filter_In in Hy. tauto.
Qed.
Lemma idx_ext h h' x : h x = h' x -> idx h x = idx h' x. Proof. unfold idx. intros ->. reflexivity. Qed.
Lemma inv1_ext o h h' r r' : (forall x, h x = h' x) -> (forall x, r x = r' x) -> inv1 o h r -> inv1 o h' r'.
Proof.
  intros HE RE [I1 I2 I3 I4 I5 I6 I7]. constructor.
  - intros x c p. rewrite <- HE. intros H1 H2. destruct (I1 x c p H1 H2) as (cp & A & B). exists cp. rewrite <- HE. auto.
  - intros p cp x. rewrite <- !HE. apply I2.
  - intros p cp. rewrite <- HE. intros H. refine (sorted_ext _ _ _ _ (I3 p cp H)). intros x y _ _. rewrite !(idx_ext h h') by apply HE. auto.
  - intros x c. rewrite <- HE, <- RE. apply I4.
  - intros x. rewrite <- HE, <- RE. apply I5.
  - destruct I6 as (n & Hn). exists n. intros x Hx. rewrite <- HE. auto.
  - intros x c. rewrite <- HE. apply I7.
Qed.
Lemma inv_ext h h' r r' : (forall x, h x = h' x) -> (forall x, r x = r' x) -> inv h r -> inv h' r'.
Proof. intros HE RE [HI HZ]. split; [exact (inv1_ext _ _ _ _ _ HE RE HI)|]. intros x c. rewrite <- HE. apply HZ. Qed.

(** ** Sizes and chains of parents *)
Lemma gchild_size g i c : nth_error (gchildren g) i = Some c -> (green_size c < green_size g)%nat.
Proof.
  intros H. destruct g as [k t|k l p cs]; [destruct i; discriminate|]. change (GNode k l p cs) with (rgreen (RedModel.new_root (GNode k l p cs))) in *. rewrite <- kids_green in H.
  rewrite nth_error_map in H. destruct (nth_error (kids _) i) as [x|] eqn:E; [|discriminate]. injection H as <-. apply kid_size. exact (nth_error_In _ _ E).
Qed.
Lemma gchild_node g i c : nth_error (gchildren g) i = Some c -> gnode g = true.
Proof. destruct g; [destruct i; discriminate|reflexivity]. Qed.
Inductive chain (h : heap) : nat -> list nat -> Prop :=
  | chain_root x c : h x = Some c -> parent c = None -> chain h x []
  | chain_step x c p l : h x = Some c -> parent c = Some p -> chain h p l -> chain h x (p :: l).
Definition gsize (h : heap) (x : nat) : nat := match h x with Some c => green_size (cgreen c) | None => 0 end.
Lemma finite_size h n : (forall x, n <= x -> h x = None) -> exists M, forall x c, h x = Some c -> (green_size (cgreen c) <= M)%nat.
Proof.
  intros H. assert (HM : exists M, forall x c, x < n -> h x = Some c -> (green_size (cgreen c) <= M)%nat).
  { clear H. induction n as [|n (M & IH)]; [exists 0; intros; lia|]. exists (M + gsize h n)%nat. intros x c Hx Hc. destruct (Nat.eq_dec x n) as [-> |HN].
    - unfold gsize. rewrite Hc. lia.
    - specialize (IH x c ltac:(lia) Hc). lia. }
  destruct HM as (M & HM). exists M. intros x c Hc. destruct (le_lt_dec n x) as [HL|HL]; [rewrite (H x HL) in Hc; discriminate|]. exact (HM x c HL Hc).
Qed.
Lemma chain_exists h r x c : inv1 None h r -> h x = Some c -> exists l, chain h x l /\ NoDup (x :: l) /\ Forall (fun y => gsize h x < gsize h y)%nat l.
Proof.
  intros HI. destruct (i_finite _ _ _ HI) as (n & Hn). destruct (finite_size h n Hn) as (M & HM). revert x c.
  assert (H : forall k x c, (M - green_size (cgreen c) < k)%nat -> h x = Some c -> exists l, chain h x l /\ NoDup (x :: l) /\ Forall (fun y => gsize h x < gsize h y)%nat l).
  { induction k as [|k IH]; intros x c Hk Hx; [lia|]. destruct (parent c) as [p|] eqn:EP.
    - destruct (i_parent _ _ _ HI x c p Hx EP) as (cp & Hp & HN & _). cbn [kids_of] in HN. apply gchild_size in HN. pose proof (HM p cp Hp). destruct (IH p cp ltac:(lia) Hp) as (l & HC & HND & HF).
      assert (HS : (gsize h x < gsize h p)%nat) by (unfold gsize; rewrite Hx, Hp; exact HN).
      assert (HF' : Forall (fun y => gsize h x < gsize h y)%nat (p :: l)) by (constructor; [exact HS|]; eapply Forall_impl; [|exact HF]; cbv beta; intros y Hy; lia).
      exists (p :: l). split; [econstructor; eauto|]. split; [|exact HF']. constructor; [|exact HND]. intros HIn. rewrite Forall_forall in HF'. specialize (HF' x HIn). lia.
    - exists []. split; [econstructor; eauto|]. split; [constructor; [intros []|constructor]|constructor]. }
  intros x c Hx. exact (H (S M - green_size (cgreen c))%nat x c ltac:(pose proof (HM x c Hx); lia) Hx).
Qed.
Lemma chain_ext h h' x l : (forall y c, In y (x :: l) -> h y = Some c -> exists c', h' y = Some c' /\ parent c' = parent c) -> chain h x l -> chain h' x l.
Proof.
  intros H HC. revert H. induction HC as [x c Hx HP|x c p l Hx HP HC IH]; intros H.
  - destruct (H x c (or_introl eq_refl) Hx) as (c' & A & B). econstructor; [exact A|congruence].
  - destruct (H x c (or_introl eq_refl) Hx) as (c' & A & B). econstructor; [exact A|congruence|]. apply IH. intros y cy Hy. apply H. right. exact Hy.
Qed.

(** ** Reference counts *)
(** the cells of [h'] are those of [h], with the same parent, index and tree *)
Definition kept (h h' : heap) : Prop := forall x c', h' x = Some c' -> exists c, h x = Some c /\ parent c' = parent c /\ index c' = index c /\ cgreen c' = cgreen c.
Lemma kept_refl h : kept h h. Proof. intros x c H. eauto. Qed.
Lemma kept_trans a b c : kept a b -> kept b c -> kept a c.
Proof. intros H1 H2 x c' H. destruct (H2 x c' H) as (c1 & A & B & C & D). destruct (H1 x c1 A) as (c2 & A' & B' & C' & D'). exists c2. repeat split; congruence. Qed.
Lemma set_rc_inv1 o h r x c n r' : inv1 o h r -> h x = Some c -> r' x + List.length (first c) = n -> (forall y, y <> x -> r' y = r y) -> inv1 o (upd h x (set_rc n c)) r'.
Proof.
  intros [I1 I2 I3 I4 I5 I6 I7] Hx Hn HO. constructor.
  - intros y cy p Hy HP. assert (exists cy0, h y = Some cy0 /\ parent cy0 = parent cy /\ index cy0 = index cy /\ cgreen cy0 = cgreen cy) as (cy0 & A & B & C & D).
    { destruct (Nat.eq_dec y x) as [-> |HN]; [rewrite upd_same in Hy; injection Hy as <-; eauto|rewrite upd_other in Hy by exact HN; eauto]. }
    rewrite <- B in HP. destruct (I1 y cy0 p A HP) as (cp & Hp & HNth & HIn). rewrite <- C, <- D. destruct (Nat.eq_dec p x) as [-> |HN].
    + exists (set_rc n c). rewrite upd_same. split; [reflexivity|]. rewrite Hx in Hp. injection Hp as <-. auto.
    + exists cp. rewrite upd_other by exact HN. auto.
  - intros p cp y Hp HIn. assert (exists cp0, h p = Some cp0 /\ first cp0 = first cp) as (cp0 & A & B).
    { destruct (Nat.eq_dec p x) as [-> |HN]; [rewrite upd_same in Hp; injection Hp as <-; eauto|rewrite upd_other in Hp by exact HN; eauto]. }
    rewrite <- B in HIn. destruct (I2 p cp0 y A HIn) as (cy & Hy & HP). destruct (Nat.eq_dec y x) as [-> |HN]; [rewrite upd_same|rewrite upd_other by exact HN; eauto].
    exists (set_rc n c). rewrite Hx in Hy. injection Hy as <-. auto.
  - intros p cp Hp. assert (exists cp0, h p = Some cp0 /\ first cp0 = first cp) as (cp0 & A & B).
    { destruct (Nat.eq_dec p x) as [-> |HN]; [rewrite upd_same in Hp; injection Hp as <-; eauto|rewrite upd_other in Hp by exact HN; eauto]. }
    rewrite <- B. refine (sorted_ext _ _ _ _ (I3 p cp0 A)). intros a b _ _.
    assert (HI : forall z, idx (upd h x (set_rc n c)) z = idx h z). { intros z. unfold idx. destruct (Nat.eq_dec z x) as [-> |HN]; [rewrite upd_same, Hx; reflexivity|rewrite upd_other by exact HN; reflexivity]. }
    rewrite !HI. auto.
  - intros y cy Hy. destruct (Nat.eq_dec y x) as [-> |HN]; [rewrite upd_same in Hy; injection Hy as <-; cbn; lia|]. rewrite upd_other in Hy by exact HN. rewrite (HO y HN). exact (I4 y cy Hy).
  - intros y Hy. destruct (Nat.eq_dec y x) as [-> |HN]; [rewrite upd_same; discriminate|]. rewrite upd_other by exact HN. rewrite (HO y HN) in Hy. exact (I5 y Hy).
  - destruct I6 as (k & Hk). exists (max k (S x)). intros y Hy. rewrite upd_other by lia. apply Hk. lia.
  - intros y cy Hy. destruct (Nat.eq_dec y x) as [-> |HN]; [rewrite upd_same in Hy; injection Hy as <-; cbn; exact (I7 x c Hx)|]. rewrite upd_other in Hy by exact HN. exact (I7 y cy Hy).
Qed.
Lemma set_rc_kept h x c n : h x = Some c -> kept h (upd h x (set_rc n c)).
Proof. intros Hx y cy Hy. destruct (Nat.eq_dec y x) as [-> |HN]; [rewrite upd_same in Hy; injection Hy as <-; eauto|rewrite upd_other in Hy by exact HN; eauto]. Qed.
Lemma inc_ok o h r x c : inv1 o h r -> h x = Some c -> inc_rc h x = Some (upd h x (set_rc (S (rc c)) c)) /\ inv1 o (upd h x (set_rc (S (rc c)) c)) (add r x).
Proof.
  intros HI Hx. unfold inc_rc, modify. rewrite Hx. split; [reflexivity|]. apply (set_rc_inv1 o h r x c _ _ HI Hx); [rewrite add_same, (i_rc _ _ _ HI x c Hx); reflexivity|]. intros y HN. apply add_other. exact HN.
Qed.
(** removing a cell that nothing refers to *)
Lemma free_ok l : forall h r x c, chain h x l -> NoDup (x :: l) -> inv1 None h r -> h x = Some c -> rc c = 0 -> (forall y cy, h y = Some cy -> y <> x -> rc cy <> 0) ->
  exists h', (forall m, List.length l < m -> free m h x = Some h') /\ inv h' r /\ kept h h' /\ h' x = None.
Proof.
  induction l as [|p l IH]; intros h r x c HC HND HI Hx HZ HO.
  - assert (HP : parent c = None) by (inversion HC as [x' c0 A B|]; congruence).
    pose proof (i_rc _ _ _ HI x c Hx) as HR. rewrite HZ in HR. assert (HF : first c = []) by (destruct (first c); [reflexivity|cbn in HR; lia]).
    exists (del h x). split; [|split; [|split]].
    + intros [|m] Hm; [lia|]. cbn [free]. rewrite Hx, HZ, HF, HP. reflexivity.
    + split.
      * destruct HI as [I1 I2 I3 I4 I5 I6 I7]. constructor.
        -- intros y cy q Hy HQ. destruct (Nat.eq_dec y x) as [-> |HN]; [rewrite del_same in Hy; discriminate|]. rewrite del_other in Hy by exact HN. destruct (I1 y cy q Hy HQ) as (cq & A & B & D).
           exists cq. destruct (Nat.eq_dec q x) as [-> |HNq]; [exfalso; rewrite Hx in A; injection A as <-; rewrite HF in D; destruct D|]. rewrite del_other by exact HNq. auto.
        -- intros q cq y Hq HIn. destruct (Nat.eq_dec q x) as [-> |HN]; [rewrite del_same in Hq; discriminate|]. rewrite del_other in Hq by exact HN. destruct (I2 q cq y Hq HIn) as (cy & A & B). exists cy.
           destruct (Nat.eq_dec y x) as [-> |HNy]; [exfalso; congruence|]. rewrite del_other by exact HNy. auto.
        -- intros q cq Hq. destruct (Nat.eq_dec q x) as [-> |HN]; [rewrite del_same in Hq; discriminate|]. rewrite del_other in Hq by exact HN. refine (sorted_ext _ _ _ _ (I3 q cq Hq)). intros a b Ha Hb.
           assert (HNX : forall z, In z (first cq) -> z <> x). { intros z Hz ->. destruct (I2 q cq x Hq Hz) as (cz & A & B). congruence. }
           unfold idx. rewrite !del_other by (apply HNX; assumption). auto.
        -- intros y cy Hy. destruct (Nat.eq_dec y x) as [-> |HN]; [rewrite del_same in Hy; discriminate|]. rewrite del_other in Hy by exact HN. exact (I4 y cy Hy).
        -- intros y Hy. destruct (Nat.eq_dec y x) as [-> |HN]; [lia|]. rewrite del_other by exact HN. exact (I5 y Hy).
        -- destruct I6 as (k & Hk). exists k. intros y Hy. cbn. destruct (Nat.eqb y x); [reflexivity|]. exact (Hk y Hy).
        -- intros y cy Hy. destruct (Nat.eq_dec y x) as [-> |HN]; [rewrite del_same in Hy; discriminate|]. rewrite del_other in Hy by exact HN. exact (I7 y cy Hy).
      * intros y cy Hy. destruct (Nat.eq_dec y x) as [-> |HN]; [rewrite del_same in Hy; discriminate|]. rewrite del_other in Hy by exact HN. exact (HO y cy Hy HN).
    + intros y cy Hy. destruct (Nat.eq_dec y x) as [-> |HN]; [rewrite del_same in Hy; discriminate|]. rewrite del_other in Hy by exact HN. eauto.
    + apply del_same.
  - inversion HC as [|x' c0 p' l' A HP HCp]; subst. rewrite Hx in A. injection A as <-.
    pose proof (i_rc _ _ _ HI x c Hx) as HR. rewrite HZ in HR. assert (HF : first c = []) by (destruct (first c); [reflexivity|cbn in HR; lia]). assert (HRx : r x = 0) by lia.
    destruct (i_parent _ _ _ HI x c p Hx HP) as (cp & Hp & HNth & HIn).
    inversion HND as [|? ? HNI HNDp]; subst. assert (Hpx : p <> x) by (intros ->; apply HNI; left; reflexivity).
    set (cp1 := set_first (filter (fun y => negb (Nat.eqb y x)) (first cp)) cp).
    assert (HRp : rc cp <> 0) by exact (HO p cp Hp Hpx). pose proof (i_rc _ _ _ HI p cp Hp) as HRcp.
    assert (HLen : List.length (first cp) = S (List.length (first cp1))).
    { cbn [cp1 set_first first]. pose proof (i_sorted _ _ _ HI p cp Hp) as HS. revert HS HIn. generalize (first cp). clear. induction l as [|y l IH]; [intros _ []|]. intros HS [-> |HIn]; inversion HS as [|? ? HS' HF]; subst; cbn [filter List.length].
      - rewrite Nat.eqb_refl. cbn [negb]. f_equal. rewrite Forall_forall in HF. assert (HN : forall y, In y l -> y <> x) by (intros y Hy ->; specialize (HF x Hy); cbv beta in HF; lia). clear - HN.
        induction l as [|y l IH]; [reflexivity|]. cbn [filter]. replace (Nat.eqb y x) with false by (symmetry; apply Nat.eqb_neq; apply HN; left; reflexivity). cbn [negb List.length]. f_equal. apply IH. intros z Hz. apply HN. right. exact Hz.
      - rewrite Forall_forall in HF. specialize (HF x HIn). cbv beta in HF. replace (Nat.eqb y x) with false by (symmetry; apply Nat.eqb_neq; intros ->; lia). cbn [negb List.length]. f_equal. apply IH; assumption. }
    set (h2 := upd (upd (del h x) p cp1) p (set_rc (pred (rc cp)) cp1)).
    assert (E2 : forall y, h2 y = if Nat.eqb y p then Some (set_rc (pred (rc cp)) cp1) else if Nat.eqb y x then None else h y).
    { intros y. unfold h2. cbn [upd del mem]. destruct (Nat.eqb y p); reflexivity. }
    assert (Hx2 : h2 x = None) by (rewrite E2, Nat.eqb_refl; replace (Nat.eqb x p) with false by (symmetry; apply Nat.eqb_neq; auto); reflexivity).
    assert (Hp2 : h2 p = Some (set_rc (pred (rc cp)) cp1)) by (rewrite E2, Nat.eqb_refl; reflexivity).
    assert (Ho2 : forall y, y <> p -> y <> x -> h2 y = h y). { intros y H1 H2. rewrite E2. apply Nat.eqb_neq in H1, H2. rewrite H1, H2. reflexivity. }
    assert (HK : kept h h2). { intros y cy Hy. destruct (Nat.eq_dec y p) as [-> |H1]; [rewrite Hp2 in Hy; injection Hy as <-; eauto|]. destruct (Nat.eq_dec y x) as [-> |H2]; [congruence|]. rewrite Ho2 in Hy by assumption. eauto. }
    assert (HIdx : forall y, y <> x -> idx h2 y = idx h y). { intros y Hy. unfold idx. destruct (Nat.eq_dec y p) as [-> |H1]; [rewrite Hp2, Hp; reflexivity|]. rewrite Ho2 by assumption. reflexivity. }
    assert (HI2 : inv1 None h2 r).
    { constructor.
      - intros y cy q Hy HQ. destruct (HK y cy Hy) as (cy0 & A0 & A1 & A2 & A3). rewrite A1 in HQ. destruct (i_parent _ _ _ HI y cy0 q A0 HQ) as (cq & B0 & B1 & B2). rewrite A2, A3.
        destruct (Nat.eq_dec q p) as [-> |Hqp].
        + rewrite Hp in B0. injection B0 as <-. exists (set_rc (pred (rc cp)) cp1). split; [exact Hp2|]. split; [exact B1|]. cbn. apply filter_In. split; [exact B2|]. apply negb_true_iff, Nat.eqb_neq. intros ->. congruence.
        + destruct (Nat.eq_dec q x) as [-> |Hqx]; [exfalso; rewrite Hx in B0; injection B0 as <-; rewrite HF in B2; destruct B2|]. exists cq. rewrite Ho2 by assumption. auto.
      - intros q cq y Hq HInq. destruct (Nat.eq_dec q p) as [-> |Hqp].
        + rewrite Hp2 in Hq. injection Hq as <-. cbn in HInq. apply filter_In in HInq as [HInq HNx]. apply negb_true_iff, Nat.eqb_neq in HNx. destruct (i_ring _ _ _ HI p cp y Hp HInq) as (cy & B0 & B1).
          destruct (Nat.eq_dec y p) as [-> |Hyp]; [exists (set_rc (pred (rc cp)) cp1); split; [exact Hp2|]; rewrite Hp in B0; injection B0 as <-; exact B1|]. exists cy. rewrite Ho2 by assumption. auto.
        + destruct (Nat.eq_dec q x) as [-> |Hqx]; [congruence|]. rewrite Ho2 in Hq by assumption. destruct (i_ring _ _ _ HI q cq y Hq HInq) as (cy & B0 & B1).
          destruct (Nat.eq_dec y x) as [-> |Hyx]; [exfalso; congruence|]. destruct (Nat.eq_dec y p) as [-> |Hyp]; [exists (set_rc (pred (rc cp)) cp1); split; [exact Hp2|]; rewrite Hp in B0; injection B0 as <-; exact B1|]. exists cy. rewrite Ho2 by assumption. auto.
      - intros q cq Hq. destruct (Nat.eq_dec q p) as [-> |Hqp].
        + rewrite Hp2 in Hq. injection Hq as <-. cbn. refine (sorted_ext _ _ _ _ (sorted_filter _ _ _ (i_sorted _ _ _ HI p cp Hp))). intros a b Ha Hb. apply filter_In in Ha as [_ Ha], Hb as [_ Hb]. apply negb_true_iff, Nat.eqb_neq in Ha, Hb. rewrite !HIdx by assumption. auto.
        + destruct (Nat.eq_dec q x) as [-> |Hqx]; [congruence|]. rewrite Ho2 in Hq by assumption. refine (sorted_ext _ _ _ _ (i_sorted _ _ _ HI q cq Hq)).
          assert (HNX : forall z, In z (first cq) -> z <> x). { intros z Hz ->. destruct (i_ring _ _ _ HI q cq x Hq Hz) as (cz & B0 & B1). congruence. }
          intros a b Ha Hb. rewrite !HIdx by (apply HNX; assumption). auto.
      - intros y cy Hy. destruct (Nat.eq_dec y p) as [-> |H1]; [rewrite Hp2 in Hy; injection Hy as <-; cbn [rc set_rc first set_first]; fold cp1; lia|]. destruct (Nat.eq_dec y x) as [-> |H2]; [congruence|]. rewrite Ho2 in Hy by assumption. exact (i_rc _ _ _ HI y cy Hy).
      - intros y Hy. destruct (Nat.eq_dec y p) as [-> |H1]; [congruence|]. destruct (Nat.eq_dec y x) as [-> |H2]; [lia|]. rewrite Ho2 by assumption. exact (i_handles _ _ _ HI y Hy).
      - destruct (i_finite _ _ _ HI) as (k & Hk). exists (max k (S p)). intros y Hy. destruct (Nat.eq_dec y x) as [-> |H2]; [exact Hx2|]. rewrite Ho2 by (try assumption; lia). apply Hk. lia.
      - intros y cy Hy. destruct (HK y cy Hy) as (cy0 & A0 & A1 & A2 & A3). rewrite A3. exact (i_built _ _ _ HI y cy0 A0). }
    assert (HStep : forall m, free (S m) h x = if Nat.eqb (pred (rc cp)) 0 then free m h2 p else Some h2).
    { intros m. cbn [free]. rewrite Hx, HZ, HF, HP. unfold unlink, modify. rewrite del_other by exact Hpx. rewrite Hp. unfold dec_rc. rewrite upd_same. fold cp1. replace (rc cp1) with (rc cp) by reflexivity. destruct (rc cp) as [|n] eqn:ER; [contradiction|]. reflexivity. }
    destruct (Nat.eq_dec (pred (rc cp)) 0) as [EZ|EZ].
    + assert (HC2 : chain h2 p l).
      { refine (chain_ext h h2 p l _ HCp). intros y cy Hy0 Hy. destruct (Nat.eq_dec y p) as [-> |H1]; [rewrite Hp in Hy; injection Hy as <-; eauto|]. rewrite Ho2; [eauto|exact H1|]. intros ->. apply HNI. exact Hy0. }
      destruct (IH h2 r p (set_rc (pred (rc cp)) cp1) HC2 HNDp HI2 Hp2 EZ) as (h' & HR' & HI' & HK' & _).
      { intros y cy Hy HN. destruct (Nat.eq_dec y x) as [-> |H2]; [congruence|]. rewrite Ho2 in Hy by assumption. exact (HO y cy Hy H2). }
      exists h'. split; [|split; [exact HI'|split; [exact (kept_trans _ _ _ HK HK')|]]].
      * intros [|m] Hm; [cbn in Hm; lia|]. rewrite HStep. apply Nat.eqb_eq in EZ. rewrite EZ. apply HR'. cbn in Hm. lia.
      * destruct (h' x) as [cx|] eqn:E; [|reflexivity]. destruct (HK' x cx E) as (c0 & A0 & _). congruence.
    + exists h2. split; [|split; [|split; [exact HK|exact Hx2]]].
      * intros [|m] Hm; [cbn in Hm; lia|]. rewrite HStep. apply Nat.eqb_neq in EZ. rewrite EZ. reflexivity.
      * split; [exact HI2|]. intros y cy Hy. destruct (Nat.eq_dec y p) as [-> |H1]; [rewrite Hp2 in Hy; injection Hy as <-; exact EZ|]. destruct (Nat.eq_dec y x) as [-> |H2]; [congruence|]. rewrite Ho2 in Hy by assumption. exact (HO y cy Hy H2).
Qed.
Lemma drop_ok h r x : inv h r -> 0 < r x -> exists h', (exists n, forall m, n <= m -> drop m h x = Some h') /\ inv h' (sub r x) /\ kept h h'.
Proof.
  intros [HI HZ] Hr. destruct (h x) as [c|] eqn:Hx; [|contradiction (i_handles _ _ _ HI x Hr Hx)]. pose proof (i_rc _ _ _ HI x c Hx) as HR.
  set (h1 := upd h x (set_rc (pred (rc c)) c)). assert (HI1 : inv1 None h1 (sub r x)). { apply (set_rc_inv1 None h r x c _ _ HI Hx); [rewrite sub_same; lia|]. intros y HN. apply sub_other. exact HN. }
  assert (HK : kept h h1) by (apply set_rc_kept; exact Hx).
  assert (HD : forall m, drop m h x = if Nat.eqb (pred (rc c)) 0 then free m h1 x else Some h1).
  { intros m. unfold drop, dec_rc. rewrite Hx. unfold h1. destruct (rc c) as [|n]; [lia|]. reflexivity. }
  assert (Hx1 : h1 x = Some (set_rc (pred (rc c)) c)) by apply upd_same.
  destruct (Nat.eq_dec (pred (rc c)) 0) as [EZ|EZ].
  - destruct (chain_exists h1 (sub r x) x _ HI1 Hx1) as (l & HC & HND & _). destruct (free_ok l h1 (sub r x) x _ HC HND HI1 Hx1 EZ) as (h' & HF & HI' & HK' & _).
    { intros y cy Hy HN. unfold h1 in Hy. rewrite upd_other in Hy by exact HN. exact (HZ y cy Hy). }
    exists h'. split; [|split; [exact HI'|exact (kept_trans _ _ _ HK HK')]]. exists (S (List.length l)). intros m Hm. rewrite HD. apply Nat.eqb_eq in EZ. rewrite EZ. apply HF. lia.
  - exists h1. split; [|split; [|exact HK]]; [exists 0; intros m _; rewrite HD; apply Nat.eqb_neq in EZ; rewrite EZ; reflexivity|]. split; [exact HI1|]. intros y cy Hy. destruct (Nat.eq_dec y x) as [-> |HN]; [rewrite Hx1 in Hy; injection Hy as <-; exact EZ|].
    unfold h1 in Hy. rewrite upd_other in Hy by exact HN. exact (HZ y cy Hy).
Qed.

(** ** Respine *)
Definition same_shape (h h' : heap) : Prop := forall y,
  match h y, h' y with Some c, Some c' => rc c' = rc c /\ parent c' = parent c /\ index c' = index c /\ first c' = first c | None, None => True | _, _ => False end.
Lemma replace_nth_same {A} (l : list A) : forall i (x y : A), nth_error l i = Some x -> nth_error (replace_nth l i y) i = Some y.
Proof. induction l as [|a l IH]; intros [|i] x y H; try discriminate; cbn [replace_nth nth_error] in *; [reflexivity|eauto]. Qed.
Lemma replace_nth_other {A} (l : list A) : forall i j (y : A), j <> i -> nth_error (replace_nth l i y) j = nth_error l j.
Proof. induction l as [|a l IH]; intros [|i] [|j] y H; try reflexivity; try lia. cbn [replace_nth nth_error]. apply IH. lia. Qed.
Lemma sorted_unique h l x y : StronglySorted (fun x y => idx h x < idx h y) l -> In x l -> In y l -> idx h x = idx h y -> x = y.
Proof.
  induction 1 as [|a l HS IH HF]; intros Hx Hy HE; [destruct Hx|]. rewrite Forall_forall in HF. destruct Hx as [-> |Hx], Hy as [-> |Hy]; [reflexivity| | |exact (IH Hx Hy HE)].
  - specialize (HF y Hy). cbv beta in HF. lia.
  - specialize (HF x Hx). cbv beta in HF. lia.
Qed.
Lemma siblings_unique o h r x y cx cy p : inv1 o h r -> h x = Some cx -> h y = Some cy -> parent cx = Some p -> parent cy = Some p -> index cx = index cy -> x = y.
Proof.
  intros HI Hx Hy Px Py HE. destruct (i_parent _ _ _ HI x cx p Hx Px) as (cp & Hp & _ & Ix). destruct (i_parent _ _ _ HI y cy p Hy Py) as (cp' & Hp' & _ & Iy). rewrite Hp in Hp'. injection Hp' as <-.
  apply (sorted_unique h (first cp) x y (i_sorted _ _ _ HI p cp Hp) Ix Iy). unfold idx. rewrite Hx, Hy. exact HE.
Qed.
Lemma gnode_new k l : gnode (gnew seg k l) = true. Proof. unfold gnew. destruct (GreenModel.place _ _ _ _) as [cs [a b]]. reflexivity. Qed.
Lemma respine_ok l : forall h r x c g, chain h x l -> NoDup (x :: l) -> inv1 (Some (x, g)) h r -> h x = Some c -> gnode (cgreen c) = true -> built seg g ->
  exists h', (forall m, List.length l < m -> respine seg m h x g = Some h') /\ inv1 None h' r /\ same_shape h h' /\ (exists c', h' x = Some c' /\ cgreen c' = g) /\
    (forall y, ~ In y (x :: l) -> h' y = h y) /\
    (forall y cy cy', In y l -> h y = Some cy -> h' y = Some cy' -> gkind (cgreen cy') = gkind (cgreen cy) /\
       exists z cz cz', In z (x :: l) /\ h z = Some cz /\ h' z = Some cz' /\ parent cz = Some y /\ gchildren (cgreen cy') = replace_nth (gchildren (cgreen cy)) (index cz) (cgreen cz')).
Proof.
  induction l as [|p l IH]; intros h r x c g HC HND HI Hx HG HB.
  - assert (HP : parent c = None) by (inversion HC; congruence). exists (upd h x (set_green g c)).
    assert (Hx1 : upd h x (set_green g c) x = Some (set_green g c)) by apply upd_same. assert (Ho1 : forall y, y <> x -> upd h x (set_green g c) y = h y) by (intros y HN; apply upd_other; exact HN).
    revert Hx1 Ho1. set (h1 := upd h x (set_green g c)). intros Hx1 Ho1.
    assert (HIdx : forall y, idx h1 y = idx h y). { intros y. unfold idx. destruct (Nat.eq_dec y x) as [-> |HN]; [rewrite Hx1, Hx; reflexivity|rewrite Ho1 by exact HN; reflexivity]. }
    split; [|split; [|split; [|split; [|split]]]].
    + intros [|m] Hm; [lia|]. cbn [respine]. rewrite Hx, HG, HP. reflexivity.
    + constructor.
      * intros y cy q Hy HQ. assert (HNy : y <> x) by (intros ->; rewrite Hx1 in Hy; injection Hy as <-; cbn in HQ; congruence). rewrite Ho1 in Hy by exact HNy.
        destruct (i_parent _ _ _ HI y cy q Hy HQ) as (cq & A0 & A1 & A2). cbn [kids_of] in A1 |- *. destruct (Nat.eqb q x) eqn:E.
        -- apply Nat.eqb_eq in E as ->. exists (set_green g c). split; [exact Hx1|]. split; [exact A1|]. rewrite Hx in A0. injection A0 as <-. exact A2.
        -- apply Nat.eqb_neq in E. exists cq. rewrite Ho1 by exact E. auto.
      * intros q cq y Hq HIn. assert (exists cq0, h q = Some cq0 /\ first cq0 = first cq) as (cq0 & A0 & A1). { destruct (Nat.eq_dec q x) as [-> |HN]; [rewrite Hx1 in Hq; injection Hq as <-; eauto|rewrite Ho1 in Hq by exact HN; eauto]. }
        rewrite <- A1 in HIn. destruct (i_ring _ _ _ HI q cq0 y A0 HIn) as (cy & B0 & B1). destruct (Nat.eq_dec y x) as [-> |HN]; [exists (set_green g c); split; [exact Hx1|]; rewrite Hx in B0; injection B0 as <-; exact B1|]. exists cy. rewrite Ho1 by exact HN. auto.
      * intros q cq Hq. assert (exists cq0, h q = Some cq0 /\ first cq0 = first cq) as (cq0 & A0 & A1). { destruct (Nat.eq_dec q x) as [-> |HN]; [rewrite Hx1 in Hq; injection Hq as <-; eauto|rewrite Ho1 in Hq by exact HN; eauto]. }
        rewrite <- A1. refine (sorted_ext _ _ _ _ (i_sorted _ _ _ HI q cq0 A0)). intros a b _ _. rewrite !HIdx. auto.
      * intros y cy Hy. destruct (Nat.eq_dec y x) as [-> |HN]; [rewrite Hx1 in Hy; injection Hy as <-; exact (i_rc _ _ _ HI x c Hx)|]. rewrite Ho1 in Hy by exact HN. exact (i_rc _ _ _ HI y cy Hy).
      * intros y Hy. destruct (Nat.eq_dec y x) as [-> |HN]; [congruence|]. rewrite Ho1 by exact HN. exact (i_handles _ _ _ HI y Hy).
      * destruct (i_finite _ _ _ HI) as (k & Hk). exists (max k (S x)). intros y Hy. rewrite Ho1 by lia. apply Hk. lia.
      * intros y cy Hy. destruct (Nat.eq_dec y x) as [-> |HN]; [rewrite Hx1 in Hy; injection Hy as <-; exact HB|]. rewrite Ho1 in Hy by exact HN. exact (i_built _ _ _ HI y cy Hy).
    + intros y. destruct (Nat.eq_dec y x) as [-> |HN]; [rewrite Hx1, Hx; repeat split; reflexivity|]. rewrite Ho1 by exact HN. destruct (h y); auto.
    + eauto.
    + intros y Hy. apply Ho1. intros ->. apply Hy. left. reflexivity.
    + intros y cy cy' [].
  - inversion HC as [|x' c0 p' l' A HP HCp]; subst. rewrite Hx in A. injection A as <-. inversion HND as [|? ? HNI HNDp]; subst. assert (Hpx : p <> x) by (intros ->; apply HNI; left; reflexivity).
    destruct (i_parent _ _ _ HI x c p Hx HP) as (cp & Hp & HNth & HIn). cbn [kids_of] in HNth. replace (Nat.eqb p x) with false in HNth by (symmetry; apply Nat.eqb_neq; exact Hpx).
    pose proof (gchild_node _ _ _ HNth) as HGp. set (gp := replace_child seg (cgreen cp) (index c) g).
    assert (HKp : gchildren gp = replace_nth (gchildren (cgreen cp)) (index c) g) by (unfold gp, replace_child; apply gchildren_new).
    assert (HBp : built seg gp). { unfold gp, replace_child. constructor. pose proof (i_built _ _ _ HI p cp Hp) as HBcp. destruct (cgreen cp) as [|k n rl cs]; [discriminate|]. destruct (built_children seg k n rl cs HBcp) as [HF _]. unfold gchildren. cbn [gchildren_raw].
      revert HF. generalize (map as_ref cs), (index c). clear - HB. induction l as [|a l IH]; intros [|i] HF; inversion HF; subst; cbn [replace_nth]; constructor; auto. }
    assert (Hx1 : upd h x (set_green g c) x = Some (set_green g c)) by apply upd_same. assert (Ho1 : forall y, y <> x -> upd h x (set_green g c) y = h y) by (intros y HN; apply upd_other; exact HN).
    assert (HR1 : forall m, respine seg (S m) h x g = respine seg m (upd h x (set_green g c)) p gp).
    { intros m. cbn [respine]. rewrite Hx, HG, HP. cbv zeta. rewrite Ho1 by exact Hpx. rewrite Hp, HGp. reflexivity. }
    revert Hx1 Ho1 HR1. set (h1 := upd h x (set_green g c)). intros Hx1 Ho1 HR1.
    assert (HIdx : forall y, idx h1 y = idx h y). { intros y. unfold idx. destruct (Nat.eq_dec y x) as [-> |HN]; [rewrite Hx1, Hx; reflexivity|rewrite Ho1 by exact HN; reflexivity]. }
    assert (Hp1 : h1 p = Some cp) by (rewrite Ho1 by exact Hpx; exact Hp).
    assert (HI1 : inv1 (Some (p, gp)) h1 r).
    { constructor.
      - intros y cy q Hy HQ. destruct (Nat.eq_dec y x) as [-> |HNy].
        + rewrite Hx1 in Hy. injection Hy as <-. cbn [set_green parent index cgreen] in *. rewrite HP in HQ. injection HQ as <-. exists cp. split; [exact Hp1|]. split; [|exact HIn]. cbn [kids_of]. rewrite Nat.eqb_refl, HKp. exact (replace_nth_same _ _ _ _ HNth).
        + rewrite Ho1 in Hy by exact HNy. destruct (i_parent _ _ _ HI y cy q Hy HQ) as (cq & A0 & A1 & A2). cbn [kids_of] in A1 |- *. destruct (Nat.eq_dec q p) as [-> |Hqp].
          * rewrite Nat.eqb_refl. replace (Nat.eqb p x) with false in A1 by (symmetry; apply Nat.eqb_neq; exact Hpx). rewrite Hp in A0. injection A0 as <-. exists cp. split; [exact Hp1|]. split; [|exact A2]. rewrite HKp, replace_nth_other; [exact A1|].
            intros HE. apply HNy. exact (siblings_unique _ h r y x cy c p HI Hy Hx HQ HP HE).
          * replace (Nat.eqb q p) with false by (symmetry; apply Nat.eqb_neq; exact Hqp). destruct (Nat.eqb q x) eqn:E.
            -- apply Nat.eqb_eq in E as ->. exists (set_green g c). split; [exact Hx1|]. split; [exact A1|]. rewrite Hx in A0. injection A0 as <-. exact A2.
            -- apply Nat.eqb_neq in E. exists cq. rewrite Ho1 by exact E. auto.
      - intros q cq y Hq HInq. assert (exists cq0, h q = Some cq0 /\ first cq0 = first cq) as (cq0 & A0 & A1). { destruct (Nat.eq_dec q x) as [-> |HN]; [rewrite Hx1 in Hq; injection Hq as <-; eauto|rewrite Ho1 in Hq by exact HN; eauto]. }
        rewrite <- A1 in HInq. destruct (i_ring _ _ _ HI q cq0 y A0 HInq) as (cy & B0 & B1). destruct (Nat.eq_dec y x) as [-> |HN]; [exists (set_green g c); split; [exact Hx1|]; rewrite Hx in B0; injection B0 as <-; exact B1|]. exists cy. rewrite Ho1 by exact HN. auto.
      - intros q cq Hq. assert (exists cq0, h q = Some cq0 /\ first cq0 = first cq) as (cq0 & A0 & A1). { destruct (Nat.eq_dec q x) as [-> |HN]; [rewrite Hx1 in Hq; injection Hq as <-; eauto|rewrite Ho1 in Hq by exact HN; eauto]. }
        rewrite <- A1. refine (sorted_ext _ _ _ _ (i_sorted _ _ _ HI q cq0 A0)). intros a b _ _. rewrite !HIdx. auto.
      - intros y cy Hy. destruct (Nat.eq_dec y x) as [-> |HN]; [rewrite Hx1 in Hy; injection Hy as <-; exact (i_rc _ _ _ HI x c Hx)|]. rewrite Ho1 in Hy by exact HN. exact (i_rc _ _ _ HI y cy Hy).
      - intros y Hy. destruct (Nat.eq_dec y x) as [-> |HN]; [congruence|]. rewrite Ho1 by exact HN. exact (i_handles _ _ _ HI y Hy).
      - destruct (i_finite _ _ _ HI) as (k & Hk). exists (max k (S x)). intros y Hy. rewrite Ho1 by lia. apply Hk. lia.
      - intros y cy Hy. destruct (Nat.eq_dec y x) as [-> |HN]; [rewrite Hx1 in Hy; injection Hy as <-; exact HB|]. rewrite Ho1 in Hy by exact HN. exact (i_built _ _ _ HI y cy Hy). }
    assert (HC1 : chain h1 p l). { refine (chain_ext h h1 p l _ HCp). intros y cy Hy0 Hy. rewrite Ho1; [eauto|]. intros ->. apply HNI. exact Hy0. }
    destruct (IH h1 r p cp gp HC1 HNDp HI1 Hp1 HGp HBp) as (h' & HR' & HI' & HS' & (cp' & Hp' & HGp') & HO' & HL'). exists h'.
    assert (Hx' : h' x = Some (set_green g c)) by (rewrite HO' by exact HNI; exact Hx1).
    split; [|split; [exact HI'|split; [|split; [|split]]]].
    + intros [|m] Hm; [cbn in Hm; lia|]. rewrite HR1. apply HR'. cbn in Hm. lia.
    + intros y. specialize (HS' y). destruct (Nat.eq_dec y x) as [-> |HN]; [rewrite Hx1 in HS'; rewrite Hx; exact HS'|]. rewrite Ho1 in HS' by exact HN. exact HS'.
    + eauto.
    + intros y Hy. rewrite HO' by (intros HIny; apply Hy; right; exact HIny). apply Ho1. intros ->. apply Hy. left. reflexivity.
    + intros y cy cy' [<- |Hyl] Hy Hy'.
      * rewrite Hp in Hy. injection Hy as <-. rewrite Hp' in Hy'. injection Hy' as <-. rewrite HGp'. split; [unfold gp, replace_child; apply gkind_new|]. exists x, c, (set_green g c). split; [left; reflexivity|]. auto.
      * assert (HNy : y <> x) by (intros ->; apply HNI; right; exact Hyl). assert (Hy1 : h1 y = Some cy) by (rewrite Ho1 by exact HNy; exact Hy). destruct (HL' y cy cy' Hyl Hy1 Hy') as (HK & z & cz & cz' & Hz & B0 & B1 & B2 & B3). split; [exact HK|].
        assert (HNz : z <> x) by (intros ->; apply HNI; exact Hz). rewrite Ho1 in B0 by exact HNz. exists z, cz, cz'. split; [right; exact Hz|]. auto.
Qed.

(** ** The sorted list *)
Definition shift (from : nat) (f : nat -> nat) (c : cell) : cell := if from <=? index c then set_index (f (index c)) c else c.
Lemma adjust_ok l from f : forall h, NoDup l -> (forall x, In x l -> h x <> None) ->
  exists h', adjust h l from f = Some h' /\ forall y, h' y = if in_dec Nat.eq_dec y l then option_map (shift from f) (h y) else h y.
Proof.
  induction l as [|x l IH]; intros h HND HL; [exists h; split; [reflexivity|]; intros y; destruct (in_dec _ _ _) as [[]|]; reflexivity|].
  inversion HND as [|? ? HNI HND']; subst. cbn [adjust]. unfold modify. destruct (h x) as [c|] eqn:Hx; [|contradiction (HL x (or_introl eq_refl) Hx)]. fold (shift from f c).
  destruct (IH (upd h x (shift from f c)) HND') as (h' & HA & HE). { intros y Hy. destruct (Nat.eq_dec y x) as [-> |HN]; [rewrite upd_same; discriminate|]. rewrite upd_other by exact HN. apply HL. right. exact Hy. }
  exists h'. split; [exact HA|]. intros y. rewrite HE. destruct (Nat.eq_dec y x) as [-> |HN].
  - destruct (in_dec Nat.eq_dec x l) as [HIn|_]; [contradiction|]. destruct (in_dec Nat.eq_dec x (x :: l)) as [_|HNI']; [|exfalso; apply HNI'; left; reflexivity]. rewrite upd_same, Hx. reflexivity.
  - rewrite upd_other by exact HN. destruct (in_dec Nat.eq_dec y l) as [HIn|HNIn], (in_dec Nat.eq_dec y (x :: l)) as [HIn'|HNIn']; try reflexivity; exfalso; [apply HNIn'; right; exact HIn|destruct HIn' as [<- |HIn']; [apply HN; reflexivity|exact (HNIn HIn')]].
Qed.
Lemma keys_ok h l : (forall x, In x l -> h x <> None) -> keys h l = Some (map (fun x => (x, idx h x)) l).
Proof.
  induction l as [|x l IH]; intros HL; [reflexivity|]. cbn [keys map]. unfold idx at 1. destruct (h x) as [c|] eqn:Hx; [|contradiction (HL x (or_introl eq_refl) Hx)]. rewrite IH by (intros y Hy; apply HL; right; exact Hy). reflexivity.
Qed.
Lemma sorted_nodup h l : StronglySorted (fun x y => idx h x < idx h y) l -> NoDup l.
Proof. induction 1 as [|a l HS IH HF]; constructor; [|exact IH]. intros HIn. rewrite Forall_forall in HF. specialize (HF a HIn). cbv beta in HF. lia. Qed.
Lemma insert_after_ok e x l1 l2 : ~ In e l1 -> insert_after e x (l1 ++ e :: l2) = l1 ++ e :: x :: l2.
Proof.
  induction l1 as [|y l1 IH]; intros H; cbn [app insert_after]; [rewrite Nat.eqb_refl; reflexivity|]. replace (Nat.eqb y e) with false by (symmetry; apply Nat.eqb_neq; intros ->; apply H; left; reflexivity). f_equal. apply IH. intros HIn. apply H. right. exact HIn.
Qed.
Lemma find_rev {A} (f : A -> bool) l e : find f (rev l) = Some e -> exists l1 l2, l = l1 ++ e :: l2 /\ f e = true /\ Forall (fun x => f x = false) l2.
Proof.
  induction l as [|x l IH]; cbn [rev]; [discriminate|]. assert (HF : forall a b : list A, find f (a ++ b) = match find f a with Some y => Some y | None => find f b end).
  { clear. induction a as [|y a IH]; intros b; [reflexivity|]. cbn [app find]. destruct (f y); [reflexivity|apply IH]. }
  rewrite HF. destruct (find f (rev l)) as [y|] eqn:E.
  - intros H. injection H as ->. destruct (IH eq_refl) as (l1 & l2 & -> & HE & HA). exists (x :: l1), l2. auto.
  - cbn [find]. destruct (f x) eqn:Ex; [|discriminate]. intros H. injection H as <-. exists [], l. split; [reflexivity|]. split; [exact Ex|]. apply Forall_forall. intros y Hy. apply (find_none f (rev l) E). apply in_rev. rewrite rev_involutive. exact Hy.
Qed.
Lemma sorted_app h l1 l2 : StronglySorted (fun x y => idx h x < idx h y) (l1 ++ l2) -> forall x y, In x l1 -> In y l2 -> idx h x < idx h y.
Proof. induction l1 as [|a l1 IH]; intros HS x y Hx Hy; [destruct Hx|]. inversion HS as [|? ? HS' HF]; subst. destruct Hx as [-> |Hx]; [|exact (IH HS' x y Hx Hy)]. rewrite Forall_forall in HF. apply HF. apply in_app_iff. right. exact Hy. Qed.
Lemma link_ok h l key x : StronglySorted (fun x y => idx h x < idx h y) l ->
  match link (map (fun x => (x, idx h x)) l) key with
  | Already e => In e l /\ idx h e = key
  | Loops => False
  | pl => exists l1 l2, l = l1 ++ l2 /\ add_to pl x l = l1 ++ x :: l2 /\ Forall (fun y => idx h y < key) l1 /\ Forall (fun y => key < idx h y) l2
  end.
Proof.
  intros HS. unfold link. destruct l as [|a l]; cbn [map]; [exists [], []; repeat split; constructor|]. destruct (key <? idx h a) eqn:EK.
  - apply Nat.ltb_lt in EK. exists [], (a :: l). repeat split; [constructor|]. inversion HS as [|? ? HS' HF]; subst. constructor; [exact EK|]. eapply Forall_impl; [|exact HF]. cbv beta. intros y Hy. lia.
  - apply Nat.ltb_ge in EK. change ((a, idx h a) :: map (fun x => (x, idx h x)) l) with (map (fun x => (x, idx h x)) (a :: l)). rewrite <- map_rev.
    assert (HM : forall m, find (fun e : nat * nat => snd e <=? key) (map (fun x => (x, idx h x)) m) = option_map (fun x => (x, idx h x)) (find (fun x => idx h x <=? key) m)).
    { clear. induction m as [|y m IH]; [reflexivity|]. cbn [map find snd]. destruct (idx h y <=? key); [reflexivity|exact IH]. }
    rewrite HM. destruct (find (fun x => idx h x <=? key) (rev (a :: l))) as [e|] eqn:EF; cbn [option_map].
    + destruct (find_rev _ _ _ EF) as (l1 & l2 & HL & HE & HF). apply Nat.leb_le in HE. rewrite HL in HS |- *. assert (HNI : ~ In e l1). { intros HIn. pose proof (sorted_app h l1 (e :: l2) HS e e HIn (or_introl eq_refl)). lia. }
      destruct (idx h e <? key) eqn:EL.
      * apply Nat.ltb_lt in EL. exists (l1 ++ [e]), l2. rewrite <- app_assoc. split; [reflexivity|]. cbn [add_to]. rewrite insert_after_ok by exact HNI. rewrite <- app_assoc. split; [reflexivity|]. split.
        -- apply Forall_app. split; [|constructor; [exact EL|constructor]]. apply Forall_forall. intros y Hy. pose proof (sorted_app h l1 (e :: l2) HS y e Hy (or_introl eq_refl)). lia.
        -- eapply Forall_impl; [|exact HF]. cbv beta. intros y Hy. apply Nat.leb_gt in Hy. exact Hy.
      * apply Nat.ltb_ge in EL. split; [apply in_app_iff; right; left; reflexivity|lia].
    + pose proof (find_none _ _ EF a) as HN. cbv beta in HN. apply Nat.leb_le in EK. rewrite EK in HN. discriminate HN. apply in_rev. rewrite rev_involutive. left. reflexivity.
Qed.
Lemma sorted_insert h l1 l2 x : StronglySorted (fun x y => idx h x < idx h y) (l1 ++ l2) -> Forall (fun y => idx h y < idx h x) l1 -> Forall (fun y => idx h x < idx h y) l2 -> StronglySorted (fun x y => idx h x < idx h y) (l1 ++ x :: l2).
Proof.
  induction l1 as [|a l1 IH]; intros HS H1 H2; cbn [app] in *; [constructor; assumption|]. inversion HS as [|? ? HS' HF]; subst. inversion H1; subst. constructor; [apply IH; assumption|].
  rewrite Forall_app in HF. destruct HF as [HF1 HF2]. apply Forall_app. split; [exact HF1|]. constructor; assumption.
Qed.

(** ** New handles *)
Context (alloc : heap -> nat) (alloc_fresh : fresh alloc).
Lemma new_root_ok h r g : inv h r -> built seg g ->
  let (h', x) := new_root alloc h g in h x = None /\ inv h' (add r x) /\ (forall y, y <> x -> h' y = h y) /\ h' x = Some (MkCell 1 None 0 g []).
Proof.
  intros [HI HZ] HB. unfold new_root. pose proof (alloc_fresh h) as HA. revert HA. generalize (alloc h). intros x HA. cbv zeta.
  set (h1 := upd h x (MkCell 1 None 0 g [])). assert (Hx1 : h1 x = Some (MkCell 1 None 0 g [])) by apply upd_same. assert (Ho1 : forall y, y <> x -> h1 y = h y) by (intros y HN; apply upd_other; exact HN).
  split; [exact HA|]. split; [|auto]. assert (HLive : forall y c, h y = Some c -> y <> x) by (intros y c Hy ->; congruence).
  assert (HRx : r x = 0). { destruct (r x) eqn:E; [reflexivity|]. exfalso. apply (i_handles _ _ _ HI x); [lia|exact HA]. }
  split.
  - constructor.
    + intros y cy q Hy HQ. destruct (Nat.eq_dec y x) as [-> |HN]; [rewrite Hx1 in Hy; injection Hy as <-; discriminate|]. rewrite Ho1 in Hy by exact HN. destruct (i_parent _ _ _ HI y cy q Hy HQ) as (cq & A0 & A1). exists cq. rewrite Ho1 by exact (HLive q cq A0). auto.
    + intros q cq y Hq HIn. destruct (Nat.eq_dec q x) as [-> |HN]; [rewrite Hx1 in Hq; injection Hq as <-; destruct HIn|]. rewrite Ho1 in Hq by exact HN. destruct (i_ring _ _ _ HI q cq y Hq HIn) as (cy & A0 & A1). exists cy. rewrite Ho1 by exact (HLive y cy A0). auto.
    + intros q cq Hq. destruct (Nat.eq_dec q x) as [-> |HN]; [rewrite Hx1 in Hq; injection Hq as <-; constructor|]. rewrite Ho1 in Hq by exact HN. refine (sorted_ext _ _ _ _ (i_sorted _ _ _ HI q cq Hq)). intros a b Ha Hb.
      assert (HNX : forall z, In z (first cq) -> idx h1 z = idx h z). { intros z Hz. destruct (i_ring _ _ _ HI q cq z Hq Hz) as (cz & A0 & _). unfold idx. rewrite Ho1 by exact (HLive z cz A0). reflexivity. }
      rewrite !HNX by assumption. auto.
    + intros y cy Hy. destruct (Nat.eq_dec y x) as [-> |HN]; [rewrite Hx1 in Hy; injection Hy as <-; rewrite add_same, HRx; reflexivity|]. rewrite Ho1 in Hy by exact HN. rewrite add_other by exact HN. exact (i_rc _ _ _ HI y cy Hy).
    + intros y Hy. destruct (Nat.eq_dec y x) as [-> |HN]; [congruence|]. rewrite Ho1 by exact HN. rewrite add_other in Hy by exact HN. exact (i_handles _ _ _ HI y Hy).
    + destruct (i_finite _ _ _ HI) as (k & Hk). exists (max k (S x)). intros y Hy. rewrite Ho1 by lia. apply Hk. lia.
    + intros y cy Hy. destruct (Nat.eq_dec y x) as [-> |HN]; [rewrite Hx1 in Hy; injection Hy as <-; exact HB|]. rewrite Ho1 in Hy by exact HN. exact (i_built _ _ _ HI y cy Hy).
  - intros y cy Hy. destruct (Nat.eq_dec y x) as [-> |HN]; [rewrite Hx1 in Hy; injection Hy as <-; discriminate|]. rewrite Ho1 in Hy by exact HN. exact (HZ y cy Hy).
Qed.
(** the cells of [h] are all there in [h'], with the same parent, index and tree *)
Definition grown (h h' : heap) : Prop := forall x c, h x = Some c -> exists c', h' x = Some c' /\ parent c' = parent c /\ index c' = index c /\ cgreen c' = cgreen c.
Lemma grown_refl h : grown h h. Proof. intros x c H. eauto. Qed.
Lemma grown_trans a b c : grown a b -> grown b c -> grown a c.
Proof. intros H1 H2 x c' H. destruct (H1 x c' H) as (c1 & A & B & C & D). destruct (H2 x c1 A) as (c2 & A' & B' & C' & D'). exists c2. repeat split; congruence. Qed.
Lemma set_rc_grown h x c n : h x = Some c -> grown h (upd h x (set_rc n c)).
Proof. intros Hx y cy Hy. destruct (Nat.eq_dec y x) as [-> |HN]; [rewrite upd_same; rewrite Hx in Hy; injection Hy as <-; eauto|rewrite upd_other by exact HN; eauto]. Qed.
Lemma inc_inv h r x c : inv h r -> h x = Some c -> exists h', inc_rc h x = Some h' /\ inv h' (add r x) /\ grown h h' /\ kept h h'.
Proof.
  intros [HI HZ] Hx. destruct (inc_ok None h r x c HI Hx) as [A B]. exists (upd h x (set_rc (S (rc c)) c)). split; [exact A|]. split; [|split; [apply set_rc_grown; exact Hx|apply set_rc_kept; exact Hx]].
  split; [exact B|]. intros y cy Hy. destruct (Nat.eq_dec y x) as [-> |HN]; [rewrite upd_same in Hy; injection Hy as <-; discriminate|]. rewrite upd_other in Hy by exact HN. exact (HZ y cy Hy).
Qed.
Lemma child_ok h r p cp i g : inv h r -> h p = Some cp -> nth_error (gchildren (cgreen cp)) i = Some g ->
  exists h' x, (forall m, child alloc m h p i = Some (h', x)) /\ inv h' (add r x) /\ grown h h' /\
    (forall y c', h' y = Some c' -> y = x \/ exists c, h y = Some c /\ parent c' = parent c /\ index c' = index c /\ cgreen c' = cgreen c) /\
    (exists c, h' x = Some c /\ parent c = Some p /\ index c = i /\ cgreen c = g).
Proof.
  intros [HI HZ] Hp HN. destruct (inc_ok None h r p cp HI Hp) as [HInc HI1]. set (h1 := upd h p (set_rc (S (rc cp)) cp)) in *. set (cp1 := set_rc (S (rc cp)) cp) in *.
  assert (Hp1 : h1 p = Some cp1) by apply upd_same. assert (Ho1 : forall y, y <> p -> h1 y = h y) by (intros y HNy; apply upd_other; exact HNy).
  assert (HZ1 : forall y cy, h1 y = Some cy -> rc cy <> 0). { intros y cy Hy. destruct (Nat.eq_dec y p) as [-> |HNy]; [rewrite Hp1 in Hy; injection Hy as <-; discriminate|]. rewrite Ho1 in Hy by exact HNy. exact (HZ y cy Hy). }
  pose proof (set_rc_grown h p cp (S (rc cp)) Hp) as HG1. fold cp1 h1 in HG1. pose proof (set_rc_kept h p cp (S (rc cp)) Hp) as HK1. fold cp1 h1 in HK1.
  assert (HLive : forall y, In y (first cp1) -> h1 y <> None) by (intros y Hy; destruct (i_ring _ _ _ HI1 p cp1 y Hp1 Hy) as (cy & A & _); congruence).
  pose proof (keys_ok h1 (first cp1) HLive) as HKeys. pose proof (link_ok h1 (first cp1) i (alloc h1) (i_sorted _ _ _ HI1 p cp1 Hp1)) as HLink.
  assert (HChild : forall m, child alloc m h p i = match link (map (fun x => (x, idx h1 x)) (first cp1)) i with
    | Already e => match drop m h1 p with Some h2 => match inc_rc h2 e with Some h3 => Some (h3, e) | None => None end | None => None end
    | Loops => None
    | pl => match modify (upd h1 (alloc h1) (MkCell 1 (Some p) i g [])) p (fun c => set_first (add_to pl (alloc h1) (first c)) c) with Some h2 => Some (h2, alloc h1) | None => None end end).
  { intros m. unfold child. rewrite HInc, Hp1. cbn [cp1 set_rc cgreen]. rewrite HN. fold cp1. rewrite HKeys. destruct (link _ i); reflexivity. }
  assert (HNew : forall pl l1 l2, first cp1 = l1 ++ l2 -> add_to pl (alloc h1) (first cp1) = l1 ++ alloc h1 :: l2 -> Forall (fun y => idx h1 y < i) l1 -> Forall (fun y => i < idx h1 y) l2 ->
    exists h2, modify (upd h1 (alloc h1) (MkCell 1 (Some p) i g [])) p (fun c => set_first (add_to pl (alloc h1) (first c)) c) = Some h2 /\ inv h2 (add r (alloc h1)) /\ grown h h2 /\
     (forall y c', h2 y = Some c' -> y = alloc h1 \/ exists c, h y = Some c /\ parent c' = parent c /\ index c' = index c /\ cgreen c' = cgreen c) /\ (exists c, h2 (alloc h1) = Some c /\ parent c = Some p /\ index c = i /\ cgreen c = g)).
  { intros pl l1 l2 HL HAdd H1 H2. pose proof (alloc_fresh h1) as HA. revert HAdd HA. generalize (alloc h1). intros x HAdd HA.
    assert (Hpx : p <> x) by congruence. unfold modify. rewrite upd_other by exact Hpx. rewrite Hp1. rewrite HAdd. set (cp2 := set_first (l1 ++ x :: l2) cp1). set (cx := MkCell 1 (Some p) i g []).
    set (h2 := upd (upd h1 x cx) p cp2). exists h2. assert (Hp2 : h2 p = Some cp2) by apply upd_same. assert (Hx2 : h2 x = Some cx) by (unfold h2; rewrite upd_other by auto; apply upd_same).
    assert (Ho2 : forall y, y <> p -> y <> x -> h2 y = h1 y) by (intros y A B; unfold h2; rewrite upd_other by exact A; apply upd_other; exact B).
    assert (HLx : forall y c, h1 y = Some c -> y <> x) by (intros y c Hy ->; congruence).
    assert (HO : forall y c', h2 y = Some c' -> y = x \/ exists c, h1 y = Some c /\ parent c' = parent c /\ index c' = index c /\ cgreen c' = cgreen c).
    { intros y c' Hy. destruct (Nat.eq_dec y x) as [-> |HNx]; [left; reflexivity|]. right. destruct (Nat.eq_dec y p) as [-> |HNp]; [rewrite Hp2 in Hy; injection Hy as <-; exists cp1; auto|]. rewrite Ho2 in Hy by assumption. eauto. }
    assert (HG2 : grown h1 h2). { intros y c Hy. destruct (Nat.eq_dec y p) as [-> |HNp]; [exists cp2; rewrite Hp1 in Hy; injection Hy as <-; auto|]. exists c. rewrite Ho2 by (try exact HNp; exact (HLx y c Hy)). auto. }
    assert (HIdx : forall y, y <> x -> idx h2 y = idx h1 y). { intros y HNx. unfold idx. destruct (Nat.eq_dec y p) as [-> |HNp]; [rewrite Hp2, Hp1; reflexivity|]. rewrite Ho2 by assumption. reflexivity. }
    assert (HIdxx : idx h2 x = i) by (unfold idx; rewrite Hx2; reflexivity).
    assert (HRx : r x = 0). { destruct (r x) eqn:E; [reflexivity|]. exfalso. apply (i_handles _ _ _ HI1 x); [rewrite add_other by auto; lia|exact HA]. }
    split; [reflexivity|]. split; [|split; [exact (grown_trans _ _ _ HG1 HG2)|split; [|exists cx; auto]]].
    - split.
      + constructor.
        * intros y cy q Hy HQ. destruct (HO y cy Hy) as [-> |(c0 & A0 & A1 & A2 & A3)].
          -- rewrite Hx2 in Hy. injection Hy as <-. injection HQ as <-. exists cp2. split; [exact Hp2|]. split; [exact HN|]. cbn. apply in_app_iff. right. left. reflexivity.
          -- rewrite A1 in HQ. destruct (i_parent _ _ _ HI1 y c0 q A0 HQ) as (cq & B0 & B1 & B2). rewrite A2, A3. destruct (Nat.eq_dec q p) as [-> |HNp].
             ++ exists cp2. split; [exact Hp2|]. rewrite Hp1 in B0. injection B0 as <-. split; [exact B1|]. cbn. rewrite HL in B2. apply in_app_iff in B2. apply in_app_iff. cbn [In]. tauto.
             ++ exists cq. rewrite Ho2 by (try exact HNp; exact (HLx q cq B0)). auto.
        * intros q cq y Hq HIn. destruct (Nat.eq_dec q p) as [-> |HNp].
          -- rewrite Hp2 in Hq. injection Hq as <-. cbn in HIn. destruct (Nat.eq_dec y x) as [-> |HNx]; [exists cx; auto|]. assert (HIn1 : In y (first cp1)). { rewrite HL. apply in_app_iff in HIn as [HIn|[HIn|HIn]]; [apply in_app_iff; auto|congruence|apply in_app_iff; auto]. }
             destruct (i_ring _ _ _ HI1 p cp1 y Hp1 HIn1) as (cy & A0 & A1). destruct (HG2 y cy A0) as (cy' & B0 & B1 & _). exists cy'. split; [exact B0|congruence].
          -- destruct (Nat.eq_dec q x) as [-> |HNx]; [rewrite Hx2 in Hq; injection Hq as <-; destruct HIn|]. rewrite Ho2 in Hq by assumption. destruct (i_ring _ _ _ HI1 q cq y Hq HIn) as (cy & A0 & A1). destruct (HG2 y cy A0) as (cy' & B0 & B1 & _). exists cy'. split; [exact B0|congruence].
        * intros q cq Hq. assert (HExt : forall l, (forall z, In z l -> h1 z <> None) -> StronglySorted (fun a b => idx h1 a < idx h1 b) l -> StronglySorted (fun a b => idx h2 a < idx h2 b) l).
          { intros l Hl. apply sorted_ext. intros a b Ha Hb. rewrite !HIdx; [auto|intros ->; exact (Hl x Hb HA)|intros ->; exact (Hl x Ha HA)]. }
          destruct (Nat.eq_dec q p) as [-> |HNp].
          -- rewrite Hp2 in Hq. injection Hq as <-. cbn. apply sorted_insert.
             ++ rewrite <- HL. apply HExt; [exact HLive|exact (i_sorted _ _ _ HI1 p cp1 Hp1)].
             ++ rewrite Forall_forall in *. intros y Hy. rewrite HIdxx, HIdx; [exact (H1 y Hy)|]. intros ->. apply (HLive x); [rewrite HL; apply in_app_iff; auto|exact HA].
             ++ rewrite Forall_forall in *. intros y Hy. rewrite HIdxx, HIdx; [exact (H2 y Hy)|]. intros ->. apply (HLive x); [rewrite HL; apply in_app_iff; auto|exact HA].
          -- destruct (Nat.eq_dec q x) as [-> |HNx]; [rewrite Hx2 in Hq; injection Hq as <-; constructor|]. rewrite Ho2 in Hq by assumption. apply HExt; [|exact (i_sorted _ _ _ HI1 q cq Hq)]. intros z Hz. destruct (i_ring _ _ _ HI1 q cq z Hq Hz) as (cz & A0 & _). congruence.
        * intros y cy Hy. destruct (Nat.eq_dec y p) as [-> |HNp].
          -- rewrite Hp2 in Hy. injection Hy as <-. cbn [cp2 set_first rc first]. rewrite add_other by exact Hpx. pose proof (i_rc _ _ _ HI1 p cp1 Hp1) as HR. rewrite add_same, HL, app_length in HR. rewrite app_length. cbn [List.length]. lia.
          -- destruct (Nat.eq_dec y x) as [-> |HNx]; [rewrite Hx2 in Hy; injection Hy as <-; rewrite add_same, HRx; reflexivity|]. rewrite Ho2 in Hy by assumption. rewrite add_other by exact HNx. rewrite (i_rc _ _ _ HI1 y cy Hy), add_other by exact HNp. reflexivity.
        * intros y Hy. destruct (Nat.eq_dec y x) as [-> |HNx]; [congruence|]. rewrite add_other in Hy by exact HNx. destruct (Nat.eq_dec y p) as [-> |HNp]; [congruence|]. rewrite Ho2 by assumption. apply (i_handles _ _ _ HI1). rewrite add_other by exact HNp. exact Hy.
        * destruct (i_finite _ _ _ HI1) as (k & Hk). exists (max k (S (max x p))). intros y Hy. rewrite Ho2 by lia. apply Hk. lia.
        * intros y cy Hy. destruct (HO y cy Hy) as [-> |(c0 & A0 & A1 & A2 & A3)]; [|rewrite A3; exact (i_built _ _ _ HI1 y c0 A0)]. rewrite Hx2 in Hy. injection Hy as <-. cbn [cx cgreen].
          pose proof (i_built _ _ _ HI p cp Hp) as HB. destruct (cgreen cp) as [|k n rl cs]; [destruct i; discriminate|]. destruct (built_children seg k n rl cs HB) as [HF _]. rewrite Forall_forall in HF. apply HF. exact (nth_error_In _ _ HN).
      + intros y cy Hy. destruct (Nat.eq_dec y p) as [-> |HNp]; [rewrite Hp2 in Hy; injection Hy as <-; discriminate|]. destruct (Nat.eq_dec y x) as [-> |HNx]; [rewrite Hx2 in Hy; injection Hy as <-; discriminate|]. rewrite Ho2 in Hy by assumption. exact (HZ1 y cy Hy).
    - intros y c' Hy. destruct (HO y c' Hy) as [-> |(c0 & A0 & A1 & A2 & A3)]; [left; reflexivity|]. right. destruct (HK1 y c0 A0) as (c & B0 & B1 & B2 & B3). exists c. repeat split; congruence. }
  destruct (link _ i) as [| |e|e|] eqn:EL.
  - destruct HLink as (l1 & l2 & A & B & C & D). destruct (HNew EmptyHead l1 l2 A B C D) as (h2 & E2 & HR). exists h2, (alloc h1). split; [intros m; rewrite HChild, E2; reflexivity|exact HR].
  - destruct HLink as (l1 & l2 & A & B & C & D). destruct (HNew SmallerThanHead l1 l2 A B C D) as (h2 & E2 & HR). exists h2, (alloc h1). split; [intros m; rewrite HChild, E2; reflexivity|exact HR].
  - destruct HLink as (l1 & l2 & A & B & C & D). destruct (HNew (After e) l1 l2 A B C D) as (h2 & E2 & HR). exists h2, (alloc h1). split; [intros m; rewrite HChild, E2; reflexivity|exact HR].
  - destruct HLink as [HIn HIdx]. destruct (i_ring _ _ _ HI1 p cp1 e Hp1 HIn) as (ce1 & He1 & HPe).
    destruct (HK1 e ce1 He1) as (ce & He & HPe' & HIe & HGe). 
    assert (Hep : e <> p). { intros ->. rewrite Hp in He. injection He as <-. destruct (i_parent _ _ _ HI p cp p Hp) as (cp' & A & B & _); [congruence|]. rewrite Hp in A. injection A as <-. apply gchild_size in B. lia. }
    set (h2 := upd h1 p (set_rc (rc cp) cp1)). assert (HD : forall m, drop m h1 p = Some h2).
    { intros m. unfold drop, dec_rc. rewrite Hp1. cbn [cp1 set_rc rc]. assert (HRp : rc cp <> 0) by exact (HZ p cp Hp). apply Nat.eqb_neq in HRp. rewrite HRp. reflexivity. }
    assert (E2 : forall y, h y = h2 y). { intros y. unfold h2. destruct (Nat.eq_dec y p) as [-> |HNp]; [rewrite upd_same, Hp; destruct cp; reflexivity|]. rewrite upd_other by exact HNp. rewrite Ho1 by exact HNp. reflexivity. }
    assert (HI2 : inv h2 r) by (apply (inv_ext h h2 r r E2); [reflexivity|split; assumption]). assert (He2 : h2 e = Some ce) by (rewrite <- E2; exact He).
    destruct (inc_inv h2 r e ce HI2 He2) as (h3 & HInc3 & HI3 & HG3 & HK3). exists h3, e. split; [intros m; rewrite HChild, HD, HInc3; reflexivity|]. split; [exact HI3|].
    assert (HG02 : grown h h2) by (intros y c Hy; exists c; rewrite <- E2; auto).
    split; [exact (grown_trans _ _ _ HG02 HG3)|]. split.
    + intros y c' Hy. right. destruct (HK3 y c' Hy) as (c0 & A0 & A1). rewrite <- E2 in A0. eauto.
    + destruct (HG3 e ce He2) as (c' & A0 & A1 & A2 & A3). exists c'. split; [exact A0|]. split; [congruence|]. assert (HII : index ce = i). { unfold idx in HIdx. rewrite He1 in HIdx. congruence. } split; [congruence|].
      destruct (i_parent _ _ _ HI e ce p He) as (cp' & B0 & B1 & _); [congruence|]. rewrite Hp in B0. injection B0 as <-. cbn [kids_of] in B1. rewrite HII, HN in B1. congruence.
  - destruct HLink.
Qed.

(** ** What an edit below [p] does to the trees above *)
Lemma built_eq g g' : built seg g -> built seg g' -> gnode g = true -> gnode g' = true -> gkind g = gkind g' -> gchildren g = gchildren g' -> g = g'.
Proof.
  intros HB HB' HN HN' HK HC. destruct g as [|k n rl cs]; [discriminate|]. destruct g' as [|k' n' rl' cs']; [discriminate|].
  destruct (built_children seg _ _ _ _ HB) as [_ <-]. destruct (built_children seg _ _ _ _ HB') as [_ <-]. cbn in HK, HC. subst k'. rewrite HC. reflexivity.
Qed.
Lemma chain_parent h x l : chain h x l -> forall z c y, In z (x :: l) -> h z = Some c -> parent c = Some y -> In y l.
Proof.
  induction 1 as [x c0 Hx HP|x c0 p l Hx HP HC IH]; intros z c y HIn Hz HPz.
  - destruct HIn as [<- |[]]. congruence.
  - destruct HIn as [<- |HIn]; [left; congruence|right; exact (IH z c y HIn Hz HPz)].
Qed.
Lemma chain_child_unique h x l : chain h x l -> NoDup (x :: l) -> forall z z' c c' y, In z (x :: l) -> In z' (x :: l) -> h z = Some c -> h z' = Some c' -> parent c = Some y -> parent c' = Some y -> z = z'.
Proof.
  induction 1 as [x c0 Hx HP|x c0 p l Hx HP HC IH]; intros HND z z' c c' y HIn HIn' Hz Hz' HPz HPz'.
  - destruct HIn as [<- |[]]. congruence.
  - inversion HND as [|? ? HNI HND']; subst. destruct HIn as [<- |HIn], HIn' as [<- |HIn'].
    + reflexivity.
    + exfalso. assert (y = p) by congruence. subst y. pose proof (chain_parent _ _ _ HC z' c' p HIn' Hz' HPz'). inversion HND'; contradiction.
    + exfalso. assert (y = p) by congruence. subst y. pose proof (chain_parent _ _ _ HC z c p HIn Hz HPz). inversion HND'; contradiction.
    + exact (IH HND' z z' c c' y HIn HIn' Hz Hz' HPz HPz').
Qed.
Lemma chain_live h x l : chain h x l -> forall y, In y (x :: l) -> h y <> None.
Proof. induction 1 as [x c0 Hx HP|x c0 p l Hx HP HC IH]; intros y [<- |HIn]; try congruence; [destruct HIn|exact (IH y HIn)]. Qed.
Lemma path_chain h y p js : path h y p js -> forall l, chain h p l -> In y (p :: l).
Proof.
  induction 1 as [p|y z c js p Hz HP HPath IH]; intros l HC; [left; reflexivity|]. pose proof (IH l HC) as HIn. right. exact (chain_parent _ _ _ HC z c y HIn Hz HP).
Qed.
Lemma path_app h y z p js ks : path h y z js -> path h z p ks -> path h y p (js ++ ks).
Proof. induction 1 as [|y z' c js p' Hz HP HPath IH]; intros H2; [exact H2|]. cbn [app]. exact (path_down _ _ _ _ _ _ Hz HP (IH H2)). Qed.
Lemma chain_path h p l : chain h p l -> forall y, In y (p :: l) -> exists js, path h y p js.
Proof.
  induction 1 as [x c0 Hx HP|x c0 p l Hx HP HC IH]; intros y [<- |HIn]; try (exists []; constructor); [destruct HIn|]. destruct (IH y HIn) as (js & Hjs). exists (js ++ [index c0]).
  apply (path_app _ _ p _ _ _ Hjs). apply (path_down _ _ _ c0 []  _ Hx HP). constructor.
Qed.
Lemma respine_trees l : forall h r x c g h', chain h x l -> NoDup (x :: l) -> inv1 (Some (x, g)) h r -> inv1 None h' r -> same_shape h h' -> h x = Some c -> gnode (cgreen c) = true -> gnode g = true -> gkind g = gkind (cgreen c) ->
  (exists c', h' x = Some c' /\ cgreen c' = g) ->
  (forall y cy cy', In y l -> h y = Some cy -> h' y = Some cy' -> gkind (cgreen cy') = gkind (cgreen cy) /\
       exists z cz cz', In z (x :: l) /\ h z = Some cz /\ h' z = Some cz' /\ parent cz = Some y /\ gchildren (cgreen cy') = replace_nth (gchildren (cgreen cy)) (index cz) (cgreen cz')) ->
  forall y js cy cy', path h y x js -> h y = Some cy -> h' y = Some cy' -> cgreen cy' = with_children seg js (gchildren g) (cgreen cy).
Proof.
  intros h r x c g h' HC HND HI HI' HS Hx HG HGg HKg Hx' HUp y js cy cy' HPath. revert cy cy'. remember x as x0 eqn:E in HPath. induction HPath as [p|y z cz js p Hz HP HPath IH]; subst p; intros cy cy' Hy Hy'.
  - destruct Hx' as (c' & Hx' & <-). assert (cy = c) by congruence. assert (cy' = c') by congruence. subst cy cy'. cbn [with_children]. pose proof (i_built _ _ _ HI' x c' Hx') as HB.
    rewrite <- HKg. destruct (cgreen c') as [|k n rl cs]; [discriminate|]. destruct (built_children seg k n rl cs HB) as [_ HE]. symmetry. exact HE.
  - pose proof (path_chain _ _ _ _ HPath l HC) as HIn. pose proof (chain_parent _ _ _ HC z cz y HIn Hz HP) as HInY. destruct (HUp y cy cy' HInY Hy Hy') as (HK & z' & cz' & cz'' & A0 & A1 & A2 & A3 & A4).
    assert (z' = z) by exact (chain_child_unique _ _ _ HC HND z' z cz' cz y A0 HIn A1 Hz A3 HP). subst z'. assert (cz' = cz) by congruence. subst cz'.
    assert (HNy : y <> x) by (intros ->; inversion HND; contradiction).
    destruct (i_parent _ _ _ HI z cz y Hz HP) as (cy0 & B0 & B1 & _). assert (cy0 = cy) by congruence. subst cy0. cbn [kids_of] in B1. apply Nat.eqb_neq in HNy. rewrite HNy in B1.
    cbn [with_children]. rewrite B1. rewrite <- (IH eq_refl cz cz'' Hz A2). rewrite <- A4, <- HK.
    assert (HNode : gnode (cgreen cy') = true). { apply gchild_node with (i := index cz) (c := cgreen cz''). rewrite A4. exact (replace_nth_same _ _ _ _ B1). }
    pose proof (i_built _ _ _ HI' y cy' Hy') as HB. destruct (cgreen cy') as [|k n rl cs]; [discriminate|]. destruct (built_children seg k n rl cs HB) as [_ HE]. symmetry. exact HE.
Qed.

(** ** Detaching *)
Lemma nth_remove {A} (l : list A) : forall i j, j <> i -> nth_error (firstn i l ++ skipn (S i) l) (if S i <=? j then pred j else j) = nth_error l j.
Proof.
  induction l as [|x l IH]; intros i j HN.
  - rewrite firstn_nil, skipn_nil. cbn [app]. destruct (S i <=? j); [destruct (pred j)|]; destruct j; reflexivity.
  - destruct i as [|i]; [destruct j as [|j]; [lia|]; cbn [Nat.leb Nat.pred firstn app skipn nth_error]; reflexivity|].
    destruct j as [|j]; [reflexivity|]. change (skipn (S (S i)) (x :: l)) with (skipn (S i) l). cbn [firstn app Nat.leb]. specialize (IH i j ltac:(lia)).
    destruct (i <? j) eqn:EL; unfold Nat.ltb in EL; cbn [Nat.leb] in EL |- *.
    + change (match j with 0 => false | S m' => i <=? m' end) with (S i <=? j) in *. rewrite EL in *. destruct j as [|j]; [discriminate|]. exact IH.
    + change (match j with 0 => false | S m' => i <=? m' end) with (S i <=? j) in *. rewrite EL in *. exact IH.
Qed.
(** [h'] is [h] with new children [ks] for [p], where [f] gives the new indices of the elements below [p] *)
Definition index_of (h : heap) (x : nat) : nat := idx h x.
Record edited_to (h h' : heap) (x p : nat) (ks : list green) (f : nat -> nat) : Prop := {
  e_live : forall y c', h' y = Some c' -> h y <> None;
  e_same : forall y c c', y <> x -> h y = Some c -> h' y = Some c' -> parent c' = parent c /\
     index c' = (match parent c with Some q => if Nat.eqb q p then f (index c) else index c | None => index c end);
  e_above : forall y c c' js, h y = Some c -> h' y = Some c' -> path h y p js -> cgreen c' = with_children seg js ks (cgreen c);
  e_off : forall y c c', h y = Some c -> h' y = Some c' -> (forall js, ~ path h y p js) -> cgreen c' = cgreen c }.
Lemma edited_kept h h1 h2 x p ks f : edited_to h h1 x p ks f -> kept h1 h2 -> edited_to h h2 x p ks f.
Proof.
  intros HE HK. constructor.
  - intros y c' Hy. destruct (HK y c' Hy) as (c1 & A & _). exact (e_live _ _ _ _ _ _ HE y c1 A).
  - intros y c c' HN Hy Hy'. destruct (HK y c' Hy') as (c1 & A0 & A1 & A2 & A3). rewrite A1, A2. exact (e_same _ _ _ _ _ _ HE y c c1 HN Hy A0).
  - intros y c c' js Hy Hy' HP. destruct (HK y c' Hy') as (c1 & A0 & A1 & A2 & A3). rewrite A3. exact (e_above _ _ _ _ _ _ HE y c c1 js Hy A0 HP).
  - intros y c c' Hy Hy' HP. destruct (HK y c' Hy') as (c1 & A0 & A1 & A2 & A3). rewrite A3. exact (e_off _ _ _ _ _ _ HE y c c1 Hy A0 HP).
Qed.
Lemma detach_ok h r x c p cp : inv h r -> 0 < r x -> h x = Some c -> parent c = Some p -> h p = Some cp ->
  exists h', (exists n, forall m, n <= m -> detach seg m h x = Some h') /\ inv h' r /\
    (exists c', h' x = Some c' /\ parent c' = None /\ cgreen c' = cgreen c) /\
    edited_to h h' x p (firstn (index c) (gchildren (cgreen cp)) ++ skipn (S (index c)) (gchildren (cgreen cp))) (fun i => if index c <? i then pred i else i).
Proof.
  intros [HI HZ] Hr Hx HP Hp. set (i := index c) in *.
  destruct (chain_exists h r x c HI Hx) as (l0 & HC0 & HND0 & _). inversion HC0 as [|? c0 p0 l Hx0 HP0 HC]; [congruence|subst]. rewrite Hx in Hx0. injection Hx0 as <-. rewrite HP in HP0. injection HP0 as <-.
  inversion HND0 as [|? ? HNIx HND]; subst. assert (Hpx : p <> x) by (intros ->; apply HNIx; left; reflexivity).
  destruct (i_parent _ _ _ HI x c p Hx HP) as (cp' & Hp' & HNth & HInx). rewrite Hp in Hp'. injection Hp' as <-. cbn [kids_of] in HNth. fold i in HNth.
  pose proof (i_sorted _ _ _ HI p cp Hp) as HSp. pose proof (sorted_nodup h _ HSp) as HNDf.
  assert (HPf : ~ In p (first cp)). { intros HIn. destruct (i_ring _ _ _ HI p cp p Hp HIn) as (c1 & A & B). rewrite Hp in A. injection A as <-. pose proof (chain_parent _ _ _ HC p cp p (or_introl eq_refl) Hp B). inversion HND; contradiction. }
  set (h1 := upd h x (set_parent None c)). assert (Hx1 : h1 x = Some (set_parent None c)) by apply upd_same. assert (Ho1 : forall y, y <> x -> h1 y = h y) by (intros y HN; apply upd_other; exact HN).
  destruct (adjust_ok (first cp) (S i) pred h1 HNDf) as (h2 & HAdj & HE2). { intros y Hy. destruct (Nat.eq_dec y x) as [-> |HN]; [congruence|]. rewrite Ho1 by exact HN. destruct (i_ring _ _ _ HI p cp y Hp Hy) as (cy & A & _). congruence. }
  assert (Hp2 : h2 p = Some cp). { rewrite HE2. destruct (in_dec Nat.eq_dec p (first cp)) as [HIn|_]; [contradiction|]. rewrite Ho1 by exact Hpx. exact Hp. }
  set (cp3 := set_first (filter (fun y => negb (Nat.eqb y x)) (first cp)) cp). set (h3 := upd h2 p cp3).
  assert (Hp3 : h3 p = Some cp3) by apply upd_same.
  assert (Hx3 : h3 x = Some (set_parent None c)). { unfold h3. rewrite upd_other by auto. rewrite HE2, Hx1. destruct (in_dec Nat.eq_dec x (first cp)) as [_|HN]; [|contradiction]. cbn [option_map]. unfold shift. cbn [set_parent index]. fold i. replace (S i <=? i) with false by (symmetry; apply Nat.leb_gt; lia). reflexivity. }
  (* every other cell *)
  assert (HF : forall y, y <> x -> y <> p -> h3 y = match h y with Some cy => Some (if in_dec Nat.eq_dec y (first cp) then shift (S i) pred cy else cy) | None => None end).
  { intros y HNx HNp. unfold h3. rewrite upd_other by exact HNp. rewrite HE2, Ho1 by exact HNx. destruct (in_dec Nat.eq_dec y (first cp)); destruct (h y); reflexivity. }
  assert (HInP : forall y cy, h y = Some cy -> (In y (first cp) <-> parent cy = Some p)).
  { intros y cy Hy. split; intros HH. - destruct (i_ring _ _ _ HI p cp y Hp HH) as (c1 & A & B). congruence. - destruct (i_parent _ _ _ HI y cy p Hy HH) as (c1 & A & _ & B). congruence. }
  assert (HB3 : forall y cy', h3 y = Some cy' -> exists cy, h y = Some cy /\ cgreen cy' = cgreen cy /\ rc cy' = rc cy /\ first cy' = (if Nat.eqb y p then filter (fun y => negb (Nat.eqb y x)) (first cp) else first cy) /\
     (y <> x -> parent cy' = parent cy /\ index cy' = (match parent cy with Some q => if Nat.eqb q p then (if i <? index cy then pred (index cy) else index cy) else index cy | None => index cy end))).
  { intros y cy' Hy. destruct (Nat.eq_dec y p) as [-> |HNp].
    - rewrite Hp3 in Hy. injection Hy as <-. exists cp. rewrite Nat.eqb_refl. repeat split; try exact Hp. cbn [cp3 set_first index]. destruct (parent cp) as [q|] eqn:EQ; [|reflexivity]. destruct (Nat.eqb q p) eqn:E; [|reflexivity]. apply Nat.eqb_eq in E as ->. exfalso. apply HPf. apply (HInP p cp Hp). exact EQ.
    - apply Nat.eqb_neq in HNp as ENp. rewrite ENp. destruct (Nat.eq_dec y x) as [-> |HNx].
      + rewrite Hx3 in Hy. injection Hy as <-. exists c. repeat split; try exact Hx; contradiction.
      + rewrite HF in Hy by assumption. destruct (h y) as [cy|] eqn:Ey; [|discriminate]. injection Hy as <-. exists cy. split; [reflexivity|]. destruct (in_dec Nat.eq_dec y (first cp)) as [HIn|HNIn].
        * apply (HInP y cy Ey) in HIn. rewrite HIn, Nat.eqb_refl. unfold shift. change (i <? index cy) with (S i <=? index cy). destruct (S i <=? index cy); cbn; auto 6.
        * repeat split. destruct (parent cy) as [q|] eqn:EQ; [|reflexivity]. destruct (Nat.eqb q p) eqn:E; [|reflexivity]. apply Nat.eqb_eq in E as ->. exfalso. apply HNIn. apply (HInP y cy Ey). exact EQ. }
  assert (HF3 : forall y cy, h y = Some cy -> exists cy', h3 y = Some cy'). { intros y cy Hy. destruct (Nat.eq_dec y p) as [-> |HNp]; [eauto|]. destruct (Nat.eq_dec y x) as [-> |HNx]; [eauto|]. rewrite HF, Hy by assumption. eauto. }
  set (ks := firstn i (gchildren (cgreen cp)) ++ skipn (S i) (gchildren (cgreen cp))). set (g := gnew seg (gkind (cgreen cp)) ks).
  assert (HLen : S i <= List.length (gchildren (cgreen cp))). { assert (i < List.length (gchildren (cgreen cp))); [|lia]. apply nth_error_Some. congruence. }
  assert (HRem : remove_child seg (cgreen cp) i = Some g). { unfold remove_child, splice_children, vec_splice. apply Nat.leb_le in HLen. replace (i <=? S i) with true by (symmetry; apply Nat.leb_le; lia). rewrite HLen. reflexivity. }
  assert (HGp : gnode (cgreen cp) = true) by exact (gchild_node _ _ _ HNth).
  assert (HBg : built seg g). { apply built_node. pose proof (i_built _ _ _ HI p cp Hp) as HB. destruct (cgreen cp) as [|k n rl cs] eqn:EG; [discriminate|]. destruct (built_children seg k n rl cs HB) as [HFb _]. unfold ks. rewrite Forall_app. cbn [gchildren]. split; [apply Forall_firstn_built; exact HFb|]. rewrite Forall_forall in *. intros z Hz. apply HFb. rewrite <- (firstn_skipn (S i)). apply in_app_iff. right. exact Hz. }
  assert (HIdx3 : forall y cy, h y = Some cy -> y <> x -> parent cy <> Some p -> idx h3 y = idx h y). { intros y cy Hy HNx HNp. destruct (HF3 y cy Hy) as (cy' & Hy'). destruct (HB3 y cy' Hy') as (c1 & A0 & _ & _ & _ & A4). rewrite Hy in A0. injection A0 as <-. destruct (A4 HNx) as [_ A5]. unfold idx. rewrite Hy', Hy, A5. destruct (parent cy) as [q|]; [|reflexivity]. destruct (Nat.eqb q p) eqn:E; [apply Nat.eqb_eq in E; congruence|reflexivity]. }
  assert (HIdxp : forall y, In y (first cp) -> y <> x -> idx h3 y = (if i <? idx h y then pred (idx h y) else idx h y)). { intros y HIn HNx. destruct (i_ring _ _ _ HI p cp y Hp HIn) as (cy & Hy & HPy). destruct (HF3 y cy Hy) as (cy' & Hy'). destruct (HB3 y cy' Hy') as (c1 & A0 & _ & _ & _ & A4). rewrite Hy in A0. injection A0 as <-. destruct (A4 HNx) as [_ A5]. unfold idx. rewrite Hy', Hy, A5, HPy, Nat.eqb_refl. reflexivity. }
  assert (HNI : forall y, In y (first cp) -> y <> x -> idx h y <> i). { intros y HIn HNx HE. apply HNx. apply (sorted_unique h (first cp) y x HSp HIn HInx). rewrite HE. unfold idx. rewrite Hx. reflexivity. }
  assert (HLenF : S (List.length (filter (fun y => negb (Nat.eqb y x)) (first cp))) = List.length (first cp)).
  { clear - HInx HNDf. induction (first cp) as [|y f IH]; [destruct HInx|]. inversion HNDf as [|? ? HN HND]; subst. cbn [filter]. destruct (Nat.eqb y x) eqn:E; cbn [negb].
    - apply Nat.eqb_eq in E as ->. assert (HAll : forall k, ~ In x k -> filter (fun y => negb (Nat.eqb y x)) k = k). { intros k. induction k as [|z k IHk]; intros Hk; [reflexivity|]. cbn [filter]. assert (z <> x) by (intros ->; apply Hk; left; reflexivity). apply Nat.eqb_neq in H. rewrite H. cbn [negb]. rewrite IHk; [reflexivity|]. intros HH. apply Hk. right. exact HH. } rewrite (HAll f HN). reflexivity.
    - destruct HInx as [-> |HInx]; [rewrite Nat.eqb_refl in E; discriminate|]. cbn [List.length]. f_equal. exact (IH HInx HND). }
  assert (HI3 : inv1 (Some (p, g)) h3 (add r p)).
  { constructor.
    - intros y cy' q Hy HQ. assert (HNx : y <> x) by (intros ->; rewrite Hx3 in Hy; injection Hy as <-; discriminate). destruct (HB3 y cy' Hy) as (cy & A0 & A1 & A2 & A3 & A4). destruct (A4 HNx) as [A5 A6]. rewrite A5 in HQ. destruct (i_parent _ _ _ HI y cy q A0 HQ) as (cq & B0 & B1 & B2). cbn [kids_of] in B1 |- *. rewrite HQ in A6. destruct (Nat.eqb q p) eqn:EQ.
      + apply Nat.eqb_eq in EQ as ->. exists cp3. split; [exact Hp3|]. assert (cq = cp) by congruence. subst cq. split.
        * unfold g. rewrite gchildren_new. rewrite A6, A1. change (i <? index cy) with (S i <=? index cy). unfold ks. rewrite nth_remove; [exact B1|]. specialize (HNI y B2 HNx). unfold idx in HNI. rewrite A0 in HNI. exact HNI.
        * cbn. apply filter_In. split; [exact B2|]. apply Nat.eqb_neq in HNx. rewrite HNx. reflexivity.
      + destruct (HF3 q cq B0) as (cq' & Hq'). destruct (HB3 q cq' Hq') as (c1 & C0 & C1 & _ & C3 & _). rewrite B0 in C0. injection C0 as <-. rewrite EQ in C3. exists cq'. split; [exact Hq'|]. rewrite C1, C3, A6, A1. auto.
    - intros q cq' y Hq HIn. destruct (HB3 q cq' Hq) as (cq & A0 & A1 & A2 & A3 & A4). rewrite A3 in HIn. destruct (Nat.eqb q p) eqn:EQ.
      + apply Nat.eqb_eq in EQ as ->. apply filter_In in HIn as [HIn HNx]. apply negb_true_iff, Nat.eqb_neq in HNx. destruct (i_ring _ _ _ HI p cp y Hp HIn) as (cy & B0 & B1). destruct (HF3 y cy B0) as (cy' & Hy'). destruct (HB3 y cy' Hy') as (c1 & C0 & _ & _ & _ & C4). destruct (C4 HNx) as [C5 _]. exists cy'. split; [exact Hy'|congruence].
      + destruct (i_ring _ _ _ HI q cq y A0 HIn) as (cy & B0 & B1). assert (HNx : y <> x). { intros ->. rewrite Hx in B0. injection B0 as <-. apply Nat.eqb_neq in EQ. congruence. } destruct (HF3 y cy B0) as (cy' & Hy'). destruct (HB3 y cy' Hy') as (c1 & C0 & _ & _ & _ & C4). destruct (C4 HNx) as [C5 _]. exists cy'. split; [exact Hy'|congruence].
    - intros q cq' Hq. destruct (HB3 q cq' Hq) as (cq & A0 & A1 & A2 & A3 & A4). rewrite A3. destruct (Nat.eqb q p) eqn:EQ.
      + refine (sorted_ext _ _ _ _ (sorted_filter _ _ _ HSp)). intros a b Ha Hb HLt. apply filter_In in Ha as [Ha Ha']. apply filter_In in Hb as [Hb Hb']. apply negb_true_iff, Nat.eqb_neq in Ha', Hb'. rewrite !HIdxp by assumption. pose proof (HNI a Ha Ha') as HN1. pose proof (HNI b Hb Hb') as HN2.
        destruct (i <? idx h a) eqn:E1, (i <? idx h b) eqn:E2; repeat match goal with H : (_ <? _) = true |- _ => apply Nat.ltb_lt in H | H : (_ <? _) = false |- _ => apply Nat.ltb_ge in H end; lia.
      + apply Nat.eqb_neq in EQ. refine (sorted_ext _ _ _ _ (i_sorted _ _ _ HI q cq A0)). assert (HS : forall a, In a (first cq) -> idx h3 a = idx h a). { intros a Ha. destruct (i_ring _ _ _ HI q cq a A0 Ha) as (ca & B0 & B1). apply (HIdx3 a ca B0); [intros ->; congruence|congruence]. } intros a b Ha Hb. rewrite !HS by assumption. auto.
    - intros y cy' Hy. destruct (HB3 y cy' Hy) as (cy & A0 & A1 & A2 & A3 & A4). rewrite A2, A3, (i_rc _ _ _ HI y cy A0). destruct (Nat.eqb y p) eqn:EY.
      + apply Nat.eqb_eq in EY as ->. rewrite add_same. assert (cy = cp) by congruence. subst cy. lia.
      + apply Nat.eqb_neq in EY. rewrite add_other by exact EY. reflexivity.
    - intros y Hy. assert (h y <> None) as HNy. { destruct (Nat.eq_dec y p) as [-> |HN]; [congruence|]. rewrite add_other in Hy by exact HN. exact (i_handles _ _ _ HI y Hy). } destruct (h y) as [cy|] eqn:Ey; [|contradiction]. destruct (HF3 y cy Ey) as (cy' & ->). discriminate.
    - destruct (i_finite _ _ _ HI) as (k & Hk). exists k. intros y Hy. destruct (h3 y) as [cy'|] eqn:Ey; [|reflexivity]. destruct (HB3 y cy' Ey) as (cy & A0 & _). rewrite Hk in A0 by exact Hy. discriminate.
    - intros y cy' Hy. destruct (HB3 y cy' Hy) as (cy & A0 & A1 & _). rewrite A1. exact (i_built _ _ _ HI y cy A0). }
  assert (HC3 : chain h3 p l). { apply (chain_ext h h3 p l); [|exact HC]. intros y cy HIn Hy. assert (HNx : y <> x) by (intros ->; exact (HNIx HIn)). destruct (HF3 y cy Hy) as (cy' & Hy'). destruct (HB3 y cy' Hy') as (c1 & A0 & _ & _ & _ & A4). destruct (A4 HNx) as [A5 _]. exists cy'. split; [exact Hy'|congruence]. }
  destruct (respine_ok l h3 (add r p) p cp3 g HC3 HND HI3 Hp3 HGp HBg) as (h4 & HResp & HI4 & HS4 & Hp4 & HOff & HUp).
  assert (HZ4 : forall y cy, h4 y = Some cy -> rc cy <> 0).
  { intros y cy Hy. pose proof (HS4 y) as HH. rewrite Hy in HH. destruct (h3 y) as [cy3|] eqn:Ey3; [|contradiction]. destruct HH as (-> & _). destruct (HB3 y cy3 Ey3) as (cy0 & A0 & _ & -> & _). exact (HZ y cy0 A0). }
  destruct (drop_ok h4 (add r p) p (conj HI4 HZ4)) as (h5 & (n & HDrop) & HI5 & HK5); [rewrite add_same; lia|].
  assert (HI5' : inv h5 r). { apply (inv_ext h5 h5 (sub (add r p) p) r); [reflexivity| |exact HI5]. intros y. destruct (Nat.eq_dec y p) as [-> |HN]; [rewrite sub_same, add_same; reflexivity|rewrite sub_other, add_other by exact HN; reflexivity]. }
  assert (HB4 : forall y c4, h4 y = Some c4 -> exists c3, h3 y = Some c3 /\ parent c4 = parent c3 /\ index c4 = index c3 /\ (~ In y (p :: l) -> cgreen c4 = cgreen c3)).
  { intros y c4 Hy. pose proof (HS4 y) as HH. rewrite Hy in HH. destruct (h3 y) as [c3|] eqn:Ey3; [|contradiction]. destruct HH as (_ & A & B & _). exists c3. repeat split; [exact A|exact B|]. intros HNI'. rewrite HOff in Hy by exact HNI'. congruence. }
  (* paths do not pass through x *)
  assert (HPath3 : forall y js, path h y p js -> path h3 y p js /\ True).
  { intros y js HPth. split; [|exact I]. assert (HG : forall q, path h y q js -> q = p -> path h3 y q js).
    { intros q HQ. induction HQ as [q|y z cz js q Hz HPz HQ IH]; intros ->; [constructor|]. pose proof (path_chain _ _ _ _ HQ l HC) as HIn. assert (HNx : z <> x) by (intros ->; exact (HNIx HIn)).
      destruct (HF3 z cz Hz) as (cz' & Hz'). destruct (HB3 z cz' Hz') as (c1 & A0 & _ & _ & _ & A4). rewrite Hz in A0. injection A0 as <-. destruct (A4 HNx) as [A5 A6].
      assert (HNp : y <> p). { intros ->. pose proof (chain_parent _ _ _ HC z cz p HIn Hz HPz). inversion HND; contradiction. } rewrite HPz in A6. apply Nat.eqb_neq in HNp. rewrite HNp in A6. rewrite <- A6. apply (path_down _ _ _ cz' _ _ Hz'); [congruence|]. apply IH; [|reflexivity].
      exact HQ. }
    exact (HG p HPth eq_refl). }
  exists h5. split; [|split; [exact HI5'|split]].
  - exists (max (S (List.length l)) n). intros m Hm. unfold detach. rewrite Hx, HP. fold h1. rewrite (Ho1 p Hpx), Hp. fold i. rewrite HAdj. unfold unlink, modify. rewrite Hp2. fold cp3. fold h3. rewrite Hp3. change (cgreen cp3) with (cgreen cp). rewrite HRem. rewrite HResp by lia. apply HDrop. lia.
  - destruct (h5 x) as [c5|] eqn:E5; [|contradiction (i_handles _ _ _ (proj1 HI5') x Hr E5)]. exists c5. split; [reflexivity|]. destruct (HK5 x c5 E5) as (c4 & A0 & A1 & A2 & A3). destruct (HB4 x c4 A0) as (c3 & B0 & B1 & B2 & B3). rewrite Hx3 in B0. injection B0 as <-. split; [rewrite A1, B1; reflexivity|]. rewrite A3, B3 by exact HNIx. reflexivity.
  - apply (edited_kept h h4 h5); [|exact HK5]. constructor.
    + intros y c4 Hy. destruct (HB4 y c4 Hy) as (c3 & B0 & _). destruct (HB3 y c3 B0) as (cy & A0 & _). congruence.
    + intros y cy c4 HNx Hy Hy4. destruct (HB4 y c4 Hy4) as (c3 & B0 & B1 & B2 & _). destruct (HB3 y c3 B0) as (c1 & A0 & _ & _ & _ & A4). rewrite Hy in A0. injection A0 as <-. destruct (A4 HNx) as [A5 A6]. split; [congruence|]. rewrite B2, A6. reflexivity.
    + intros y cy c4 js Hy Hy4 HPth. destruct (HB4 y c4 Hy4) as (c3 & B0 & _). destruct (HB3 y c3 B0) as (c1 & A0 & A1 & _). rewrite Hy in A0. injection A0 as <-. rewrite <- A1.
      rewrite (respine_trees l h3 (add r p) p cp3 g h4 HC3 HND HI3 HI4 HS4 Hp3 HGp (gnode_new _ _) (gkind_new seg _ _) Hp4 HUp y js c3 c4 (proj1 (HPath3 y js HPth)) B0 Hy4). unfold g. rewrite gchildren_new. reflexivity.
    + intros y cy c4 Hy Hy4 HPth. destruct (HB4 y c4 Hy4) as (c3 & B0 & _ & _ & B3). destruct (HB3 y c3 B0) as (c1 & A0 & A1 & _). rewrite Hy in A0. injection A0 as <-. rewrite B3; [exact A1|]. intros HIn. destruct (chain_path _ _ _ HC y HIn) as (js & Hjs). exact (HPth js Hjs).
Qed.

(** ** Attaching *)
Lemma nth_insert {A} (l : list A) g : forall i j, i <= List.length l -> nth_error (firstn i l ++ g :: skipn i l) (if i <=? j then S j else j) = nth_error l j.
Proof.
  induction l as [|x l IH]; intros i j HL.
  - destruct i; [|cbn in HL; lia]. cbn. destruct j; reflexivity.
  - destruct i as [|i]; [reflexivity|]. destruct j as [|j]; [reflexivity|]. cbn in HL. specialize (IH i j ltac:(lia)). cbn [firstn skipn app Nat.leb]. destruct (i <=? j); exact IH.
Qed.
Lemma nth_inserted {A} (l : list A) g : forall i, i <= List.length l -> nth_error (firstn i l ++ g :: skipn i l) i = Some g.
Proof. induction l as [|x l IH]; intros [|i] HL; try reflexivity; cbn in HL; [lia|]. cbn. apply IH. lia. Qed.
Lemma attach_data_ok h r p cp i x c : inv h r -> h x = Some c -> parent c = None -> h p = Some cp -> gnode (cgreen cp) = true -> i <= List.length (gchildren (cgreen cp)) -> (forall js, ~ path h x p js) ->
  exists h', (exists n, forall m, n <= m -> attach_data seg m h p i x = Some h') /\ inv h' r /\
    (exists c', h' x = Some c' /\ parent c' = Some p /\ index c' = i /\ cgreen c' = cgreen c) /\ (forall y, h y <> None -> h' y <> None) /\
    edited_to h h' x p (firstn i (gchildren (cgreen cp)) ++ cgreen c :: skipn i (gchildren (cgreen cp))) (fun j => if i <=? j then S j else j).
Proof.
  intros [HI HZ] Hx HP Hp HGp HLen HNPath.
  destruct (chain_exists h r p cp HI Hp) as (l & HC & HND & _).
  assert (HNIx : ~ In x (p :: l)). { intros HIn. destruct (chain_path _ _ _ HC x HIn) as (js & Hjs). exact (HNPath js Hjs). }
  assert (Hpx : p <> x) by (intros ->; apply HNIx; left; reflexivity).
  pose proof (i_sorted _ _ _ HI p cp Hp) as HSp. pose proof (sorted_nodup h _ HSp) as HNDf.
  assert (HInP : forall y cy, h y = Some cy -> (In y (first cp) <-> parent cy = Some p)).
  { intros y cy Hy. split; intros HH. - destruct (i_ring _ _ _ HI p cp y Hp HH) as (c1 & A & B). congruence. - destruct (i_parent _ _ _ HI y cy p Hy HH) as (c1 & A & _ & B). congruence. }
  assert (HPf : ~ In p (first cp)). { intros HIn. destruct (i_ring _ _ _ HI p cp p Hp HIn) as (c1 & A & B). rewrite Hp in A. injection A as <-. pose proof (chain_parent _ _ _ HC p cp p (or_introl eq_refl) Hp B). inversion HND; contradiction. }
  assert (HXf : ~ In x (first cp)) by (intros HIn; apply (HInP x c Hx) in HIn; congruence).
  set (cx := set_parent (Some p) (set_index i c)). set (h1 := upd h x cx). assert (Hx1 : h1 x = Some cx) by apply upd_same. assert (Ho1 : forall y, y <> x -> h1 y = h y) by (intros y HN; apply upd_other; exact HN).
  set (cp2 := set_rc (S (rc cp)) cp). set (h2 := upd h1 p cp2). assert (Hp2 : h2 p = Some cp2) by apply upd_same. assert (Ho2 : forall y, y <> p -> h2 y = h1 y) by (intros y HN; apply upd_other; exact HN).
  assert (HInc : inc_rc h1 p = Some h2) by (unfold inc_rc, modify; rewrite Ho1, Hp by exact Hpx; reflexivity).
  destruct (adjust_ok (first cp) i S h2 HNDf) as (h3 & HAdj & HE3). { intros y Hy. destruct (i_ring _ _ _ HI p cp y Hp Hy) as (cy & A & _). rewrite Ho2 by (intros ->; contradiction). rewrite Ho1 by (intros ->; contradiction). congruence. }
  assert (Hp3 : h3 p = Some cp2). { rewrite HE3. destruct (in_dec Nat.eq_dec p (first cp)) as [HIn|_]; [contradiction|]. exact Hp2. }
  assert (Hx3 : h3 x = Some cx). { rewrite HE3. destruct (in_dec Nat.eq_dec x (first cp)) as [HIn|_]; [contradiction|]. rewrite Ho2 by auto. exact Hx1. }
  assert (HF : forall y, y <> x -> y <> p -> h3 y = match h y with Some cy => Some (if in_dec Nat.eq_dec y (first cp) then shift i S cy else cy) | None => None end).
  { intros y HNx HNp. rewrite HE3. rewrite Ho2, Ho1 by assumption. destruct (in_dec Nat.eq_dec y (first cp)); destruct (h y); reflexivity. }
  assert (HIdxp : forall y, In y (first cp) -> idx h3 y = (if i <=? idx h y then S (idx h y) else idx h y)).
  { intros y HIn. destruct (i_ring _ _ _ HI p cp y Hp HIn) as (cy & Hy & HPy). unfold idx. rewrite HF by (intros ->; contradiction). rewrite Hy. destruct (in_dec Nat.eq_dec y (first cp)) as [_|HN]; [|contradiction]. unfold shift. destruct (i <=? index cy); reflexivity. }
  assert (HS3 : StronglySorted (fun a b => idx h3 a < idx h3 b) (first cp)).
  { refine (sorted_ext _ _ _ _ HSp). intros a b Ha Hb HLt. rewrite !HIdxp by assumption. destruct (i <=? idx h a) eqn:E1, (i <=? idx h b) eqn:E2; repeat match goal with H : (_ <=? _) = true |- _ => apply Nat.leb_le in H | H : (_ <=? _) = false |- _ => apply Nat.leb_gt in H end; lia. }
  assert (HLive3 : forall y, In y (first cp) -> h3 y <> None). { intros y Hy. destruct (i_ring _ _ _ HI p cp y Hp Hy) as (cy & A & _). rewrite HF by (intros ->; contradiction). rewrite A. discriminate. }
  pose proof (keys_ok h3 (first cp) HLive3) as HKeys. pose proof (link_ok h3 (first cp) i x HS3) as HLink.
  assert (HNew : exists l1 l2, first cp = l1 ++ l2 /\ Forall (fun y => idx h3 y < i) l1 /\ Forall (fun y => i < idx h3 y) l2 /\
     forall m, attach_data seg m h p i x = (let h4 := upd h3 p (set_first (l1 ++ x :: l2) cp2) in get g <- insert_child seg (cgreen cp) i (cgreen c); respine seg m h4 p g)).
  { assert (HM : forall pl l1 l2, add_to pl x (first cp) = l1 ++ x :: l2 -> link (map (fun x0 => (x0, idx h3 x0)) (first cp)) i = pl -> (match pl with Already _ | Loops => False | _ => True end) ->
      forall m, attach_data seg m h p i x = (let h4 := upd h3 p (set_first (l1 ++ x :: l2) cp2) in get g <- insert_child seg (cgreen cp) i (cgreen c); respine seg m h4 p g)).
    { intros pl l1 l2 HA HL HPl m. unfold attach_data. rewrite Hx, HP. fold cx. fold h1. rewrite HInc, Hp2. change (first cp2) with (first cp). rewrite HAdj, HKeys, HL. unfold modify. rewrite Hp3. change (first cp2) with (first cp). destruct pl; try contradiction HPl; rewrite HA, upd_same; reflexivity. }
    destruct (link _ i) as [| |e|e|] eqn:EL.
    - destruct HLink as (l1 & l2 & A & B & C & D). exists l1, l2. split; [exact A|]. split; [exact C|]. split; [exact D|]. exact (HM EmptyHead l1 l2 B eq_refl I).
    - destruct HLink as (l1 & l2 & A & B & C & D). exists l1, l2. split; [exact A|]. split; [exact C|]. split; [exact D|]. exact (HM SmallerThanHead l1 l2 B eq_refl I).
    - destruct HLink as (l1 & l2 & A & B & C & D). exists l1, l2. split; [exact A|]. split; [exact C|]. split; [exact D|]. exact (HM (After e) l1 l2 B eq_refl I).
    - exfalso. destruct HLink as [HIn HE]. rewrite HIdxp in HE by exact HIn. destruct (i <=? idx h e) eqn:E; [apply Nat.leb_le in E|apply Nat.leb_gt in E]; lia.
    - destruct HLink. }
  destruct HNew as (l1 & l2 & HL & HL1 & HL2 & HAtt). set (cp4 := set_first (l1 ++ x :: l2) cp2). set (h4 := upd h3 p cp4).
  assert (Hp4 : h4 p = Some cp4) by apply upd_same. assert (Hx4 : h4 x = Some cx) by (unfold h4; rewrite upd_other by auto; exact Hx3).
  assert (HF4 : forall y, y <> x -> y <> p -> h4 y = match h y with Some cy => Some (if in_dec Nat.eq_dec y (first cp) then shift i S cy else cy) | None => None end) by (intros y HNx HNp; unfold h4; rewrite upd_other by exact HNp; apply HF; assumption).
  assert (HB4 : forall y cy', h4 y = Some cy' -> exists cy, h y = Some cy /\ cgreen cy' = cgreen cy /\ rc cy' = (if Nat.eqb y p then S (rc cp) else rc cy) /\ first cy' = (if Nat.eqb y p then l1 ++ x :: l2 else first cy) /\
     (y <> x -> parent cy' = parent cy /\ index cy' = (match parent cy with Some q => if Nat.eqb q p then (if i <=? index cy then S (index cy) else index cy) else index cy | None => index cy end))).
  { intros y cy' Hy. destruct (Nat.eq_dec y p) as [-> |HNp].
    - rewrite Hp4 in Hy. injection Hy as <-. exists cp. rewrite Nat.eqb_refl. repeat split; try exact Hp. cbn [cp4 cp2 set_first set_rc index]. destruct (parent cp) as [q|] eqn:EQ; [|reflexivity]. destruct (Nat.eqb q p) eqn:E; [|reflexivity]. apply Nat.eqb_eq in E as ->. exfalso. apply HPf. apply (HInP p cp Hp). exact EQ.
    - apply Nat.eqb_neq in HNp as ENp. rewrite ENp. destruct (Nat.eq_dec y x) as [-> |HNx].
      + rewrite Hx4 in Hy. injection Hy as <-. exists c. repeat split; try exact Hx; contradiction.
      + rewrite HF4 in Hy by assumption. destruct (h y) as [cy|] eqn:Ey; [|discriminate]. injection Hy as <-. exists cy. split; [reflexivity|]. destruct (in_dec Nat.eq_dec y (first cp)) as [HIn|HNIn].
        * apply (HInP y cy Ey) in HIn. rewrite HIn, Nat.eqb_refl. unfold shift. destruct (i <=? index cy); cbn; auto 6.
        * repeat split. destruct (parent cy) as [q|] eqn:EQ; [|reflexivity]. destruct (Nat.eqb q p) eqn:E; [|reflexivity]. apply Nat.eqb_eq in E as ->. exfalso. apply HNIn. apply (HInP y cy Ey). exact EQ. }
  assert (HFw : forall y cy, h y = Some cy -> exists cy', h4 y = Some cy'). { intros y cy Hy. destruct (Nat.eq_dec y p) as [-> |HNp]; [eauto|]. destruct (Nat.eq_dec y x) as [-> |HNx]; [eauto|]. rewrite HF4, Hy by assumption. eauto. }
  set (ks := firstn i (gchildren (cgreen cp)) ++ cgreen c :: skipn i (gchildren (cgreen cp))). set (g := gnew seg (gkind (cgreen cp)) ks).
  assert (HIns : insert_child seg (cgreen cp) i (cgreen c) = Some g). { unfold insert_child, splice_children, vec_splice. apply Nat.leb_le in HLen. rewrite HLen. rewrite Nat.leb_refl. reflexivity. }
  assert (HBg : built seg g). { apply built_node. pose proof (i_built _ _ _ HI p cp Hp) as HB. destruct (cgreen cp) as [|k n rl cs] eqn:EG; [discriminate|]. destruct (built_children seg k n rl cs HB) as [HFb _]. unfold ks. rewrite Forall_app. cbn [gchildren]. split; [apply Forall_firstn_built; exact HFb|]. constructor; [exact (i_built _ _ _ HI x c Hx)|]. rewrite Forall_forall in *. intros z Hz. apply HFb. rewrite <- (firstn_skipn i). apply in_app_iff. right. exact Hz. }
  assert (HIdx4 : forall y, idx h4 y = idx h3 y). { intros y. unfold idx, h4. destruct (Nat.eq_dec y p) as [-> |HN]; [rewrite upd_same, Hp3; reflexivity|rewrite upd_other by exact HN; reflexivity]. }
  assert (HIdxx : idx h4 x = i) by (unfold idx; rewrite Hx4; reflexivity).
  assert (HIdxo : forall y cy, h y = Some cy -> y <> x -> parent cy <> Some p -> idx h4 y = idx h y). { intros y cy Hy HNx HNp. destruct (HFw y cy Hy) as (cy' & Hy'). destruct (HB4 y cy' Hy') as (c1 & A0 & _ & _ & _ & A4). rewrite Hy in A0. injection A0 as <-. destruct (A4 HNx) as [_ A5]. unfold idx. rewrite Hy', Hy, A5. destruct (parent cy) as [q|]; [|reflexivity]. destruct (Nat.eqb q p) eqn:E; [apply Nat.eqb_eq in E; congruence|reflexivity]. }
  assert (HI4 : inv1 (Some (p, g)) h4 r).
  { constructor.
    - intros y cy' q Hy HQ. destruct (Nat.eq_dec y x) as [-> |HNx].
      + rewrite Hx4 in Hy. injection Hy as <-. cbn in HQ. injection HQ as <-. exists cp4. split; [exact Hp4|]. cbn [kids_of]. rewrite Nat.eqb_refl. unfold g. rewrite gchildren_new. split; [apply nth_inserted; exact HLen|]. cbn. apply in_app_iff. right. left. reflexivity.
      + destruct (HB4 y cy' Hy) as (cy & A0 & A1 & A2 & A3 & A4). destruct (A4 HNx) as [A5 A6]. rewrite A5 in HQ. destruct (i_parent _ _ _ HI y cy q A0 HQ) as (cq & B0 & B1 & B2). cbn [kids_of] in B1 |- *. rewrite HQ in A6. destruct (Nat.eqb q p) eqn:EQ.
        * apply Nat.eqb_eq in EQ as ->. exists cp4. split; [exact Hp4|]. assert (cq = cp) by congruence. subst cq. split.
          -- unfold g. rewrite gchildren_new. rewrite A6, A1. unfold ks. rewrite nth_insert by exact HLen. exact B1.
          -- cbn. rewrite HL in B2. apply in_app_iff in B2. apply in_app_iff. cbn [In]. tauto.
        * destruct (HFw q cq B0) as (cq' & Hq'). destruct (HB4 q cq' Hq') as (c1 & C0 & C1 & _ & C3 & _). rewrite B0 in C0. injection C0 as <-. rewrite EQ in C3. exists cq'. split; [exact Hq'|]. rewrite C1, C3, A6, A1. auto.
    - intros q cq' y Hq HIn. destruct (HB4 q cq' Hq) as (cq & A0 & A1 & A2 & A3 & A4). rewrite A3 in HIn. destruct (Nat.eqb q p) eqn:EQ.
      + apply Nat.eqb_eq in EQ as ->. destruct (Nat.eq_dec y x) as [-> |HNx]; [exists cx; auto|]. assert (HIn1 : In y (first cp)). { rewrite HL. apply in_app_iff in HIn as [HIn|[HIn|HIn]]; [apply in_app_iff; auto|congruence|apply in_app_iff; auto]. }
        destruct (i_ring _ _ _ HI p cp y Hp HIn1) as (cy & B0 & B1). destruct (HFw y cy B0) as (cy' & Hy'). destruct (HB4 y cy' Hy') as (c1 & C0 & _ & _ & _ & C4). destruct (C4 HNx) as [C5 _]. exists cy'. split; [exact Hy'|congruence].
      + destruct (i_ring _ _ _ HI q cq y A0 HIn) as (cy & B0 & B1). assert (HNx : y <> x) by (intros ->; congruence). destruct (HFw y cy B0) as (cy' & Hy'). destruct (HB4 y cy' Hy') as (c1 & C0 & _ & _ & _ & C4). destruct (C4 HNx) as [C5 _]. exists cy'. split; [exact Hy'|congruence].
    - intros q cq' Hq. destruct (HB4 q cq' Hq) as (cq & A0 & A1 & A2 & A3 & A4). rewrite A3. destruct (Nat.eqb q p) eqn:EQ.
      + apply sorted_insert.
        * rewrite <- HL. refine (sorted_ext _ _ _ _ HS3). intros a b _ _. rewrite !HIdx4. auto.
        * rewrite Forall_forall in *. intros y Hy. rewrite HIdxx, HIdx4. exact (HL1 y Hy).
        * rewrite Forall_forall in *. intros y Hy. rewrite HIdxx, HIdx4. exact (HL2 y Hy).
      + apply Nat.eqb_neq in EQ. refine (sorted_ext _ _ _ _ (i_sorted _ _ _ HI q cq A0)). assert (HS : forall a, In a (first cq) -> idx h4 a = idx h a). { intros a Ha. destruct (i_ring _ _ _ HI q cq a A0 Ha) as (ca & B0 & B1). apply (HIdxo a ca B0); [intros ->; congruence|congruence]. } intros a b Ha Hb. rewrite !HS by assumption. auto.
    - intros y cy' Hy. destruct (HB4 y cy' Hy) as (cy & A0 & A1 & A2 & A3 & A4). rewrite A2, A3. destruct (Nat.eqb y p) eqn:EY.
      + apply Nat.eqb_eq in EY as ->. rewrite (i_rc _ _ _ HI p cp Hp), HL, !app_length. cbn [List.length]. lia.
      + exact (i_rc _ _ _ HI y cy A0).
    - intros y Hy. pose proof (i_handles _ _ _ HI y Hy) as HNy. destruct (h y) as [cy|] eqn:Ey; [|contradiction]. destruct (HFw y cy Ey) as (cy' & ->). discriminate.
    - destruct (i_finite _ _ _ HI) as (k & Hk). exists k. intros y Hy. destruct (h4 y) as [cy'|] eqn:Ey; [|reflexivity]. destruct (HB4 y cy' Ey) as (cy & A0 & _). rewrite Hk in A0 by exact Hy. discriminate.
    - intros y cy' Hy. destruct (HB4 y cy' Hy) as (cy & A0 & A1 & _). rewrite A1. exact (i_built _ _ _ HI y cy A0). }
  assert (HC4 : chain h4 p l). { apply (chain_ext h h4 p l); [|exact HC]. intros y cy HIn Hy. assert (HNx : y <> x) by (intros ->; exact (HNIx HIn)). destruct (HFw y cy Hy) as (cy' & Hy'). destruct (HB4 y cy' Hy') as (c1 & A0 & _ & _ & _ & A4). destruct (A4 HNx) as [A5 _]. exists cy'. split; [exact Hy'|congruence]. }
  destruct (respine_ok l h4 r p cp4 g HC4 HND HI4 Hp4 HGp HBg) as (h5 & HResp & HI5 & HS5 & Hp5 & HOff & HUp).
  assert (HB5 : forall y c5, h5 y = Some c5 -> exists c4, h4 y = Some c4 /\ rc c5 = rc c4 /\ parent c5 = parent c4 /\ index c5 = index c4 /\ (~ In y (p :: l) -> cgreen c5 = cgreen c4)).
  { intros y c5 Hy. pose proof (HS5 y) as HH. rewrite Hy in HH. destruct (h4 y) as [c4|] eqn:Ey4; [|contradiction]. destruct HH as (R & A & B & _). exists c4. repeat split; [exact R|exact A|exact B|]. intros HNI'. rewrite HOff in Hy by exact HNI'. congruence. }
  assert (HPath4 : forall y js, path h y p js -> path h4 y p js).
  { intros y js HPth. assert (HG : forall q, path h y q js -> q = p -> path h4 y q js).
    { intros q HQ. induction HQ as [q|y z cz js q Hz HPz HQ IH]; intros ->; [constructor|]. pose proof (path_chain _ _ _ _ HQ l HC) as HIn. assert (HNx : z <> x) by (intros ->; exact (HNIx HIn)).
      destruct (HFw z cz Hz) as (cz' & Hz'). destruct (HB4 z cz' Hz') as (c1 & A0 & _ & _ & _ & A4). rewrite Hz in A0. injection A0 as <-. destruct (A4 HNx) as [A5 A6].
      assert (HNp : y <> p). { intros ->. pose proof (chain_parent _ _ _ HC z cz p HIn Hz HPz). inversion HND; contradiction. } rewrite HPz in A6. apply Nat.eqb_neq in HNp. rewrite HNp in A6. rewrite <- A6. apply (path_down _ _ _ cz' _ _ Hz'); [congruence|]. apply IH; [exact HQ|reflexivity]. }
    exact (HG p HPth eq_refl). }
  exists h5. split; [|split; [|split; [|split]]].
  - exists (S (List.length l)). intros m Hm. rewrite HAtt. cbv zeta. rewrite HIns. apply HResp. lia.
  - split; [exact HI5|]. intros y c5 Hy. destruct (HB5 y c5 Hy) as (c4 & A0 & A1 & _). rewrite A1. destruct (HB4 y c4 A0) as (cy & B0 & _ & B2 & _). rewrite B2. destruct (Nat.eqb y p); [discriminate|exact (HZ y cy B0)].
  - pose proof (HS5 x) as HH. rewrite Hx4 in HH. destruct (h5 x) as [c5|] eqn:E5; [|contradiction]. destruct HH as (_ & A & B & _). exists c5. split; [reflexivity|]. split; [exact A|]. split; [exact B|]. destruct (HB5 x c5 E5) as (c4 & A0 & _ & _ & _ & A4). rewrite Hx4 in A0. injection A0 as <-. rewrite A4 by exact HNIx. reflexivity.
  - intros y Hy. destruct (h y) as [cy|] eqn:Ey; [|contradiction]. destruct (HFw y cy Ey) as (cy' & Hy'). pose proof (HS5 y) as HH. rewrite Hy' in HH. destruct (h5 y); [discriminate|contradiction].
  - constructor.
    + intros y c5 Hy. destruct (HB5 y c5 Hy) as (c4 & B0 & _). destruct (HB4 y c4 B0) as (cy & A0 & _). congruence.
    + intros y cy c5 HNx Hy Hy5. destruct (HB5 y c5 Hy5) as (c4 & B0 & _ & B1 & B2 & _). destruct (HB4 y c4 B0) as (c1 & A0 & _ & _ & _ & A4). rewrite Hy in A0. injection A0 as <-. destruct (A4 HNx) as [A5 A6]. split; [congruence|]. rewrite B2, A6. reflexivity.
    + intros y cy c5 js Hy Hy5 HPth. destruct (HB5 y c5 Hy5) as (c4 & B0 & _). destruct (HB4 y c4 B0) as (c1 & A0 & A1 & _). rewrite Hy in A0. injection A0 as <-. rewrite <- A1.
      rewrite (respine_trees l h4 r p cp4 g h5 HC4 HND HI4 HI5 HS5 Hp4 HGp (gnode_new _ _) (gkind_new seg _ _) Hp5 HUp y js c4 c5 (HPath4 y js HPth) B0 Hy5). unfold g. rewrite gchildren_new. reflexivity.
    + intros y cy c5 Hy Hy5 HPth. destruct (HB5 y c5 Hy5) as (c4 & B0 & _ & _ & _ & B3). destruct (HB4 y c4 B0) as (c1 & A0 & A1 & _). rewrite Hy in A0. injection A0 as <-. rewrite B3; [exact A1|]. intros HIn. destruct (chain_path _ _ _ HC y HIn) as (js & Hjs). exact (HPth js Hjs).
Qed.
End seg.
