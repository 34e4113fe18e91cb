(** * C46: edits of the syntax tree through handles *)
From Coq Require Import String Ascii List NArith Bool Arith Lia Sorted.
From Verif Require Import Base SyntaxKind TextModel ParserModel LexerProps GreenModel GreenProps RedProofs MutModel MutSpec MutProofs MutEdits.
Import ListNotations.
Open Scope list_scope.
Open Scope nat_scope.
Implicit Types h : heap.

Definition held (hs : list nat) : nat -> nat := count_occ Nat.eq_dec hs.
Lemma held_cons hs x y : held (x :: hs) y = add (held hs) x y.
Proof. unfold held, add. cbn [count_occ]. destruct (Nat.eq_dec x y) as [-> |HN]; [rewrite Nat.eqb_refl; reflexivity|]. apply not_eq_sym in HN. apply Nat.eqb_neq in HN. rewrite HN. reflexivity. Qed.
Lemma held_remove1 hs x y : held (remove1 x hs) y = sub (held hs) x y.
Proof.
  unfold held, sub. induction hs as [|z hs IH]; [cbn; destruct (Nat.eqb y x); reflexivity|]. cbn [remove1 count_occ]. destruct (Nat.eqb z x) eqn:E.
  - apply Nat.eqb_eq in E as ->. destruct (Nat.eq_dec x y) as [-> |HN]; [rewrite Nat.eqb_refl; reflexivity|]. apply not_eq_sym in HN. apply Nat.eqb_neq in HN. rewrite HN. reflexivity.
  - cbn [count_occ]. destruct (Nat.eq_dec z y) as [-> |HN]; [rewrite IH; rewrite E; reflexivity|exact IH].
Qed.
Lemma held_in hs x : In x hs <-> 0 < held hs x.
Proof. unfold held. rewrite (count_occ_In Nat.eq_dec). split; lia. Qed.
Lemma held_remove_all new : forall hs y, held (remove_all new hs) y = sub_all (held hs) new y.
Proof.
  induction new as [|x new IH]; intros hs y; [reflexivity|]. cbn [remove_all fold_left]. change (held (remove_all new (remove1 x hs)) y = sub_all (sub (held hs) x) new y). rewrite IH.
  assert (HE : forall r r', (forall z, r z = r' z) -> forall z, sub_all r new z = sub_all r' new z). { clear. induction new as [|w new IH]; intros r r' H z; [apply H|]. cbn [sub_all fold_left]. apply (IH (sub r w) (sub r' w)). intros v. unfold sub. rewrite H. reflexivity. }
  apply HE. intros z. apply held_remove1.
Qed.
Lemma gives_same {A} (f : nat -> option A) a b : gives f a -> gives f b -> a = b.
Proof. intros (n & Hn) (m & Hm). specialize (Hn (max n m) ltac:(lia)). specialize (Hm (max n m) ltac:(lia)). congruence. Qed.
Lemma sees_iff h x q i g : sees h x q i g <-> exists c, h x = Some c /\ parent c = q /\ index c = i /\ cgreen c = g. Proof. reflexivity. Qed.

Section seg.
Context (seg : str -> list str) (alloc : heap -> nat) (HFresh : fresh alloc).
Definition good (s : state) : Prop := inv seg (fst s) (held (snd s)).
(** each operation gives a result, and keeps the invariant; what it does is said below *)
Lemma detach_any h r x : inv seg h r -> 0 < r x -> exists h', gives (fun m => detach seg m h x) h' /\ inv seg h' r.
Proof.
  intros HI Hr. destruct (h x) as [c|] eqn:Hx; [|contradiction (i_handles _ _ _ _ (proj1 HI) x Hr Hx)]. destruct (parent c) as [p|] eqn:HP.
  - destruct (i_parent _ _ _ _ (proj1 HI) x c p Hx HP) as (cp & Hp & _). destruct (detach_ok seg h r x c p cp HI Hr Hx HP Hp) as (h' & HD & HI' & _). exists h'. auto.
  - exists h. split; [|exact HI]. exists 0. intros m _. unfold detach. rewrite Hx, HP. reflexivity.
Qed.
Lemma splice_allowed h hs p a b new : good (h, hs) -> allowed seg (h, hs) (Splice p a b new) ->
  exists cp, h p = Some cp /\ 0 < held hs p /\ gnode (cgreen cp) = true /\ a <= List.length (gchildren (cgreen cp)) /\ NoDup new /\ (forall x, In x new -> 0 < held hs x) /\ (forall x js, In x new -> ~ path h x p js) /\
    (forall x c, In x new -> h x = Some c -> parent c = None \/ (parent c = Some p /\ a <= index c < b)).
Proof.
  intros HI (HIn & (cp & Hp & HG) & HL & HND & HN). exists cp. unfold children_of in HL. rewrite Hp in HL. repeat split; try assumption.
  - apply held_in. exact HIn.
  - intros x Hx. apply held_in. exact (proj1 (HN x Hx)).
  - intros x js Hx. exact (proj1 (proj2 (HN x Hx)) js).
  - intros x c Hx Hc. destruct (proj2 (proj2 (HN x Hx))) as [HP|(i & g & (c' & A & B & C & D) & HR)]; [left; unfold parent_of in HP; rewrite Hc in HP; exact HP|right]. assert (c' = c) by congruence. subst c'. split; [exact B|lia].
Qed.
Lemma step_good s o : good s -> allowed seg s o -> exists s', step seg alloc s o s' /\ good s'.
Proof.
  destruct s as [h hs]. intros HI HA. destruct o as [g|p i|x|x|x|x|p a b new]; cbn [allowed] in HA.
  - pose proof (new_root_ok seg alloc HFresh h _ g HI HA) as HR. destruct (new_root alloc h g) as [h' x] eqn:E. destruct HR as (_ & HI' & _). exists (h', x :: hs). split; [constructor; exact E|]. refine (inv_ext seg _ _ _ _ (fun _ => eq_refl) _ HI'). intros y. symmetry. apply held_cons.
  - destruct HA as [HIn HL]. unfold children_of in HL. destruct (h p) as [cp|] eqn:Hp; [|cbn in HL; lia]. destruct (nth_error (gchildren (cgreen cp)) i) as [g|] eqn:EN; [|apply nth_error_None in EN; lia].
    destruct (child_ok seg alloc HFresh h _ p cp i g HI Hp EN) as (h' & x & HC & HI' & _). exists (h', x :: hs). split; [constructor; exists 0; intros m _; apply HC|]. refine (inv_ext seg _ _ _ _ (fun _ => eq_refl) _ HI'). intros y. symmetry. apply held_cons.
  - destruct HA as [HIn HP]. unfold parent_of in HP. destruct (h x) as [c|] eqn:Hx; [|congruence]. destruct (parent c) as [q|] eqn:EP; [|congruence]. destruct (i_parent _ _ _ _ (proj1 HI) x c q Hx EP) as (cq & Hq & _).
    destruct (inc_inv seg h _ q cq HI Hq) as (h' & HInc & HI' & _). exists (h', q :: hs). split; [constructor; unfold parent_node; rewrite Hx, EP; cbn [fst] in HInc; rewrite HInc; reflexivity|]. refine (inv_ext seg _ _ _ _ (fun _ => eq_refl) _ HI'). intros y. symmetry. apply held_cons.
  - apply held_in in HA. destruct (h x) as [c|] eqn:Hx; [|contradiction (i_handles _ _ _ _ (proj1 HI) x HA Hx)]. destruct (inc_inv seg h _ x c HI Hx) as (h' & HInc & HI' & _). exists (h', x :: hs). split; [constructor; exact HInc|]. refine (inv_ext seg _ _ _ _ (fun _ => eq_refl) _ HI'). intros y. symmetry. apply held_cons.
  - apply held_in in HA. destruct (drop_ok seg h _ x HI HA) as (h' & HD & HI' & _). exists (h', remove1 x hs). split; [constructor; exact HD|]. refine (inv_ext seg _ _ _ _ (fun _ => eq_refl) _ HI'). intros y. symmetry. apply held_remove1.
  - apply held_in in HA. destruct (detach_any h _ x HI HA) as (h' & HD & HI'). exists (h', hs). split; [constructor; exact HD|exact HI'].
  - destruct (splice_allowed h hs p a b new HI HA) as (cp & Hp & A1 & A2 & A3 & A4 & A5 & A6 & A7).
    destruct (splice_ok seg a b alloc HFresh h _ p cp new HI A1 Hp A2 A3 A4 A5 A6 A7) as (h' & ts & HS & HI' & _). exists (h', remove_all new hs). split; [constructor; exact HS|]. refine (inv_ext seg _ _ _ _ (fun _ => eq_refl) _ HI'). intros y. symmetry. apply held_remove_all.
Qed.
Lemma step_det s o s1 s2 : step seg alloc s o s1 -> step seg alloc s o s2 -> s1 = s2.
Proof.
  intros H1 H2. destruct H1; inversion H2; subst; try congruence.
  - match goal with A : gives _ (h', x), B : gives _ _ |- _ => pose proof (gives_same _ _ _ A B) end. congruence.
  - match goal with A : gives _ h', B : gives _ _ |- _ => pose proof (gives_same _ _ _ A B) end. congruence.
  - match goal with A : gives _ h', B : gives _ _ |- _ => pose proof (gives_same _ _ _ A B) end. congruence.
  - match goal with A : gives _ h', B : gives _ _ |- _ => pose proof (gives_same _ _ _ A B) end. congruence.
Qed.
Lemma reach_good s : reachable seg alloc s -> good s.
Proof.
  induction 1 as [|s o s' HR IH HA HS].
  - split; [|discriminate]. constructor; try discriminate; [intros x H; inversion H|exists 0; reflexivity].
  - destruct (step_good s o IH HA) as (s2 & HS2 & HG). rewrite (step_det _ _ _ _ HS HS2). exact HG.
Qed.
End seg.

(** ** C46 *)
(** Whatever is done with handles, as long as the callers keep to what they may do, every operation comes to an end without a panic and without
    touching memory that has been given back. *)
Theorem C46_safe : forall seg alloc, fresh alloc -> forall s, reachable seg alloc s -> forall o, allowed seg s o -> exists s', step seg alloc s o s'.
Proof. intros seg alloc HF s HR o HA. destruct (step_good seg alloc HF s o (reach_good seg alloc HF s HR) HA) as (s' & HS & _). exists s'. exact HS. Qed.
Print Assumptions C46_safe.

(** At any time each handle is alive; it has its own tree at its own index below its parent, which is alive too; there is never a second
    element for the same place; and only what is held, or is above something held, is in memory. *)
Theorem C46_coherent : forall seg alloc, fresh alloc -> forall h hs, reachable seg alloc (h, hs) ->
  (forall x, In x hs -> exists q i g, sees h x q i g) /\
  (forall x q i g, sees h x (Some q) i g -> h q <> None /\ nth_error (children_of h q) i = Some g) /\
  (forall x y q i g g', sees h x (Some q) i g -> sees h y (Some q) i g' -> x = y) /\
  (forall x, h x <> None -> exists y js, In y hs /\ path h x y js).
Proof.
  intros seg alloc HF h hs HR. pose proof (reach_good seg alloc HF _ HR) as HI. unfold good in HI. cbn [fst snd] in HI. split; [|split; [|split]].
  - intros x Hx. apply held_in in Hx. destruct (h x) as [c|] eqn:E; [|contradiction (i_handles _ _ _ _ (proj1 HI) x Hx E)]. exists (parent c), (index c), (cgreen c), c. auto.
  - intros x q i g (c & Hx & HP & <- & <-). destruct (i_parent _ _ _ _ (proj1 HI) x c q Hx HP) as (cq & A & B & _). unfold children_of. rewrite A. split; [discriminate|exact B].
  - intros x y q i g g' (c & Hx & HP & HIx & _) (c' & Hy & HP' & HIy & _). exact (siblings_unique seg None h _ x y c c' q (proj1 HI) Hx Hy HP HP' (eq_trans HIx (eq_sym HIy))).
  - destruct HI as [HI HZ]. assert (HG : forall n x c, h x = Some c -> green_size (cgreen c) < n -> exists y js, In y hs /\ path h x y js).
    { induction n as [|n IH]; intros x c Hx Hn; [lia|]. pose proof (HZ x c Hx) as HRc. rewrite (i_rc _ _ _ _ HI x c Hx) in HRc. destruct (first c) as [|z f] eqn:EF.
      - exists x, []. split; [apply held_in; cbn in HRc; lia|constructor].
      - destruct (i_ring _ _ _ _ HI x c z Hx) as (cz & Hz & HPz); [rewrite EF; left; reflexivity|]. destruct (i_parent _ _ _ _ HI z cz x Hz HPz) as (c' & A & B & _). assert (c' = c) by congruence. subst c'. apply gchild_size in B.
        destruct (IH z cz Hz ltac:(lia)) as (y & js & HIn & HPath). exists y, (index cz :: js). split; [exact HIn|]. exact (path_down _ _ _ _ _ _ Hz HPz HPath). }
    intros x Hx. destruct (h x) as [c|] eqn:E; [|congruence]. exact (HG _ x c E (Nat.lt_succ_diag_r _)).
Qed.
Print Assumptions C46_coherent.

(** Making, copying and dropping handles edits nothing: what the handles that are left see is what they saw; a child is the child that was
    asked for, and the parent is the parent. *)
Definition edits (o : op) : bool := match o with Detach _ | Splice _ _ _ _ => true | _ => false end.
Theorem C46_quiet : forall seg alloc, fresh alloc -> forall h hs, reachable seg alloc (h, hs) -> forall o, allowed seg (h, hs) o -> forall h' hs', step seg alloc (h, hs) o (h', hs') ->
  (edits o = false -> forall x q i g, In x hs -> In x hs' -> sees h x q i g -> sees h' x q i g) /\
  match o with
  | NewRoot g => exists x, hs' = x :: hs /\ ~ In x hs /\ sees h' x None 0 g
  | Child p i => exists x g, hs' = x :: hs /\ nth_error (children_of h p) i = Some g /\ sees h' x (Some p) i g
  | Parent x => exists q, hs' = q :: hs /\ parent_of h x = Some q
  | Clone x => hs' = x :: hs
  | Drop x => hs' = remove1 x hs
  | _ => True
  end.
Proof.
  intros seg alloc HF h hs HR o HA h' hs' HS. pose proof (reach_good seg alloc HF _ HR) as HI. unfold good in HI. cbn [fst snd] in HI.
  assert (HGrown : grown h h' -> forall x q i g, In x hs -> In x hs' -> sees h x q i g -> sees h' x q i g). { intros HG x q i g _ _ (c & Hx & <- & <- & <-). destruct (HG x c Hx) as (c' & A & B). exists c'. auto. }
  inversion HS; subst; cbn [allowed] in HA.
  - pose proof (new_root_ok seg alloc HF h _ g HI HA) as HN. match goal with E : new_root _ _ _ = _ |- _ => rewrite E in HN end. destruct HN as (A & _ & B & C). split.
    + intros _. apply HGrown. intros y c Hy. exists c. rewrite B by congruence. auto.
    + exists x. split; [reflexivity|]. split; [|exists (MkCell 1 None 0 g []); auto]. intros HIn. apply held_in in HIn. exact (i_handles _ _ _ _ (proj1 HI) x HIn A).
  - destruct HA as [HIn HL]. unfold children_of in *. destruct (h p) as [cp|] eqn:Hp; [|cbn in HL; lia]. destruct (nth_error (gchildren (cgreen cp)) i) as [g|] eqn:EN; [|apply nth_error_None in EN; lia].
    destruct (child_ok seg alloc HF h _ p cp i g HI Hp EN) as (h2 & x2 & HC & HI' & HG & _ & HX). match goal with E : gives _ (h', x) |- _ => pose proof (gives_same _ _ (h2, x2) E (ex_intro _ 0 (fun m _ => HC m))) as HE end. injection HE as -> ->. split; [intros _; exact (HGrown HG)|]. exists x2, g. split; [reflexivity|]. split; [reflexivity|exact HX].
  - destruct HA as [HIn HP]. unfold parent_of in *. match goal with E : parent_node _ _ = _ |- _ => unfold parent_node in E; rename E into E0 end. destruct (h x) as [c|] eqn:Hx; [|congruence]. destruct (parent c) as [q'|] eqn:EP; [|congruence]. destruct (i_parent _ _ _ _ (proj1 HI) x c q' Hx EP) as (cq & Hq & _).
    destruct (inc_inv seg h _ q' cq HI Hq) as (h2 & HInc & _ & HG & _). rewrite HInc in E0. injection E0 as <- <-. split; [intros _; exact (HGrown HG)|]. exists q'. auto.
  - apply held_in in HA. destruct (h x) as [c|] eqn:Hx; [|contradiction (i_handles _ _ _ _ (proj1 HI) x HA Hx)]. destruct (inc_inv seg h _ x c HI Hx) as (h2 & HInc & _ & HG & _). assert (h2 = h') by congruence. subst h2. split; [intros _; exact (HGrown HG)|reflexivity].
  - apply held_in in HA. destruct (drop_ok seg h _ x HI HA) as (h2 & HD & HI' & HK). match goal with E : gives _ h' |- _ => pose proof (gives_same _ _ h2 E HD) end. subst h2. split; [|reflexivity]. intros _ y q i g _ Hy (c & Hc & <- & <- & <-).
    apply held_in in Hy. rewrite held_remove1 in Hy. destruct (h' y) as [c'|] eqn:E'; [|contradiction (i_handles _ _ _ _ (proj1 HI') y Hy E')]. destruct (HK y c' E') as (c0 & A & B & C & D). assert (c0 = c) by congruence. subst c0. exists c'. auto.
  - split; [discriminate|exact I].
  - split; [discriminate|exact I].
Qed.
Print Assumptions C46_quiet.

(** An element that is detached becomes a tree of its own and stays as it was. Its old siblings after it move up by one; all other handles keep
    their parents and indices. The parent loses the child at that index, the trees above change with it, and no other tree changes. *)
Theorem C46_detach : forall seg alloc, fresh alloc -> forall h hs, reachable seg alloc (h, hs) -> forall x p i t, In x hs -> sees h x (Some p) i t -> forall h' hs', step seg alloc (h, hs) (Detach x) (h', hs') ->
  hs' = hs /\ (exists j, sees h' x None j t) /\
  forall y q j g, In y hs -> y <> x -> sees h y q j g -> exists j' g', sees h' y q j' g' /\
    j' = (if match q with Some q => Nat.eqb q p | None => false end && (i <? j) then j - 1 else j) /\
    (forall js, path h y p js -> g' = with_children seg js (firstn i (children_of h p) ++ skipn (S i) (children_of h p)) g) /\
    ((forall js, ~ path h y p js) -> g' = g).
Proof.
  intros seg alloc HF h hs HR x p i t HIn (c & Hx & HP & <- & <-) h' hs' HS. pose proof (reach_good seg alloc HF _ HR) as HI. unfold good in HI. cbn [fst snd] in HI. inversion HS; subst. split; [reflexivity|].
  destruct (i_parent _ _ _ _ (proj1 HI) x c p Hx HP) as (cp & Hp & _). apply held_in in HIn. destruct (detach_ok seg h _ x c p cp HI HIn Hx HP Hp) as (h2 & HD & HI2 & (c' & A & B & C) & HE). match goal with E : gives _ h' |- _ => pose proof (gives_same _ _ h2 E HD) end. subst h2.
  unfold children_of. rewrite Hp. split; [exists (index c'), c'; auto|]. intros y q j g Hy HN (cy & Hcy & <- & <- & <-). apply held_in in Hy. destruct (h' y) as [cy'|] eqn:E'; [|contradiction (i_handles _ _ _ _ (proj1 HI2) y Hy E')].
  destruct (e_same _ _ _ _ _ _ _ HE y cy cy' HN Hcy E') as [D1 D2]. exists (index cy'), (cgreen cy'). split; [exists cy'; auto|]. split; [|split].
  - rewrite D2. destruct (parent cy) as [q|]; [|reflexivity]. destruct (Nat.eqb q p); [|reflexivity]. cbn [andb]. destruct (index c <? index cy); [lia|reflexivity].
  - intros js HPath. exact (e_above _ _ _ _ _ _ _ HE y cy cy' js Hcy E' HPath).
  - intros HPath. exact (e_off _ _ _ _ _ _ _ HE y cy cy' Hcy E' HPath).
Qed.
Print Assumptions C46_detach.

(** Replacing the children from [a] to [b] by new elements gives the node exactly those children; the new elements keep their trees and stand
    where they were put; a handle of a child before or after the range keeps its child; a handle of a child in the range has a tree of its own;
    the trees above change with the node's, and no other tree changes. *)
Theorem C46_splice : forall seg alloc, fresh alloc -> forall h hs, reachable seg alloc (h, hs) -> forall p a b new, allowed seg (h, hs) (Splice p a b new) ->
  forall h' hs', step seg alloc (h, hs) (Splice p a b new) (h', hs') -> exists ts,
  Forall2 (fun x t => exists q i, sees h x q i t) new ts /\
  children_of h' p = firstn a (children_of h p) ++ ts ++ skipn (max a b) (children_of h p) /\ hs' = remove_all new hs /\
  (forall k x t, nth_error new k = Some x -> nth_error ts k = Some t -> In x hs' -> sees h' x (Some p) (a + k) t) /\
  (forall y q i g, In y hs' -> ~ In y new -> sees h y q i g -> exists q' i' g', sees h' y q' i' g' /\
     (q = None -> q' = None) /\ (forall q0, q = Some q0 -> q0 <> p -> q' = q /\ i' = i) /\
     (q = Some p -> (i < a -> q' = q /\ i' = i) /\ (a <= i < b -> q' = None) /\ (a <= i -> b <= i -> q' = q /\ i' = i - (b - a) + List.length new)) /\
     (forall js, path h y p js -> g' = with_children seg js (children_of h' p) g) /\ ((forall js, ~ path h y p js) -> g' = g)).
Proof.
  intros seg alloc HF h hs HR p a b new HA h' hs' HS. pose proof (reach_good seg alloc HF _ HR) as HG. pose proof HG as HI. unfold good in HI. cbn [fst snd] in HI. inversion HS; subst. destruct (splice_allowed seg h hs p a b new HG HA) as (cp & Hp & A1 & A2 & A3 & A4 & A5 & A6 & A7).
  destruct (splice_ok seg a b alloc HF h _ p cp new HI A1 Hp A2 A3 A4 A5 A6 A7) as (h2 & ts & HSp & HI' & HT & HM & HX). match goal with E : gives _ h' |- _ => pose proof (gives_same _ _ h2 E HSp) end. subst h2. exists ts. unfold children_of at 2 3. rewrite Hp.
  assert (HNp : ~ In p new) by (intros HIn; exact (A6 p [] HIn (path_here _ _))). assert (HpS : 0 < sub_all (held hs) new p) by (rewrite sub_all_notin by exact HNp; exact A1).
  assert (HKids : children_of h' p = firstn a (gchildren (cgreen cp)) ++ ts ++ skipn (max a b) (gchildren (cgreen cp))). { destruct (HM p cp (or_introl HpS) Hp) as (cp' & Hp' & _ & HGr & _). unfold children_of. rewrite Hp'. rewrite (HGr [] (path_here _ _)). apply gchildren_new. }
  split; [|split; [exact HKids|split; [reflexivity|split]]].
  - clear - HT. induction HT as [|x t new ts (c & A & B) HT IH]; constructor; [exists (parent c), (index c), c; auto|exact IH].
  - intros k x t Hk Ht Hx. apply held_in in Hx. rewrite held_remove_all in Hx. assert (HTk : exists c, h x = Some c /\ cgreen c = t). { clear - HT Hk Ht. revert k Hk Ht. induction HT as [|x0 t0 new ts H HT IH]; intros [|k] Hk Ht; try discriminate; [injection Hk as <-; injection Ht as <-; exact H|exact (IH k Hk Ht)]. }
    destruct HTk as (c & Hc & <-). destruct (HX k x c Hk Hc Hx) as (c' & B1 & B2 & B3 & B4). exists c'. auto.
  - intros y q i g Hy HN (c & Hc & <- & <- & <-). apply held_in in Hy. rewrite held_remove_all in Hy. destruct (HM y c (or_introl Hy) Hc) as (c' & B1 & B2 & B3 & B4). exists (parent c'), (index c'), (cgreen c'). split; [exists c'; auto|]. specialize (B2 HN).
    split; [intros HP; rewrite HP in B2; exact B2|]. split; [intros q0 HP HQ; rewrite HP in B2 |- *; apply Nat.eqb_neq in HQ; rewrite HQ in B2; exact B2|]. split; [|split; [intros js HPath; rewrite HKids; exact (B3 js HPath)|exact B4]].
    intros HP. rewrite HP in B2 |- *. rewrite Nat.eqb_refl in B2. unfold new_place in B2. split; [|split].
    + intros HLt. replace (index c <? a) with true in B2 by (symmetry; apply Nat.ltb_lt; lia). exact B2.
    + intros HLt. replace (index c <? a) with false in B2 by (symmetry; apply Nat.ltb_ge; lia). replace (index c <? b) with true in B2 by (symmetry; apply Nat.ltb_lt; lia). exact B2.
    + intros HLe HLe2. replace (index c <? a) with false in B2 by (symmetry; apply Nat.ltb_ge; lia). replace (index c <? b) with false in B2 by (symmetry; apply Nat.ltb_ge; lia). exact B2.
Qed.
Print Assumptions C46_splice.

(** ** Places *)
Fixpoint element_at (js : list nat) (g : green) : option green :=
  match js with [] => Some g | j :: js => match nth_error (gchildren g) j with Some c => element_at js c | None => None end end.
Lemma before_app js i : forall g t, element_at js g = Some t -> i < List.length (gchildren t) -> elements_before (js ++ [i]) g = elements_before js g ++ firstn i (gchildren t).
Proof.
  induction js as [|j js IH]; intros g t H HL; cbn [app elements_before element_at] in *.
  - injection H as <-. destruct (nth_error (gchildren g) i) eqn:E; [rewrite app_nil_r; reflexivity|]. apply nth_error_None in E. lia.
  - destruct (nth_error (gchildren g) j) as [c|]; [|discriminate]. rewrite (IH c t H HL), app_assoc. reflexivity.
Qed.
Lemma element_app js i : forall g t, element_at js g = Some t -> element_at (js ++ [i]) g = nth_error (gchildren t) i.
Proof.
  induction js as [|j js IH]; intros g t H; cbn [app element_at] in *.
  - injection H as <-. destruct (nth_error (gchildren g) i); reflexivity.
  - destruct (nth_error (gchildren g) j) as [c|]; [exact (IH c t H)|discriminate].
Qed.
Lemma raw_child g i t : nth_error (gchildren g) i = Some t -> exists r, nth_error (gchildren_raw g) i = Some r.
Proof. unfold gchildren. rewrite nth_error_map. destruct (nth_error (gchildren_raw g) i) as [r|]; [eauto|discriminate]. Qed.
Lemma len_bytes_app a b : len_bytes (a ++ b) = (len_bytes a + len_bytes b)%N.
Proof. unfold len_bytes. induction a as [|x a IH]; [reflexivity|]. cbn [app fold_right map]. cbn in *. rewrite IH. lia. Qed.
Section places.
Context (seg : str -> list str).
Definition text_before (js : list nat) (g : green) : str := concat (map gtext (elements_before js g)).
Definition clusters_before (js : list nat) (g : green) : list str := flat_map seg (flat_map token_texts (elements_before js g)).
Lemma place_ok h r : inv seg h r -> forall x l, chain h x l -> forall c, h x = Some c -> exists y cy js, h y = Some cy /\ parent cy = None /\ path h y x js /\ element_at js (cgreen cy) = Some (cgreen c) /\
  (forall m res, List.length l < m -> offset_mut m h x res = Some (res + len_bytes (text_before js (cgreen cy)))%N) /\
  (forall m res, List.length l < m -> exists pos, position_mut m h x res = Some pos /\ line pos = (line res + rline (rel_of_clusters (clusters_before js (cgreen cy))))%N) /\
  (forall m, List.length l < m -> l <> [] -> List.length l = 1 -> position_mut m h x (Pos 0 0) = Some (pos_add (Pos 0 0) (rel_of_clusters (clusters_before js (cgreen cy))))).
Proof.
  intros [HI HZ] x l HC. induction HC as [x c0 Hx0 HP0|x c0 p l Hx0 HP0 HC IH]; intros c Hx.
  - assert (c0 = c) by congruence. subst c0. exists x, c, []. split; [exact Hx|]. split; [exact HP0|]. split; [constructor|]. split; [reflexivity|]. split; [|split].
    + intros [|m] res Hm; [lia|]. cbn [offset_mut]. rewrite Hx, HP0. cbn. rewrite N.add_0_r. reflexivity.
    + intros [|m] res Hm; [lia|]. cbn [position_mut]. rewrite Hx, HP0. exists res. split; [reflexivity|]. cbn. rewrite N.add_0_r. reflexivity.
    + intros m Hm HN. contradiction.
  - assert (c0 = c) by congruence. subst c0. destruct (i_parent _ _ _ _ HI x c p Hx HP0) as (cp & Hp & HNth & _). cbn [kids_of] in HNth. destruct (IH cp Hp) as (y & cy & js & Hy & HPy & HPath & HEl & HOff & HPos & HFlat).
    destruct (raw_child _ _ _ HNth) as (rw & HRaw). pose proof (C21_offsets seg (cgreen cp) (i_built _ _ _ _ HI p cp Hp) (index c) rw HRaw) as [HRO HRP].
    assert (HLt : index c < List.length (gchildren (cgreen cp))) by (apply nth_error_Some; congruence).
    exists y, cy, (js ++ [index c]). split; [exact Hy|]. split; [exact HPy|]. split; [apply (path_app _ _ p _ _ _ HPath); exact (path_down _ _ _ c [] _ Hx HP0 (path_here _ _))|]. split; [rewrite (element_app _ _ _ _ HEl); exact HNth|].
    unfold text_before, clusters_before in *. rewrite (before_app _ _ _ _ HEl HLt). split; [|split].
    + intros [|m] res Hm; [lia|]. cbn [offset_mut]. rewrite Hx, HP0, Hp, HRaw, HOff by (cbn in Hm; lia). rewrite HRO, map_app, concat_app, len_bytes_app. f_equal. lia.
    + intros [|m] res Hm; [lia|]. cbn [position_mut]. rewrite Hx, HP0, Hp, HRaw. destruct (HPos m (pos_add res (relative_position rw)) ltac:(cbn in Hm; lia)) as (pos & A & B). exists pos. split; [exact A|]. rewrite B, HRP, !flat_map_app, rel_of_app. unfold pos_add, rel_add. cbn [line rline]. lia.
    + intros [|m] Hm _ HL1; [lia|]. cbn [List.length] in HL1. assert (l = []) by (destruct l; [reflexivity|cbn in HL1; lia]). subst l.
      assert (HPp : parent cp = None) by (inversion HC; congruence). assert (Hyp : y = p /\ js = []). { inversion HC; subst. inversion HPath as [|? z cz ? ? Hz HPz HP2]; subst; [auto|]. exfalso. pose proof (path_chain _ _ _ _ HPath _ HC) as [HE|[]]. subst y. exact (not_below seg h r _ _ _ _ _ (conj HI HZ) HP2 Hz HPz eq_refl). }
      destruct Hyp as [-> ->]. cbn [elements_before app]. cbn [position_mut]. rewrite Hx, HP0, Hp, HRaw, HRP. destruct m as [|m]; [cbn in Hm; lia|]. cbn [position_mut]. rewrite Hp, HPp. reflexivity.
Qed.
End places.
(** The offset of an element, also after edits, is the length of the text before it in the whole tree that it is in. *)
Theorem C46_offset : forall seg alloc, fresh alloc -> forall h hs, reachable seg alloc (h, hs) -> forall x, In x hs ->
  exists y js i g, sees h y None i g /\ path h y x js /\ (exists q j t, sees h x q j t /\ element_at js g = Some t) /\
    gives (fun m => offset_mut m h x 0) (len_bytes (concat (map gtext (elements_before js g)))).
Proof.
  intros seg alloc HF h hs HR x HIn. pose proof (reach_good seg alloc HF _ HR) as HI. unfold good in HI. cbn [fst snd] in HI. apply held_in in HIn. destruct (h x) as [c|] eqn:Hx; [|contradiction (i_handles _ _ _ _ (proj1 HI) x HIn Hx)].
  destruct (chain_exists seg h _ x c (proj1 HI) Hx) as (l & HC & _). destruct (place_ok seg h _ HI x l HC c Hx) as (y & cy & js & Hy & HPy & HPath & HEl & HOff & _). exists y, js, (index cy), (cgreen cy).
  split; [exists cy; auto|]. split; [exact HPath|]. split; [exists (parent c), (index c), (cgreen c); split; [exists c; auto|exact HEl]|]. exists (S (List.length l)). intros m Hm. rewrite HOff by lia. reflexivity.
Qed.
Print Assumptions C46_offset.
(** Its position has the right line. The column is right too for the children of the root. What is missing: the column of all other elements,
    see below. *)
Theorem C46_position_partial : forall seg alloc, fresh alloc -> forall h hs, reachable seg alloc (h, hs) -> forall x, In x hs ->
  exists y js i g pos, sees h y None i g /\ path h y x js /\ gives (fun m => position_mut m h x (Pos 0 0)) pos /\
    line pos = rline (rel_of_clusters (flat_map seg (flat_map token_texts (elements_before js g)))) /\
    (parent_of h x = Some y -> pos = pos_add (Pos 0 0) (rel_of_clusters (flat_map seg (flat_map token_texts (elements_before js g))))).
Proof.
  intros seg alloc HF h hs HR x HIn. pose proof (reach_good seg alloc HF _ HR) as HI. unfold good in HI. cbn [fst snd] in HI. apply held_in in HIn. destruct (h x) as [c|] eqn:Hx; [|contradiction (i_handles _ _ _ _ (proj1 HI) x HIn Hx)].
  destruct (chain_exists seg h _ x c (proj1 HI) Hx) as (l & HC & _). destruct (place_ok seg h _ HI x l HC c Hx) as (y & cy & js & Hy & HPy & HPath & HEl & _ & HPos & HFlat). destruct (HPos (S (List.length l)) (Pos 0 0) (Nat.lt_succ_diag_r _)) as (pos & A & B).
  assert (HGv : gives (fun m => position_mut m h x (Pos 0 0)) pos).
  { exists (S (List.length l)). intros m Hm. destruct (HPos m (Pos 0 0) ltac:(lia)) as (pos' & A' & _). rewrite A', <- A. assert (HMono : forall l x, chain h x l -> forall m res, List.length l < m -> position_mut m h x res = position_mut (S (List.length l)) h x res).
    { clear. intros l x HC. induction HC as [x c0 Hx0 HP0|x c0 p l Hx0 HP0 HC IH]; intros [|m] res Hm; try lia; cbn [position_mut]; rewrite Hx0, HP0; [reflexivity|]. destruct (h p) as [cp|]; [|reflexivity]. destruct (nth_error _ _) as [rw|]; [|reflexivity]. rewrite IH by (cbn in Hm; lia). reflexivity. }
    rewrite <- (HMono l x HC m (Pos 0 0) ltac:(lia)). symmetry. exact A'. }
  exists y, js, (index cy), (cgreen cy), pos. split; [exists cy; auto|]. split; [exact HPath|]. split; [exact HGv|]. split; [exact B|].
  intros HP. unfold parent_of in HP. rewrite Hx in HP. inversion HC as [|? c1 p l' Hx1 HP1 HC']; subst; [congruence|]. assert (p = y) by congruence. subst p. inversion HC' as [? c2 Hc2 HP2|? c2 p2 l2 Hc2 HP2]; subst; [|congruence].
  pose proof (HFlat (S (List.length [y])) (Nat.lt_succ_diag_r _) ltac:(discriminate) eq_refl) as HE. unfold clusters_before in HE. rewrite A in HE. injection HE as ->. reflexivity.
Qed.
Print Assumptions C46_position_partial.

(** ** The hypotheses are met *)
Lemma top_fresh : fresh top. Proof. intros h. apply top_ok. apply Nat.le_refl. Qed.
(** a line end, then a node of [b], a line end and [d], then [c] *)
Definition tok (t : string) : green := GTok BARE_KEY (lit t).
Definition inner : green := gnew seg1 KEYS [tok "b"; GTok LINE_BREAK [10%N]; tok "d"].
Definition whole : green := gnew seg1 ROOT [GTok LINE_BREAK [10%N]; inner; tok "c"].
Definition other : green := gnew seg1 VALUE [tok "new"].
Definition e1 : state := (fst (new_root top empty whole), [0]).
Definition e2 : state := match child top 9 (fst e1) 0 1 with Some (h, x) => (h, x :: snd e1) | None => e1 end.
Definition e3 : state := let (h, x) := new_root top (fst e2) other in (h, x :: snd e2).
Definition e4 : state := match splice seg1 top 9 (fst e3) 0 0 2 [2] with Some h => (h, remove_all [2] (snd e3)) | None => e3 end.
Lemma e1_reachable : reachable seg1 top e1.
Proof.
  refine (reach_step _ _ _ (NewRoot whole) _ (reach_start _ _) _ _); [|constructor; reflexivity]. cbn [allowed]. repeat (constructor || apply built_node).
Qed.
Lemma e2_reachable : reachable seg1 top e2.
Proof.
  refine (reach_step _ _ _ (Child 0 1) _ e1_reachable _ _); [split; [left; reflexivity|apply Nat.ltb_lt; vm_compute; reflexivity]|]. 
  unfold e2. destruct (child top 9 (fst e1) 0 1) as [[h x]|] eqn:E; [|vm_compute in E; discriminate]. constructor. exists 9. intros m Hm. rewrite <- E. do 9 (destruct m as [|m]; [lia|]). vm_compute. reflexivity.
Qed.
Lemma e3_reachable : reachable seg1 top e3.
Proof.
  refine (reach_step _ _ _ (NewRoot other) _ e2_reachable _ _); [cbn [allowed]; repeat (constructor || apply built_node)|]. unfold e3. destruct e2 as [h hs]. cbn [fst snd]. destruct (new_root top h other) as [h' x] eqn:E. constructor. exact E.
Qed.
Lemma e3_splice_allowed : allowed seg1 e3 (Splice 0 0 2 [2]).
Proof.
  change (allowed seg1 (fst e3, snd e3) (Splice 0 0 2 [2])). cbn [allowed]. split; [right; right; left; reflexivity|]. split; [eexists; split; [vm_compute; reflexivity|reflexivity]|]. split; [apply Nat.le_0_l|]. split; [constructor; [intros []|constructor]|].
  intros x [<- |[]]. split; [left; reflexivity|]. split; [|left; reflexivity].
  intros js HP. assert (HG : forall y q js, path (fst e3) y q js -> q = 0 -> y = 0).
  { intros y q js0 H. induction H as [q|y z c js0 q Hz HPz HP' IH]; [auto|]. intros ->. rewrite (IH eq_refl) in Hz. vm_compute in Hz. injection Hz as <-. discriminate HPz. }
  specialize (HG _ _ _ HP eq_refl). discriminate.
Qed.
Lemma e4_reachable : reachable seg1 top e4.
Proof.
  refine (reach_step _ _ _ (Splice 0 0 2 [2]) _ e3_reachable e3_splice_allowed _). unfold e4. destruct (splice seg1 top 9 (fst e3) 0 0 2 [2]) as [h|] eqn:E; [|vm_compute in E; discriminate].
  replace e3 with (fst e3, snd e3) at 1 by (destruct e3; reflexivity). apply step_splice. exists 9. intros m Hm. rewrite <- E. do 9 (destruct m as [|m]; [lia|]). vm_compute. reflexivity.
Qed.
(** The first two children of a tree are replaced by a new node while one of them is held: the tree has the new children, the handle of the old
    one has its own tree. *)
Example C46_example : reachable seg1 top e4 /\ snd e4 = [1; 0] /\ children_of (fst e3) 0 = [GTok LINE_BREAK [10%N]; inner; tok "c"] /\
  children_of (fst e4) 0 = [other; tok "c"] /\ parent_of (fst e3) 1 = Some 0 /\ parent_of (fst e4) 1 = None /\ children_of (fst e4) 1 = gchildren inner.
Proof. split; [exact e4_reachable|]. repeat split; vm_compute; reflexivity. Qed.

(** ** C46, what does not hold *)
(** The position of an element below another one that is not at the start of a line: in a tree whose text is a line end, [b], a line end, [d]
    and [c], the second line end is at line 1, column 1; it is said to be at column 0. *)
Definition e5 : state := match child top 9 (fst e2) 1 1 with Some (h, x) => (h, x :: snd e2) | None => e2 end.
Lemma e5_reachable : reachable seg1 top e5.
Proof.
  refine (reach_step _ _ _ (Child 1 1) _ e2_reachable _ _); [change (allowed seg1 (fst e2, snd e2) (Child 1 1)); split; [left; reflexivity|apply Nat.ltb_lt; vm_compute; reflexivity]|]. 
  unfold e5. destruct (child top 9 (fst e2) 1 1) as [[h x]|] eqn:E; [|vm_compute in E; discriminate]. replace e2 with (fst e2, snd e2) at 1 by (destruct e2; reflexivity). constructor. exists 9. intros m Hm. rewrite <- E. do 9 (destruct m as [|m]; [lia|]). vm_compute. reflexivity.
Qed.
Theorem C46_position_refuted : exists h hs x y js i g pos, reachable seg1 top (h, hs) /\ In x hs /\ sees h y None i g /\ path h y x js /\
  gives (fun m => position_mut m h x (Pos 0 0)) pos /\ pos <> pos_add (Pos 0 0) (rel_of_clusters (flat_map seg1 (flat_map token_texts (elements_before js g)))).
Proof.
  exists (fst e5), (snd e5), 2, 0, [1; 1], 0, whole, (Pos 1 0). split; [replace (fst e5, snd e5) with e5 by (destruct e5; reflexivity); exact e5_reachable|]. split; [left; reflexivity|]. split; [eexists; split; [vm_compute; reflexivity|repeat split]|]. split.
  - refine (path_down _ 0 1 (MkCell 2 (Some 0) 1 inner [2]) [1] 2 _ eq_refl _); [vm_compute; reflexivity|]. refine (path_down _ 1 2 (MkCell 1 (Some 1) 1 (GTok LINE_BREAK [10%N]) []) [] 2 _ eq_refl _); [vm_compute; reflexivity|constructor].
  - split; [exists 9; intros m Hm; do 9 (destruct m as [|m]; [lia|]); vm_compute; reflexivity|]. vm_compute. discriminate.
Qed.
Print Assumptions C46_position_refuted.
