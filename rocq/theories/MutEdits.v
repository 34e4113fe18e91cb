(** * Proofs about whole edits of a red tree *)
From Coq Require Import List NArith Bool Arith Lia Sorted.
From Verif Require Import Base SyntaxKind TextModel ParserModel GreenModel GreenProps MutModel MutSpec MutProofs.
Import ListNotations.
Open Scope list_scope.
Open Scope nat_scope.
Implicit Types h : heap.

Section seg.
Context (seg : str -> list str).
(** the nodes that an edit below [p] is described for: those that are held, and those above [p] *)
Definition known (r : nat -> nat) (h : heap) (p y : nat) : Prop := 0 < r y \/ exists js, path h y p js.
(** [h'] is [h] with the children [ks] for [p]; an element that was its [j]th child is its [k]th one if [f j = Some k] and on its own
    otherwise. Nothing is said about the parents and indices of [X]. *)
Definition moved (r : nat -> nat) (h h' : heap) (X : list nat) (p : nat) (ks : list green) (f : nat -> option nat) : Prop :=
  forall y c, known r h p y -> h y = Some c -> exists c', h' y = Some c' /\
    (~ In y X -> match parent c with
                 | Some q => if Nat.eqb q p then match f (index c) with Some k => parent c' = Some p /\ index c' = k | None => parent c' = None end
                             else parent c' = Some q /\ index c' = index c
                 | None => parent c' = None
                 end) /\
    (forall js, path h y p js -> cgreen c' = with_children seg js ks (cgreen c)) /\
    ((forall js, ~ path h y p js) -> cgreen c' = cgreen c).
Lemma no_loop h r p js : inv seg h r -> path h p p js -> js = [].
Proof.
  intros [HI _] HP. remember p as q eqn:E in HP at 2. destruct HP as [q|y z c js q Hz HPz HP]; [reflexivity|]. subst. exfalso.
  destruct (i_parent _ _ _ _ HI z c y Hz HPz) as (cy & Hy & _). destruct (chain_exists seg h r y cy HI Hy) as (l & HC & HND & _).
  pose proof (path_chain _ _ _ _ HP l HC) as HIn. pose proof (chain_parent _ _ _ HC z c y HIn Hz HPz). inversion HND; contradiction.
Qed.
Lemma not_below h r p z c y js : inv seg h r -> path h z p js -> h z = Some c -> parent c = Some y -> y <> p.
Proof. intros HI HP Hz HPz ->. pose proof (path_down h p z c js p Hz HPz HP) as HL. pose proof (no_loop _ _ _ _ HI HL). discriminate. Qed.
Lemma path_live h r p y js : inv seg h r -> path h y p js -> h p <> None -> h y <> None.
Proof.
  intros [HI _] HP. induction HP as [p|y z c js p Hz HPz HP IH]; intros Hp; [exact Hp|]. destruct (i_parent _ _ _ _ HI z c y Hz HPz) as (cy & Hy & _). congruence.
Qed.
(** the nodes above [p] stay the same *)
Lemma moved_path r h r0 h' X p ks f : inv seg h r0 -> h p <> None -> moved r h h' X p ks f -> (forall x js, In x X -> ~ path h x p js) -> forall y js, path h y p js <-> path h' y p js.
Proof.
  intros HI Hp HM HX y js. split; intros HP.
  - assert (HG : forall q, path h y q js -> q = p -> path h' y q js).
    { intros q HQ. induction HQ as [q|y z cz js q Hz HPz HQ IH]; intros ->; [constructor|]. destruct (HM z cz (or_intror (ex_intro _ js HQ)) Hz) as (cz' & Hz' & HS & _).
      assert (HNX : ~ In z X) by (intros HIn; exact (HX z js HIn HQ)). specialize (HS HNX). rewrite HPz in HS. pose proof (not_below _ _ _ _ _ _ _ HI HQ Hz HPz) as HN. apply Nat.eqb_neq in HN. rewrite HN in HS. destruct HS as [HS1 HS2].
      rewrite <- HS2. apply (path_down _ _ _ cz' _ _ Hz' HS1). apply IH; [exact HQ|reflexivity]. }
    exact (HG p HP eq_refl).
  - assert (HG : forall q, path h' y q js -> q = p -> path h y q js).
    { intros q HQ. induction HQ as [q|y z cz' js q Hz' HPz' HQ IH]; intros ->; [constructor|]. specialize (IH HQ eq_refl).
      assert (HLive : exists cz, h z = Some cz).
      { pose proof (path_live _ _ _ _ _ HI IH Hp). destruct (h z) as [cz|]; [eauto|congruence]. }
      destruct HLive as (cz & Hz). destruct (HM z cz (or_intror (ex_intro _ js IH)) Hz) as (cz2 & Hz2 & HS & _). rewrite Hz' in Hz2. injection Hz2 as <-.
      assert (HNX : ~ In z X) by (intros HIn; exact (HX z js HIn IH)). specialize (HS HNX). destruct (parent cz) as [q|] eqn:EP; [|congruence]. pose proof (not_below _ _ _ _ _ _ _ HI IH Hz EP) as HN. apply Nat.eqb_neq in HN. rewrite HN in HS. destruct HS as [HS1 HS2].
      assert (q = y) by congruence. subst q. rewrite HS2. exact (path_down _ _ _ cz _ _ Hz EP IH). }
    exact (HG p HP eq_refl).
Qed.
Lemma with_children_twice js ks ks' : forall g, with_children seg js ks' (with_children seg js ks g) = with_children seg js ks' g.
Proof.
  induction js as [|j js IH]; intros g; cbn [with_children]; [rewrite gkind_new; reflexivity|]. destruct (nth_error (gchildren g) j) as [c|] eqn:E; [|rewrite E; reflexivity].
  rewrite gchildren_new, gkind_new, (replace_nth_same _ _ _ _ E), IH. f_equal. clear. revert j. induction (gchildren g) as [|x l IHl]; intros [|j]; try reflexivity. cbn [replace_nth]. f_equal. apply IHl.
Qed.
Lemma moved_trans r r0 h h1 h2 X X' p ks1 ks2 f1 f2 : inv seg h r0 -> h p <> None -> moved r h h1 X p ks1 f1 -> (forall x js, In x X -> ~ path h x p js) -> moved r h1 h2 X' p ks2 f2 ->
  moved r h h2 (X ++ X') p ks2 (fun j => match f1 j with Some k => f2 k | None => None end).
Proof.
  intros HI Hp H1 HX H2 y c HK Hy. destruct (H1 y c HK Hy) as (c1 & Hy1 & A1 & B1 & C1). pose proof (moved_path _ _ _ _ _ _ _ _ HI Hp H1 HX) as HPath.
  assert (HK1 : known r h1 p y) by (destruct HK as [HK|(js & HK)]; [left; exact HK|right; exists js; apply HPath; exact HK]).
  destruct (H2 y c1 HK1 Hy1) as (c2 & Hy2 & A2 & B2 & C2). exists c2. split; [exact Hy2|]. split; [|split].
  - intros HN. rewrite in_app_iff in HN. specialize (A1 ltac:(tauto)). specialize (A2 ltac:(tauto)). destruct (parent c) as [q|]; [|rewrite A1 in A2; exact A2]. destruct (Nat.eqb q p) eqn:EQ.
    + destruct (f1 (index c)) as [k|]; [|rewrite A1 in A2; exact A2]. destruct A1 as [A1 A1']. rewrite A1, A1', Nat.eqb_refl in A2. exact A2.
    + destruct A1 as [A1 A1']. rewrite A1, EQ, A1' in A2. exact A2.
  - intros js HP. rewrite (B2 js (proj1 (HPath y js) HP)), (B1 js HP). apply with_children_twice.
  - intros HN. rewrite C2; [exact (C1 HN)|]. intros js HP. exact (HN js (proj2 (HPath y js) HP)).
Qed.
Lemma moved_ext r h h' X X' p ks ks' f f' : moved r h h' X p ks f -> ks = ks' -> incl X X' -> (forall y c, known r h p y -> ~ In y X' -> h y = Some c -> parent c = Some p -> f (index c) = f' (index c)) -> moved r h h' X' p ks' f'.
Proof.
  intros HM <- HX HF y c HK Hy. destruct (HM y c HK Hy) as (c' & A & B & C & D). exists c'. split; [exact A|]. split; [|auto]. intros HN. specialize (B (fun HH => HN (HX y HH))). destruct (parent c) as [q|] eqn:EP; [|exact B]. destruct (Nat.eqb q p) eqn:EQ; [|exact B].
  apply Nat.eqb_eq in EQ as ->. rewrite <- (HF y c HK HN Hy EP). exact B.
Qed.
Lemma moved_weaken r r' h h' X p ks f : (forall y, 0 < r' y -> 0 < r y) -> moved r h h' X p ks f -> moved r' h h' X p ks f.
Proof. intros HR HM y c [HK|HK] Hy; apply HM; try exact Hy; [left; auto|right; exact HK]. Qed.

(** ** Steps that edit nothing *)
Definition similar (r : nat -> nat) (h h' : heap) (p : nat) : Prop := forall y c, known r h p y -> h y = Some c -> exists c', h' y = Some c' /\ parent c' = parent c /\ index c' = index c /\ cgreen c' = cgreen c.
Lemma grown_similar r h h' p : grown h h' -> similar r h h' p. Proof. intros H y c _ Hy. exact (H y c Hy). Qed.
Lemma similar_path r r0 h h' p : inv seg h r0 -> h p <> None -> similar r h h' p -> forall y js, path h y p js <-> path h' y p js.
Proof.
  intros HI Hp HS y js. split; intros HP.
  - assert (HG : forall q, path h y q js -> q = p -> path h' y q js).
    { intros q HQ. induction HQ as [q|y z cz js q Hz HPz HQ IH]; intros ->; [constructor|]. destruct (HS z cz (or_intror (ex_intro _ js HQ)) Hz) as (cz' & Hz' & A & B & C). rewrite <- B. apply (path_down _ _ _ cz' _ _ Hz'); [congruence|]. apply IH; [exact HQ|reflexivity]. }
    exact (HG p HP eq_refl).
  - assert (HG : forall q, path h' y q js -> q = p -> path h y q js).
    { intros q HQ. induction HQ as [q|y z cz' js q Hz' HPz' HQ IH]; intros ->; [constructor|]. specialize (IH HQ eq_refl). pose proof (path_live _ _ _ _ _ HI IH Hp) as HL. destruct (h z) as [cz|] eqn:Hz; [|congruence].
      destruct (HS z cz (or_intror (ex_intro _ js IH)) Hz) as (cz2 & Hz2 & A & B & C). rewrite Hz' in Hz2. injection Hz2 as <-. rewrite B. apply (path_down _ _ _ cz _ _ Hz); [congruence|exact IH]. }
    exact (HG p HP eq_refl).
Qed.
Lemma moved_pre r r0 h h1 h2 X p ks f : inv seg h r0 -> h p <> None -> similar r h h1 p -> moved r h1 h2 X p ks f -> moved r h h2 X p ks f.
Proof.
  intros HI Hp HS HM y c HK Hy. destruct (HS y c HK Hy) as (c1 & Hy1 & A1 & A2 & A3). pose proof (similar_path _ _ _ _ _ HI Hp HS) as HPath.
  assert (HK1 : known r h1 p y) by (destruct HK as [HK|(js & HK)]; [left; exact HK|right; exists js; apply HPath; exact HK]).
  destruct (HM y c1 HK1 Hy1) as (c2 & Hy2 & B1 & B2 & B3). exists c2. rewrite A1, A2, A3 in *. split; [exact Hy2|]. split; [exact B1|]. split; [intros js HP; apply B2; apply HPath; exact HP|]. intros HN. apply B3. intros js HP. exact (HN js (proj2 (HPath y js) HP)).
Qed.
Lemma moved_post r r0 h h1 h2 X p ks f : inv seg h r0 -> h p <> None -> moved r h h1 X p ks f -> (forall x js, In x X -> ~ path h x p js) -> similar r h1 h2 p -> moved r h h2 X p ks f.
Proof.
  intros HI Hp HM HX HS y c HK Hy. destruct (HM y c HK Hy) as (c1 & Hy1 & A1 & A2 & A3). pose proof (moved_path _ _ _ _ _ _ _ _ HI Hp HM HX) as HPath.
  assert (HK1 : known r h1 p y) by (destruct HK as [HK|(js & HK)]; [left; exact HK|right; exists js; apply HPath; exact HK]).
  destruct (HS y c1 HK1 Hy1) as (c2 & Hy2 & B1 & B2 & B3). exists c2. rewrite B1, B2, B3. auto.
Qed.
Lemma similar_trans r r0 h h1 h2 p : inv seg h r0 -> h p <> None -> similar r h h1 p -> similar r h1 h2 p -> similar r h h2 p.
Proof.
  intros HI Hp H1 H2 y c HK Hy. destruct (H1 y c HK Hy) as (c1 & Hy1 & A1 & A2 & A3). pose proof (similar_path _ _ _ _ _ HI Hp H1) as HPath.
  assert (HK1 : known r h1 p y) by (destruct HK as [HK|(js & HK)]; [left; exact HK|right; exists js; apply HPath; exact HK]).
  destruct (H2 y c1 HK1 Hy1) as (c2 & Hy2 & B1 & B2 & B3). exists c2. repeat split; congruence.
Qed.
Lemma drop_similar h h' r x p : kept h h' -> inv seg h r -> inv seg h' (sub r x) -> 0 < sub r x p -> similar (sub r x) h h' p.
Proof.
  intros HK HI HI' Hp y c HKn Hy. assert (HL : h' y <> None).
  { destruct HKn as [Hr|(js & HP)]; [exact (i_handles _ _ _ _ (proj1 HI') y Hr)|]. clear c Hy. induction HP as [p|y z c js p Hz HPz HP IH]; [exact (i_handles _ _ _ _ (proj1 HI') p Hp)|]. specialize (IH Hp).
    destruct (h' z) as [cz'|] eqn:Ez'; [|congruence]. destruct (HK z cz' Ez') as (cz & A0 & A1 & _). assert (cz = c) by congruence. subst cz. destruct (i_parent _ _ _ _ (proj1 HI') z cz' y Ez') as (cy & Hy' & _); congruence. }
  destruct (h' y) as [c'|] eqn:Ey'; [|congruence]. destruct (HK y c' Ey') as (c0 & A0 & A1). assert (c0 = c) by congruence. subst c0. eauto.
Qed.

(** ** Single edits *)
Lemma edited_moved h h' r x p ks f : inv seg h r -> inv seg h' r -> 0 < r p -> (forall js, ~ path h x p js) -> edited_to seg h h' x p ks f -> moved r h h' [x] p ks (fun j => Some (f j)).
Proof.
  intros HI HI' Hp HNx HE y c HK Hy. assert (HL : h' y <> None).
  { destruct HK as [Hr|(js & HP)]; [exact (i_handles _ _ _ _ (proj1 HI') y Hr)|]. clear c Hy. assert (HG : forall q, path h y q js -> q = p -> h' y <> None); [|exact (HG p HP eq_refl)]. intros q HQ. induction HQ as [q|y z c js q Hz HPz HQ IH]; intros ->; [exact (i_handles _ _ _ _ (proj1 HI') p Hp)|]. specialize (IH HQ eq_refl).
    destruct (h' z) as [cz'|] eqn:Ez'; [|congruence]. destruct (e_same _ _ _ _ _ _ _ HE z c cz') as [A _]; [intros ->; exact (HNx js HQ)|exact Hz|exact Ez'|]. destruct (i_parent _ _ _ _ (proj1 HI') z cz' y Ez') as (cy & Hy' & _); congruence. }
  destruct (h' y) as [c'|] eqn:Ey'; [|congruence]. exists c'. split; [reflexivity|]. split; [|split].
  - intros HN. assert (HNy : y <> x) by (intros ->; apply HN; left; reflexivity). destruct (e_same _ _ _ _ _ _ _ HE y c c' HNy Hy Ey') as [A B]. destruct (parent c) as [q|]; [|exact A]. destruct (Nat.eqb q p) eqn:EQ; [|auto]. apply Nat.eqb_eq in EQ as ->. auto.
  - intros js HP. exact (e_above _ _ _ _ _ _ _ HE y c c' js Hy Ey' HP).
  - intros HN. exact (e_off _ _ _ _ _ _ _ HE y c c' Hy Ey' HN).
Qed.
Lemma detach_moved h r x c p cp : inv seg h r -> 0 < r x -> 0 < r p -> h x = Some c -> parent c = Some p -> h p = Some cp ->
  exists h', (exists n, forall m, n <= m -> detach seg m h x = Some h') /\ inv seg h' r /\
    moved r h h' [] p (firstn (index c) (gchildren (cgreen cp)) ++ skipn (S (index c)) (gchildren (cgreen cp))) (fun j => if Nat.eqb j (index c) then None else Some (if index c <? j then pred j else j)).
Proof.
  intros HI Hr Hrp Hx HP Hp. destruct (detach_ok seg h r x c p cp HI Hr Hx HP Hp) as (h' & HD & HI' & (c' & Hx' & HP' & HG') & HE). exists h'. split; [exact HD|]. split; [exact HI'|].
  assert (HNx : forall js, ~ path h x p js) by (intros js HPath; exact (not_below _ _ _ _ _ _ _ HI HPath Hx HP eq_refl)).
  pose proof (edited_moved _ _ _ _ _ _ _ HI HI' Hrp HNx HE) as HM. intros y cy HK Hy. destruct (HM y cy HK Hy) as (cy' & A & B & C). exists cy'. split; [exact A|]. split; [|exact C]. intros _.
  destruct (Nat.eq_dec y x) as [-> |HN].
  - assert (cy = c) by congruence. subst cy. rewrite HP, !Nat.eqb_refl. congruence.
  - specialize (B ltac:(intros [HH|[]]; congruence)). destruct (parent cy) as [q|] eqn:EP; [|exact B]. destruct (Nat.eqb q p) eqn:EQ; [|exact B]. apply Nat.eqb_eq in EQ as ->.
    assert (HNI : index cy <> index c). { intros HE'. apply HN. exact (siblings_unique seg None h r y x cy c p (proj1 HI) Hy Hx EP HP HE'). } apply Nat.eqb_neq in HNI. rewrite HNI. exact B.
Qed.
Lemma attach_moved h r p cp i x c : inv seg h r -> 0 < r x -> 0 < r p -> 0 < sub r x p -> h x = Some c -> parent c = None -> h p = Some cp -> gnode (cgreen cp) = true -> i <= List.length (gchildren (cgreen cp)) -> (forall js, ~ path h x p js) ->
  exists h', (exists n, forall m, n <= m -> attach seg m h p i x = Some h') /\ inv seg h' (sub r x) /\
    (0 < sub r x x -> exists c', h' x = Some c' /\ parent c' = Some p /\ index c' = i /\ cgreen c' = cgreen c) /\
    moved (sub r x) h h' [x] p (firstn i (gchildren (cgreen cp)) ++ cgreen c :: skipn i (gchildren (cgreen cp))) (fun j => Some (if i <=? j then S j else j)).
Proof.
  intros HI Hr Hrp Hsp Hx HP Hp HGn HLen HNx. destruct (attach_data_ok seg h r p cp i x c HI Hx HP Hp HGn HLen HNx) as (h1 & (n1 & HA) & HI1 & (c1 & Hx1 & HP1 & HIx1 & HG1) & _ & HE).
  pose proof (edited_moved _ _ _ _ _ _ _ HI HI1 Hrp HNx HE) as HM. destruct (drop_ok seg h1 r x HI1 Hr) as (h2 & (n2 & HD) & HI2 & HK2).
  exists h2. split; [|split; [exact HI2|split]].
  - exists (max n1 n2). intros m Hm. unfold attach, detach. rewrite Hx, HP, HA by lia. apply HD. lia.
  - intros Hs. pose proof (i_handles _ _ _ _ (proj1 HI2) x Hs) as HL. destruct (h2 x) as [c2|] eqn:E2; [|congruence]. exists c2. split; [reflexivity|]. destruct (HK2 x c2 E2) as (c1' & A0 & A1 & A2 & A3). assert (c1' = c1) by congruence. subst c1'. repeat split; congruence.
  - apply (moved_post _ r h h1 h2); [exact HI|congruence| | |exact (drop_similar _ _ _ _ _ HK2 HI1 HI2 Hsp)].
    + apply (moved_weaken r); [|exact HM]. intros y. unfold sub. destruct (Nat.eqb y x); lia.
    + intros x' js [<- |[]]. exact (HNx js).
Qed.

(** ** Splicing *)
Definition sub_all (r : nat -> nat) (l : list nat) : nat -> nat := fold_left sub l r.
Lemma sub_all_notin l : forall r y, ~ In y l -> sub_all r l y = r y.
Proof. induction l as [|x l IH]; intros r y HN; [reflexivity|]. cbn [sub_all fold_left]. change (sub_all (sub r x) l y = r y). rewrite IH by (intros H; apply HN; right; exact H). apply sub_other. intros ->. apply HN. left. reflexivity. Qed.
Lemma sub_all_le l : forall r y, sub_all r l y <= r y.
Proof. induction l as [|x l IH]; intros r y; [apply Nat.le_refl|]. cbn [sub_all fold_left]. change (sub_all (sub r x) l y <= r y). specialize (IH (sub r x) y). unfold sub in IH at 2. destruct (Nat.eqb y x); lia. Qed.
Lemma attach_all_ok new : forall h r p cp i, inv seg h r -> 0 < r p -> ~ In p new -> NoDup new -> (forall x, In x new -> 0 < r x) -> h p = Some cp -> gnode (cgreen cp) = true -> i <= List.length (gchildren (cgreen cp)) ->
  (forall x, In x new -> exists c, h x = Some c /\ parent c = None) -> (forall x js, In x new -> ~ path h x p js) ->
  exists h' ts, (exists n, forall m, n <= m -> attach_all seg m h p i new = Some h') /\ inv seg h' (sub_all r new) /\
    Forall2 (fun x t => exists c, h x = Some c /\ cgreen c = t) new ts /\
    moved (sub_all r new) h h' new p (firstn i (gchildren (cgreen cp)) ++ ts ++ skipn i (gchildren (cgreen cp))) (fun j => Some (if i <=? j then j + List.length new else j)) /\
    (forall k x c, nth_error new k = Some x -> h x = Some c -> 0 < sub_all r new x -> exists c', h' x = Some c' /\ parent c' = Some p /\ index c' = i + k /\ cgreen c' = cgreen c).
Proof.
  induction new as [|x new IH]; intros h r p cp i HI Hrp HNp HND Hr Hp HGn HLen HRoot HNx.
  - exists h, []. split; [exists 0; reflexivity|]. split; [exact HI|]. split; [constructor|]. split; [|intros [|k]; discriminate]. intros y c HK Hy. exists c. split; [exact Hy|]. split; [|split; [|reflexivity]].
    + intros _. destruct (parent c) as [q|]; [|reflexivity]. destruct (Nat.eqb q p) eqn:EQ; [|auto]. apply Nat.eqb_eq in EQ as ->. cbn [List.length]. destruct (i <=? index c); [rewrite Nat.add_0_r|]; auto.
    + intros js HP. cbn [app]. rewrite firstn_skipn. clear HK. assert (HG : forall q, path h y q js -> q = p -> forall c, h y = Some c -> cgreen c = with_children seg js (gchildren (cgreen cp)) (cgreen c)); [|exact (HG p HP eq_refl c Hy)].
      clear HP Hy c. intros q HQ. induction HQ as [q|y z cz js q Hz HPz HQ IH]; intros -> c Hy.
      * assert (c = cp) by congruence. subst c. cbn [with_children]. pose proof (i_built _ _ _ _ (proj1 HI) p cp Hp) as HB. destruct (cgreen cp) as [|k n rl cs]; [discriminate|]. destruct (built_children seg k n rl cs HB) as [_ HE]. symmetry. exact HE.
      * cbn [with_children]. destruct (i_parent _ _ _ _ (proj1 HI) z cz y Hz HPz) as (cy & A0 & A1 & _). assert (cy = c) by congruence. subst cy. cbn [kids_of] in A1. rewrite A1. rewrite <- (IH eq_refl cz Hz).
        assert (HRep : forall (l : list green) j a, nth_error l j = Some a -> replace_nth l j a = l). { clear. induction l as [|b l IH]; intros [|j] a H; try reflexivity; cbn in H |- *; [congruence|]. f_equal. exact (IH j a H). }
        rewrite (HRep _ _ _ A1). pose proof (gchild_node _ _ _ A1) as HNode. pose proof (i_built _ _ _ _ (proj1 HI) y c Hy) as HB. destruct (cgreen c) as [|k n rl cs]; [discriminate|]. destruct (built_children seg k n rl cs HB) as [_ HE]. symmetry. exact HE.
  - inversion HND as [|? ? HNI HND']; subst. destruct (HRoot x (or_introl eq_refl)) as (c & Hx & HP).
    assert (Hxp : p <> x) by (intros ->; apply HNp; left; reflexivity).
    destruct (attach_moved h r p cp i x c HI (Hr x (or_introl eq_refl)) Hrp) as (h1 & (n1 & HA1) & HI1 & HX1 & HM1); try assumption; [rewrite sub_other by exact Hxp; exact Hrp|intros js; exact (HNx x js (or_introl eq_refl))|].
    assert (Hrp1 : 0 < sub r x p) by (rewrite sub_other by exact Hxp; exact Hrp). assert (HpN : h p <> None) by congruence.
    assert (HX : forall x0 js, In x0 [x] -> ~ path h x0 p js) by (intros x0 js [<- |[]]; exact (HNx x js (or_introl eq_refl))).
    pose proof (moved_path _ _ _ _ _ _ _ _ HI HpN HM1 HX) as HPath.
    destruct (HM1 p cp (or_introl Hrp1) Hp) as (cp1 & Hp1 & _ & HGp & _). specialize (HGp [] (path_here _ _)). cbn [with_children] in HGp.
    assert (HK1 : gchildren (cgreen cp1) = firstn i (gchildren (cgreen cp)) ++ cgreen c :: skipn i (gchildren (cgreen cp))) by (rewrite HGp; apply gchildren_new).
    assert (HLF : List.length (firstn i (gchildren (cgreen cp))) = i) by (apply firstn_length_le; exact HLen).
    destruct (IH h1 (sub r x) p cp1 (S i) HI1 Hrp1) as (h2 & ts & (n2 & HA2) & HI2 & HT & HM2 & HX2).
    + intros H. apply HNp. right. exact H.
    + exact HND'.
    + intros z Hz. rewrite sub_other by (intros ->; contradiction). apply Hr. right. exact Hz.
    + exact Hp1.
    + rewrite HGp. apply gnode_new.
    + rewrite HK1, app_length, HLF. cbn [List.length]. lia.
    + intros z Hz. assert (HNz : z <> x) by (intros ->; contradiction). destruct (HRoot z (or_intror Hz)) as (cz & A & B). destruct (HM1 z cz) as (cz1 & C & D & _); [left; rewrite sub_other by exact HNz; apply Hr; right; exact Hz|exact A|]. exists cz1. split; [exact C|]. specialize (D ltac:(intros [HH|[]]; congruence)). rewrite B in D. exact D.
    + intros z js Hz HPz. apply HPath in HPz. exact (HNx z js (or_intror Hz) HPz).
    + assert (HSub : sub_all r (x :: new) = sub_all (sub r x) new) by reflexivity.
      exists h2, (cgreen c :: ts). split; [|split; [|split; [|split]]].
      * exists (max n1 n2). intros m Hm. cbn [attach_all]. rewrite HA1 by lia. apply HA2. lia.
      * exact HI2.
      * constructor; [eauto|]. assert (HG : forall z, In z new -> forall t, (exists c0, h1 z = Some c0 /\ cgreen c0 = t) -> exists c0, h z = Some c0 /\ cgreen c0 = t).
        { intros z Hz t (c1 & A & B). assert (HNz : z <> x) by (intros ->; contradiction). destruct (HRoot z (or_intror Hz)) as (cz & A' & B'). destruct (HM1 z cz) as (cz1 & C & _ & _ & D); [left; rewrite sub_other by exact HNz; apply Hr; right; exact Hz|exact A'|]. exists cz. split; [exact A'|]. assert (cz1 = c1) by congruence. subst cz1. rewrite <- B. symmetry. apply D. intros js. exact (HNx z js (or_intror Hz)). }
        clear - HT HG. induction HT as [|z t new ts Hz HT IHT]; constructor; [apply HG; [left; reflexivity|exact Hz]|]. apply IHT. intros z' Hz'. apply HG. right. exact Hz'.
      * rewrite HSub. assert (HM1' : moved (sub_all (sub r x) new) h h1 [x] p (firstn i (gchildren (cgreen cp)) ++ cgreen c :: skipn i (gchildren (cgreen cp))) (fun j => Some (if i <=? j then S j else j))).
        { apply (moved_weaken (sub r x)); [|exact HM1]. intros y Hy. pose proof (sub_all_le new (sub r x) y). lia. }
        refine (moved_ext _ _ _ _ _ _ _ _ _ _ (moved_trans _ _ _ _ _ _ _ _ _ _ _ _ HI HpN HM1' HX HM2) _ (incl_refl _) _).
        -- rewrite HK1. rewrite firstn_app, HLF. replace (S i - i) with 1 by lia. rewrite firstn_all2 by lia. cbn [firstn]. rewrite skipn_app, HLF. replace (S i - i) with 1 by lia. rewrite skipn_all2 by lia. cbn [skipn app]. rewrite <- app_assoc. reflexivity.
        -- intros y cy HK HN Hy HPy. cbn [List.length]. f_equal. destruct (i <=? index cy) eqn:E1.
           ++ apply Nat.leb_le in E1. replace (S i <=? S (index cy)) with true by (symmetry; apply Nat.leb_le; lia). lia.
           ++ apply Nat.leb_gt in E1. replace (S i <=? index cy) with false by (symmetry; apply Nat.leb_gt; lia). reflexivity.
      * intros [|k] z cz Hk Hz Hs.
        -- injection Hk as <-. assert (cz = c) by congruence. subst cz. rewrite HSub in Hs. pose proof (sub_all_le new (sub r x) x) as HLe. destruct (HX1 ltac:(lia)) as (c1 & A & B & C & D).
           destruct (HM2 x c1 (or_introl Hs) A) as (c2 & A2 & B2 & _ & D2). exists c2. split; [exact A2|]. specialize (B2 HNI). rewrite B, Nat.eqb_refl, C in B2. replace (S i <=? i) with false in B2 by (symmetry; apply Nat.leb_gt; lia). destruct B2 as [B2 B3]. split; [exact B2|]. split; [lia|]. rewrite D2; [exact D|]. intros js HPx. apply HPath in HPx. exact (HNx x js (or_introl eq_refl) HPx).
        -- cbn in Hk. assert (Hzn : In z new) by exact (nth_error_In _ _ Hk). assert (HNz : z <> x) by (intros ->; contradiction). destruct (HM1 z cz) as (c1 & A & _ & _ & D); [left; rewrite sub_other by exact HNz; apply Hr; right; exact Hzn|exact Hz|]. destruct (HX2 k z c1 Hk A Hs) as (c2 & A2 & B2 & C2 & D2). exists c2. split; [exact A2|]. split; [exact B2|]. split; [lia|]. rewrite D2. apply D. intros js. exact (HNx z js (or_intror Hzn)).
Qed.

Lemma moved_id h r p cp : inv seg h r -> 0 < r p -> h p = Some cp -> gnode (cgreen cp) = true -> moved r h h [] p (gchildren (cgreen cp)) Some.
Proof.
  intros HI Hr Hp HG. destruct (attach_all_ok [] h r p cp 0 HI Hr) as (h' & ts & (n & HA) & _ & HT & HM & _); try assumption; [intros []|constructor|intros x []|lia|intros x []|intros x js []|].
  specialize (HA n (Nat.le_refl n)). injection HA as <-. inversion HT; subst. refine (moved_ext _ _ _ _ _ _ _ _ _ _ HM _ (incl_refl _) _); [reflexivity|]. intros y c _ _ _ _. cbn [List.length]. rewrite Nat.add_0_r. destruct (0 <=? index c); reflexivity.
Qed.
Lemma similar_weaken r r' h h' p : (forall y, 0 < r' y -> 0 < r y) -> similar r h h' p -> similar r' h h' p.
Proof. intros HR HS y c [HK|HK] Hy; apply HS; try exact Hy; [left; auto|right; exact HK]. Qed.

Section range.
Context (a b : nat).
Definition inr (i : nat) : bool := (a <=? i) && (i <? b).
(** the children whose positions, counted from [i], are not in the range *)
Fixpoint keep (i : nat) (l : list green) : list green :=
  match l with [] => [] | g :: l => if inr i then keep (S i) l else g :: keep (S i) l end.
Fixpoint newpos (i t : nat) : option nat :=
  match t with
  | O => if inr i then None else Some 0
  | S t => match newpos (S i) t with Some q => Some (if inr i then q else S q) | None => None end
  end.
Context (alloc : heap -> nat) (alloc_fresh : fresh alloc).
Lemma delete_loop_ok rest : forall h r p cp x c i pre g, inv seg h r -> 0 < r p -> 0 < r x -> h p = Some cp -> h x = Some c -> parent c = Some p -> index c = List.length pre -> gchildren (cgreen cp) = pre ++ g :: rest ->
  exists h', (exists N, forall m, N <= m -> forall n, List.length rest < n -> delete_loop seg alloc n m h a b i (Some x) = Some h') /\ inv seg h' (sub r x) /\
    moved (sub r x) h h' [] p (pre ++ keep i (g :: rest)) (fun j => if j <? List.length pre then Some j else option_map (Nat.add (List.length pre)) (newpos i (j - List.length pre))).
Proof.
  induction rest as [|g' rest IH]; intros h r p cp x c i pre g HI Hrp Hrx Hp Hx HP HIx HKids.
  - (* the last one *)
    assert (Hpx : p <> x) by (intros ->; exact (not_below _ _ _ _ _ _ _ HI (path_here h x) Hx HP eq_refl)).
    assert (HGn : gnode (cgreen cp) = true) by (apply gchild_node with (i := List.length pre) (c := g); rewrite HKids, nth_error_app2, Nat.sub_diag by lia; reflexivity).
    assert (HSib : forall m, sibling alloc m h x (S (index c)) = Some (h, None)). { intros m. unfold sibling. rewrite Hx, HP, Hp, HIx, HKids, app_length. cbn [List.length]. replace (S (List.length pre) <? List.length pre + 1) with false by (symmetry; apply Nat.ltb_ge; lia). reflexivity. }
    assert (HSp : 0 < sub r x p) by (rewrite sub_other by exact Hpx; exact Hrp).
    assert (HLoop : forall m n, delete_loop seg alloc (S n) m h a b i (Some x) = (get k <- (if inr i then detach seg m h x else Some h); drop m k x)).
    { intros m n. cbn [delete_loop]. rewrite Hx, HSib. unfold inr. destruct (if (a <=? i) && (i <? b) then detach seg m h x else Some h) as [h'|]; [|reflexivity]. destruct (drop m h' x) as [h''|]; [|reflexivity]. destruct n; reflexivity. }
    assert (HMid : exists h2, (exists N, forall m, N <= m -> (if inr i then detach seg m h x else Some h) = Some h2) /\ inv seg h2 r /\ moved r h h2 [] p (pre ++ keep i [g]) (fun j => if j <? List.length pre then Some j else option_map (Nat.add (List.length pre)) (newpos i (j - List.length pre)))).
    { destruct (inr i) eqn:ER.
      - destruct (detach_moved h r x c p cp HI Hrx Hrp Hx HP Hp) as (h2 & HD & HI2 & HM). exists h2. split; [exact HD|]. split; [exact HI2|]. refine (moved_ext _ _ _ _ _ _ _ _ _ _ HM _ (incl_refl _) _).
        + rewrite HIx, HKids, firstn_app, Nat.sub_diag, firstn_all. cbn [firstn keep]. rewrite ER, skipn_app. rewrite skipn_all2 by lia. replace (S (List.length pre) - List.length pre) with 1 by lia. cbn [skipn app]. rewrite !app_nil_r. reflexivity.
        + intros y cy _ _ Hy HPy. destruct (i_parent _ _ _ _ (proj1 HI) y cy p Hy HPy) as (cp' & A & B & _). assert (cp' = cp) by congruence. subst cp'. assert (HLt : index cy < List.length (gchildren (cgreen cp))) by (apply nth_error_Some; cbn [kids_of] in B; congruence). rewrite HKids, app_length in HLt. cbn [List.length] in HLt. rewrite HIx.
          destruct (Nat.eqb (index cy) (List.length pre)) eqn:E1; [apply Nat.eqb_eq in E1; rewrite E1, Nat.ltb_irrefl, Nat.sub_diag; cbn [newpos]; rewrite ER; reflexivity|]. apply Nat.eqb_neq in E1.
          replace (List.length pre <? index cy) with false by (symmetry; apply Nat.ltb_ge; lia). replace (index cy <? List.length pre) with true by (symmetry; apply Nat.ltb_lt; lia). reflexivity.
      - exists h. split; [exists 0; reflexivity|]. split; [exact HI|]. refine (moved_ext _ _ _ _ _ _ _ _ _ _ (moved_id h r p cp HI Hrp Hp HGn) _ (incl_refl _) _).
        + cbn [keep]. rewrite ER. exact HKids.
        + intros y cy _ _ Hy HPy. destruct (i_parent _ _ _ _ (proj1 HI) y cy p Hy HPy) as (cp' & A & B & _). assert (cp' = cp) by congruence. subst cp'. assert (HLt : index cy < List.length (gchildren (cgreen cp))) by (apply nth_error_Some; cbn [kids_of] in B; congruence). rewrite HKids, app_length in HLt. cbn [List.length] in HLt.
          destruct (index cy <? List.length pre) eqn:E1; [reflexivity|]. apply Nat.ltb_ge in E1. assert (E2 : index cy = List.length pre) by lia. rewrite E2, Nat.sub_diag. cbn [newpos]. rewrite ER. cbn [option_map]. rewrite Nat.add_0_r. reflexivity. }
    destruct HMid as (h2 & (n1 & HD) & HI2 & HM). destruct (drop_ok seg h2 r x HI2 Hrx) as (h3 & (n2 & HDr) & HI3 & HK3). exists h3. split; [|split; [exact HI3|]].
    + exists (max n1 n2). intros m Hm [|n] Hn; [lia|]. rewrite HLoop, HD by lia. apply HDr. lia.
    + apply (moved_post _ r h h2 h3); [exact HI|congruence| |intros x0 js []|exact (drop_similar _ _ _ _ _ HK3 HI2 HI3 HSp)]. apply (moved_weaken r); [|exact HM]. intros y. unfold sub. destruct (Nat.eqb y x); lia.
  - assert (Hpx : p <> x) by (intros ->; exact (not_below _ _ _ _ _ _ _ HI (path_here h x) Hx HP eq_refl)).
    assert (HGn : gnode (cgreen cp) = true) by (apply gchild_node with (i := List.length pre) (c := g); rewrite HKids, nth_error_app2, Nat.sub_diag by lia; reflexivity).
    assert (HN1 : nth_error (gchildren (cgreen cp)) (S (List.length pre)) = Some g') by (rewrite HKids, nth_error_app2 by lia; replace (S (List.length pre) - List.length pre) with 1 by lia; reflexivity).
    destruct (child_ok seg alloc alloc_fresh h r p cp _ g' HI Hp HN1) as (h1 & y & HCh & HI1 & HG1 & _ & (cy1 & Hy1 & HPy1 & HIy1 & HGy1)).
    destruct (HG1 x c Hx) as (c1 & Hx1 & A1 & A2 & A3). destruct (HG1 p cp Hp) as (cp1 & Hp1 & B1 & B2 & B3).
    assert (Hyx : y <> x) by (intros ->; rewrite Hx1 in Hy1; injection Hy1 as <-; lia).
    assert (Hyp : p <> y) by (intros ->; exact (not_below _ _ _ _ _ _ _ HI1 (path_here h1 y) Hy1 HPy1 eq_refl)).
    set (r1 := add r y) in *. assert (Hr1p : 0 < r1 p) by (unfold r1; rewrite add_other by exact Hyp; exact Hrp). assert (Hr1x : 0 < r1 x) by (unfold r1; rewrite add_other by auto; exact Hrx).
    assert (HSib : forall m, sibling alloc m h x (S (index c)) = Some (h1, Some y)). { intros m. unfold sibling. rewrite Hx, HP, Hp, HIx, HKids, app_length. cbn [List.length]. replace (S (List.length pre) <? List.length pre + S (S (List.length rest))) with true by (symmetry; apply Nat.ltb_lt; lia). rewrite HCh. reflexivity. }
    assert (HSp : 0 < sub r1 x p) by (rewrite sub_other by exact Hpx; exact Hr1p).
    set (pre2 := if inr i then pre else pre ++ [g]).
    assert (HMid : exists h2, (exists N, forall m, N <= m -> (if inr i then detach seg m h1 x else Some h1) = Some h2) /\ inv seg h2 r1 /\ moved r1 h1 h2 [] p (pre2 ++ g' :: rest) (fun j => if j <? List.length pre then Some j else if Nat.eqb j (List.length pre) then (if inr i then None else Some j) else Some (if inr i then pred j else j))).
    { unfold pre2. destruct (inr i) eqn:ER.
      - destruct (detach_moved h1 r1 x c1 p cp1 HI1 Hr1x Hr1p Hx1) as (h2 & HD & HI2 & HM); [congruence|exact Hp1|]. exists h2. split; [exact HD|]. split; [exact HI2|]. refine (moved_ext _ _ _ _ _ _ _ _ _ _ HM _ (incl_refl _) _).
        + rewrite A2, HIx, B3, HKids, firstn_app, Nat.sub_diag, firstn_all. cbn [firstn]. rewrite app_nil_r, skipn_app. rewrite skipn_all2 by lia. replace (S (List.length pre) - List.length pre) with 1 by lia. reflexivity.
        + intros z cz _ _ Hz HPz. rewrite A2, HIx. destruct (index cz <? List.length pre) eqn:E1.
          * apply Nat.ltb_lt in E1. replace (Nat.eqb (index cz) (List.length pre)) with false by (symmetry; apply Nat.eqb_neq; lia). replace (List.length pre <? index cz) with false by (symmetry; apply Nat.ltb_ge; lia). reflexivity.
          * apply Nat.ltb_ge in E1. destruct (Nat.eqb (index cz) (List.length pre)) eqn:E2; [reflexivity|]. apply Nat.eqb_neq in E2. replace (List.length pre <? index cz) with true by (symmetry; apply Nat.ltb_lt; lia). reflexivity.
      - exists h1. split; [exists 0; reflexivity|]. split; [exact HI1|]. refine (moved_ext _ _ _ _ _ _ _ _ _ _ (moved_id h1 r1 p cp1 HI1 Hr1p Hp1 _) _ (incl_refl _) _); [congruence| |].
        + rewrite B3, HKids, <- app_assoc. reflexivity.
        + intros z cz _ _ Hz HPz. destruct (index cz <? List.length pre); [reflexivity|]. destruct (Nat.eqb (index cz) (List.length pre)); reflexivity. }
    destruct HMid as (h2 & (n1 & HD) & HI2 & HM2). destruct (drop_ok seg h2 r1 x HI2 Hr1x) as (h3 & (n2 & HDr) & HI3 & HK3).
    pose proof (drop_similar _ _ _ _ _ HK3 HI2 HI3 HSp) as HS3. assert (Hp1N : h1 p <> None) by congruence. assert (HpN : h p <> None) by congruence.
    assert (HM3 : moved (sub r1 x) h1 h3 [] p (pre2 ++ g' :: rest) (fun j => if j <? List.length pre then Some j else if Nat.eqb j (List.length pre) then (if inr i then None else Some j) else Some (if inr i then pred j else j))).
    { apply (moved_post _ r1 h1 h2 h3); [exact HI1|exact Hp1N| |intros x0 js []|exact HS3]. apply (moved_weaken r1); [|exact HM2]. intros z. unfold sub. destruct (Nat.eqb z x); lia. }
    assert (Hr3y : 0 < sub r1 x y) by (rewrite sub_other by exact Hyx; unfold r1; rewrite add_same; lia).
    destruct (HM3 p cp1 (or_introl HSp) Hp1) as (cp3 & Hp3 & _ & HGp3 & _). specialize (HGp3 [] (path_here _ _)). cbn [with_children] in HGp3.
    assert (HK3' : gchildren (cgreen cp3) = pre2 ++ g' :: rest) by (rewrite HGp3; apply gchildren_new).
    destruct (HM3 y cy1 (or_introl Hr3y) Hy1) as (cy3 & Hy3 & HSy & _). specialize (HSy (fun H => H)). rewrite HPy1, Nat.eqb_refl, HIy1 in HSy. replace (S (List.length pre) <? List.length pre) with false in HSy by (symmetry; apply Nat.ltb_ge; lia). replace (Nat.eqb (S (List.length pre)) (List.length pre)) with false in HSy by (symmetry; apply Nat.eqb_neq; lia). destruct HSy as [HPy3 HIy3].
    assert (HIy3' : index cy3 = List.length pre2). { rewrite HIy3. unfold pre2. destruct (inr i); [reflexivity|]. rewrite app_length. cbn [List.length]. lia. }
    destruct (IH h3 (sub r1 x) p cp3 y cy3 (S i) pre2 g' HI3 HSp Hr3y Hp3 Hy3 HPy3 HIy3' HK3') as (h4 & (n3 & HL) & HI4 & HM4).
    assert (HR4 : forall z, sub (sub r1 x) y z = sub r x z). { intros z. unfold r1, sub, add. destruct (Nat.eqb z y) eqn:E1, (Nat.eqb z x) eqn:E2; reflexivity. }
    exists h4. split; [|split].
    + exists (max n1 (max n2 n3)). intros m Hm [|n] Hn; [lia|]. cbn [List.length] in Hn. cbn [delete_loop]. rewrite Hx, HSib. fold (inr i). rewrite HD, HDr by lia. apply HL; lia.
    + exact (inv_ext seg h4 h4 _ _ (fun _ => eq_refl) HR4 HI4).
    + apply (moved_pre _ r h h1 h4); [exact HI|exact HpN|apply grown_similar; exact HG1|].
      assert (HM3' : moved (sub r x) h1 h3 [] p (pre2 ++ g' :: rest) (fun j => if j <? List.length pre then Some j else if Nat.eqb j (List.length pre) then (if inr i then None else Some j) else Some (if inr i then pred j else j))).
      { apply (moved_weaken (sub r1 x)); [|exact HM3]. intros z. unfold r1, sub, add. destruct (Nat.eqb z x), (Nat.eqb z y); lia. }
      assert (HM4' := HM4). apply (moved_weaken _ (sub r x)) in HM4'; [|intros z; rewrite HR4; auto].
      refine (moved_ext _ _ _ _ _ _ _ _ _ _ (moved_trans _ r1 _ _ _ _ _ _ _ _ _ _ HI1 Hp1N HM3' (fun x0 js HH => match HH with end) HM4') _ (incl_refl _) _).
      * unfold pre2. change (keep i (g :: g' :: rest)) with (if inr i then keep (S i) (g' :: rest) else g :: keep (S i) (g' :: rest)). destruct (inr i); [reflexivity|]. rewrite <- app_assoc. reflexivity.
      * intros z cz _ _ Hz HPz. set (j := index cz). unfold pre2. destruct (j <? List.length pre) eqn:E1.
        -- apply Nat.ltb_lt in E1. destruct (inr i); [replace (j <? List.length pre) with true by (symmetry; apply Nat.ltb_lt; lia); reflexivity|]. rewrite app_length. replace (j <? List.length pre + List.length [g]) with true by (symmetry; apply Nat.ltb_lt; cbn [List.length]; lia). reflexivity.
        -- apply Nat.ltb_ge in E1. destruct (Nat.eqb j (List.length pre)) eqn:E2.
           ++ apply Nat.eqb_eq in E2. replace (j - List.length pre) with 0 by lia. cbn [newpos]. destruct (inr i); [reflexivity|]. rewrite app_length. cbn [List.length]. replace (j <? List.length pre + 1) with true by (symmetry; apply Nat.ltb_lt; lia). cbn [option_map]. f_equal. lia.
           ++ apply Nat.eqb_neq in E2. replace (j - List.length pre) with (S (j - S (List.length pre))) by lia. cbn [newpos]. destruct (inr i).
              ** replace (pred j <? List.length pre) with false by (symmetry; apply Nat.ltb_ge; lia). replace (pred j - List.length pre) with (j - S (List.length pre)) by lia. destruct (newpos (S i) _); reflexivity.
              ** rewrite app_length. cbn [List.length]. replace (j <? List.length pre + 1) with false by (symmetry; apply Nat.ltb_ge; lia). replace (j - (List.length pre + 1)) with (j - S (List.length pre)) by lia. destruct (newpos (S i) _) as [q|]; [|reflexivity]. cbn [option_map]. f_equal. lia.
Qed.
Lemma keep_after l : forall i, max a b <= i -> keep i l = l.
Proof. induction l as [|g l IH]; intros i Hi; [reflexivity|]. cbn [keep]. unfold inr. replace (i <? b) with false by (symmetry; apply Nat.ltb_ge; lia). rewrite andb_false_r, IH by lia. reflexivity. Qed.
Lemma keep_in l : forall i, a <= i -> keep i l = skipn (max a b - i) l.
Proof.
  induction l as [|g l IH]; intros i Hi; [rewrite skipn_nil; reflexivity|]. destruct (le_lt_dec (max a b) i) as [HL|HL]; [rewrite keep_after by exact HL; replace (max a b - i) with 0 by lia; reflexivity|].
  cbn [keep]. unfold inr. replace (a <=? i) with true by (symmetry; apply Nat.leb_le; lia). replace (i <? b) with true by (symmetry; apply Nat.ltb_lt; lia). cbn [andb]. rewrite IH by lia. replace (max a b - i) with (S (max a b - S i)) by lia. reflexivity.
Qed.
Lemma keep_spec l : forall i, i <= a -> keep i l = firstn (a - i) l ++ skipn (max a b - i) l.
Proof.
  induction l as [|g l IH]; intros i Hi; [rewrite firstn_nil, skipn_nil; reflexivity|]. destruct (Nat.eq_dec i a) as [-> |HN]; [rewrite keep_in by lia; rewrite Nat.sub_diag; reflexivity|].
  cbn [keep]. unfold inr. replace (a <=? i) with false by (symmetry; apply Nat.leb_gt; lia). cbn [andb]. rewrite IH by lia. replace (a - i) with (S (a - S i)) by lia. replace (max a b - i) with (S (max a b - S i)) by lia. reflexivity.
Qed.
Definition new_place (j : nat) : option nat := if j <? a then Some j else if j <? b then None else Some (j - (b - a)).
Lemma newpos_spec t : forall i, newpos i t = (if i + t <? a then Some t else if i + t <? b then None else Some (t - (max b i - max a i))).
Proof.
  induction t as [|t IH]; intros i.
  - cbn [newpos]. unfold inr. rewrite Nat.add_0_r. destruct (i <? a) eqn:E1.
    + apply Nat.ltb_lt in E1. replace (a <=? i) with false by (symmetry; apply Nat.leb_gt; lia). reflexivity.
    + apply Nat.ltb_ge in E1. replace (a <=? i) with true by (symmetry; apply Nat.leb_le; lia). cbn [andb]. destruct (i <? b); reflexivity.
  - cbn [newpos]. rewrite IH. unfold inr. replace (S i + t) with (i + S t) by lia. destruct (i + S t <? a) eqn:E1.
    + apply Nat.ltb_lt in E1. replace (a <=? i) with false by (symmetry; apply Nat.leb_gt; lia). reflexivity.
    + apply Nat.ltb_ge in E1. destruct (i + S t <? b) eqn:E2; [reflexivity|]. apply Nat.ltb_ge in E2. f_equal. destruct (a <=? i) eqn:E3, (i <? b) eqn:E4; cbn [andb]; try apply Nat.leb_le in E3; try apply Nat.leb_gt in E3; try apply Nat.ltb_lt in E4; try apply Nat.ltb_ge in E4; lia.
Qed.
Lemma splice_ok h r p cp new : inv seg h r -> 0 < r p -> h p = Some cp -> gnode (cgreen cp) = true -> a <= List.length (gchildren (cgreen cp)) ->
  NoDup new -> (forall x, In x new -> 0 < r x) -> (forall x js, In x new -> ~ path h x p js) ->
  (forall x c, In x new -> h x = Some c -> parent c = None \/ (parent c = Some p /\ a <= index c < b)) ->
  exists h' ts, (exists N, forall m, N <= m -> splice seg alloc m h p a b new = Some h') /\ inv seg h' (sub_all r new) /\
    Forall2 (fun x t => exists c, h x = Some c /\ cgreen c = t) new ts /\
    moved (sub_all r new) h h' new p (firstn a (gchildren (cgreen cp)) ++ ts ++ skipn (max a b) (gchildren (cgreen cp)))
      (fun j => match new_place j with Some k => Some (if j <? a then k else k + List.length new) | None => None end) /\
    (forall k x c, nth_error new k = Some x -> h x = Some c -> 0 < sub_all r new x -> exists c', h' x = Some c' /\ parent c' = Some p /\ index c' = a + k /\ cgreen c' = cgreen c).
Proof.
  intros HI Hrp Hp HGn HLen HND Hr HNx HRoot. set (l := gchildren (cgreen cp)) in *. assert (HpN : h p <> None) by congruence.
  assert (HNp : ~ In p new) by (intros HIn; exact (HNx p [] HIn (path_here _ _))).
  assert (HDel : exists h1, (exists N, forall m, N <= m -> (get (k, cur) <- (match l with [] => Some (h, None) | _ :: _ => get (k, y) <- child alloc m h p 0; Some (k, Some y) end); delete_loop seg alloc m m k a b 0 cur) = Some h1) /\ inv seg h1 r /\ moved r h h1 [] p (keep 0 l) new_place).
  { destruct l as [|g rest] eqn:EL.
    - exists h. split; [exists 1; intros [|m] Hm; [lia|reflexivity]|]. split; [exact HI|]. refine (moved_ext _ _ _ _ _ _ _ _ _ _ (moved_id h r p cp HI Hrp Hp HGn) _ (incl_refl _) _); [exact EL|]. intros y c _ _ Hy HPy. exfalso. destruct (i_parent _ _ _ _ (proj1 HI) y c p Hy HPy) as (cp' & A & B & _). assert (cp' = cp) by congruence. subst cp'. cbn [kids_of] in B. subst l. rewrite EL in B. destruct (index c); discriminate.
    - subst l. destruct (child_ok seg alloc alloc_fresh h r p cp 0 g HI Hp) as (h1 & y & HCh & HI1 & HG1 & _ & (cy1 & Hy1 & HPy1 & HIy1 & HGy1)); [rewrite EL; reflexivity|]. destruct (HG1 p cp Hp) as (cp1 & Hp1 & B1 & B2 & B3).
      assert (Hyp : p <> y) by (intros ->; exact (not_below _ _ _ _ _ _ _ HI1 (path_here h1 y) Hy1 HPy1 eq_refl)).
      destruct (delete_loop_ok rest h1 (add r y) p cp1 y cy1 0 [] g HI1) as (h2 & (N & HL) & HI2 & HM); try assumption; [rewrite add_other by exact Hyp; exact Hrp|rewrite add_same; lia|rewrite B3; exact EL|].
      assert (HR : forall z, sub (add r y) y z = r z) by (intros z; unfold sub, add; destruct (Nat.eqb z y); reflexivity).
      exists h2. split; [|split; [exact (inv_ext seg _ _ _ _ (fun _ => eq_refl) HR HI2)|]].
      + exists (max N (S (List.length rest))). intros m Hm. rewrite HCh. apply HL; lia.
      + apply (moved_pre _ r h h1 h2); [exact HI|exact HpN|apply grown_similar; exact HG1|]. apply (moved_weaken _ r) in HM; [|intros z; rewrite HR; auto]. refine (moved_ext _ _ _ _ _ _ _ _ _ _ HM _ (incl_refl _) _); [reflexivity|].
        intros z cz _ _ Hz HPz. cbn [List.length]. change (index cz <? 0) with false. rewrite Nat.sub_0_r, newpos_spec. unfold new_place. cbn [Nat.add]. rewrite !Nat.max_0_r. destruct (index cz <? a); [reflexivity|]. destruct (index cz <? b); reflexivity. }
  destruct HDel as (h1 & (N1 & HD) & HI1 & HM1). pose proof (moved_path _ _ _ _ _ _ _ _ HI HpN HM1 (fun x0 js HH => match HH with end)) as HPath.
  destruct (HM1 p cp (or_introl Hrp) Hp) as (cp1 & Hp1 & _ & HGp1 & _). specialize (HGp1 [] (path_here _ _)). cbn [with_children] in HGp1.
  assert (HK1 : gchildren (cgreen cp1) = firstn a l ++ skipn (max a b) l) by (rewrite HGp1, gchildren_new, keep_spec by lia; rewrite !Nat.sub_0_r; reflexivity).
  assert (HLF : List.length (firstn a l) = a) by (apply firstn_length_le; exact HLen).
  assert (HNew1 : forall x c, In x new -> h x = Some c -> exists c1, h1 x = Some c1 /\ parent c1 = None /\ cgreen c1 = cgreen c).
  { intros x c HIn Hx. destruct (HM1 x c (or_introl (Hr x HIn)) Hx) as (c1 & A & B & _ & D). exists c1. split; [exact A|]. split; [|apply D; intros js; exact (HNx x js HIn)]. specialize (B (fun H => H)). destruct (HRoot x c HIn Hx) as [HN|[HPx HRg]]; [rewrite HN in B; exact B|]. rewrite HPx, Nat.eqb_refl in B. unfold new_place in B. replace (index c <? a) with false in B by (symmetry; apply Nat.ltb_ge; lia). replace (index c <? b) with true in B by (symmetry; apply Nat.ltb_lt; lia). exact B. }
  destruct (attach_all_ok new h1 r p cp1 a HI1 Hrp HNp HND Hr Hp1) as (h2 & ts & (N2 & HA) & HI2 & HT & HM2 & HX2).
  - rewrite HGp1. apply gnode_new.
  - rewrite HK1, app_length, HLF. lia.
  - intros x HIn. destruct (h x) as [c|] eqn:Ex; [|contradiction (i_handles _ _ _ _ (proj1 HI) x (Hr x HIn) Ex)]. destruct (HNew1 x c HIn Ex) as (c1 & A & B & _). eauto.
  - intros x js HIn HP. apply HPath in HP. exact (HNx x js HIn HP).
  - exists h2, ts. split; [|split; [exact HI2|split; [|split]]].
    + exists (max N1 N2). intros m Hm. unfold splice. rewrite Hp. fold l. specialize (HD m ltac:(lia)). destruct (match l with [] => Some (h, None) | _ :: _ => get (k, y) <- child alloc m h p 0; Some (k, Some y) end) as [[h0 cur]|]; [|discriminate]. rewrite HD. apply HA. lia.
    + assert (HG : forall x, In x new -> forall t, (exists c, h1 x = Some c /\ cgreen c = t) -> exists c, h x = Some c /\ cgreen c = t).
      { intros x HIn t (c1 & A & B). destruct (h x) as [c|] eqn:Ex; [|contradiction (i_handles _ _ _ _ (proj1 HI) x (Hr x HIn) Ex)]. destruct (HNew1 x c HIn Ex) as (c1' & A' & _ & B'). exists c. split; [reflexivity|congruence]. }
      clear - HT HG. induction HT as [|x t new ts Hx HT IHT]; constructor; [apply HG; [left; reflexivity|exact Hx]|]. apply IHT. intros x' Hx'. apply HG. right. exact Hx'.
    + assert (HM1' : moved (sub_all r new) h h1 [] p (keep 0 l) new_place) by (apply (moved_weaken r); [intros y Hy; pose proof (sub_all_le new r y); lia|exact HM1]).
      refine (moved_ext _ _ _ _ _ _ _ _ _ _ (moved_trans _ _ _ _ _ _ _ _ _ _ _ _ HI HpN HM1' (fun x0 js HH => match HH with end) HM2) _ (incl_refl _) _).
      * rewrite HK1, firstn_app, HLF, Nat.sub_diag, skipn_app, HLF, Nat.sub_diag. rewrite (firstn_all2 (firstn a l)) by lia. rewrite (skipn_all2 (firstn a l)) by lia. cbn [firstn skipn app]. rewrite app_nil_r. reflexivity.
      * intros y c _ _ Hy HPy. unfold new_place. destruct (index c <? a) eqn:E1.
        -- apply Nat.ltb_lt in E1. replace (a <=? index c) with false by (symmetry; apply Nat.leb_gt; lia). reflexivity.
        -- apply Nat.ltb_ge in E1. destruct (index c <? b) eqn:E2; [reflexivity|]. apply Nat.ltb_ge in E2. replace (a <=? index c - (b - a)) with true by (symmetry; apply Nat.leb_le; lia). reflexivity.
    + intros k x c Hk Hx Hs. assert (HIn : In x new) by exact (nth_error_In _ _ Hk). destruct (HNew1 x c HIn Hx) as (c1 & A & B & C). destruct (HX2 k x c1 Hk A Hs) as (c2 & A2 & B2 & C2 & D2). exists c2. repeat split; congruence.
Qed.
End range.
End seg.
