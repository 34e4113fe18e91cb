(** Final theorems about positions, ranges and spans (C34). *)
From Coq Require Import List NArith Bool Lia ZifyBool.
From Verif Require Import Base TextModel.
Import ListNotations.
Open Scope N_scope.

(** * Specification *)
(** The reading order of positions: by line, then by column. *)
Definition before (a b : position) : Prop := line a < line b \/ (line a = line b /\ column a < column b).
Definition at_or_before (a b : position) : Prop := before a b \/ a = b.
Definition in_range_of (r : range) (p : position) : Prop := at_or_before (rstart r) p /\ at_or_before p (rend r).
Definition proper (r : range) : Prop := at_or_before (rstart r) (rend r).
Definition proper_span (s : span) : Prop := sstart s <= send s.
Definition in_span (s : span) (o : N) : Prop := sstart s <= o < send s.
Definition is_u32 (n : N) : Prop := n <= 4294967295.
(** The positions of a text: the line breaks before it and the clusters since the last one. *)
Definition line_breaks (gs : list str) : list str := filter is_newline_cluster gs.
Fixpoint since_break (gs : list str) : list str :=
  match gs with [] => [] | g :: gs' => if existsb is_newline_cluster (g :: gs') then since_break gs' else g :: gs' end.

(** * Order *)
Lemma pos_eq a b : line a = line b -> column a = column b -> a = b.
Proof. destruct a, b; simpl; congruence. Qed.
Lemma leb_spec a b : pos_leb a b = true <-> at_or_before a b.
Proof.
  unfold pos_leb, pos_cmp, at_or_before, before. destruct (N.compare_spec (line a) (line b)).
  - destruct (N.compare_spec (column a) (column b)); split; intros K; try discriminate; auto.
    + right. apply pos_eq; auto.
    + destruct K as [[K|[K1 K2]]|K]; [lia|lia|subst; lia].
  - split; intros _; [left; left; auto|reflexivity].
  - split; [discriminate|]. intros [[K|[K1 K2]]|K]; [lia|lia|subst; lia].
Qed.
Lemma leb_total a b : at_or_before a b \/ at_or_before b a.
Proof.
  unfold at_or_before, before. destruct (N.lt_trichotomy (line a) (line b)) as [|[|]]; auto.
  destruct (N.lt_trichotomy (column a) (column b)) as [|[|]]; auto 6. left; right; apply pos_eq; auto.
Qed.
Lemma le_trans a b c : at_or_before a b -> at_or_before b c -> at_or_before a c.
Proof. unfold at_or_before, before. intros [H| ->] [K| ->]; auto. left. lia. Qed.
Lemma le_antisym a b : at_or_before a b -> at_or_before b a -> a = b.
Proof. unfold at_or_before, before. intros [H| ->] [K|E]; auto. lia. Qed.
Lemma le_refl a : at_or_before a a.
Proof. right; auto. Qed.

Lemma cmp_spec a b : match pos_cmp a b with Lt => before a b | Eq => a = b | Gt => before b a end.
Proof.
  unfold pos_cmp, before. destruct (N.compare_spec (line a) (line b)); auto.
  destruct (N.compare_spec (column a) (column b)); auto. apply pos_eq; auto.
Qed.

Lemma pack a b c d : a <= 4294967295 -> c <= 4294967295 ->
  N.lor (N.shiftl b 32) a = N.lor (N.shiftl d 32) c -> a = c /\ b = d.
Proof.
  intros Ha Hc.
  assert (S : forall x y, x <= 4294967295 -> N.lor (N.shiftl y 32) x = y * 4294967296 + x).
  { intros x y Hx. rewrite N.shiftl_mul_pow2. change (2 ^ 32) with 4294967296.
    rewrite <- N.lxor_lor; [rewrite <- N.add_nocarry_lxor|].
    - reflexivity.
    - apply N.bits_inj. intros i. rewrite N.land_spec, N.bits_0. change 4294967296 with (2 ^ 32).
      destruct (N.lt_ge_cases i 32) as [L|L].
      + rewrite N.mul_pow2_bits_low by auto. reflexivity.
      + replace (N.testbit x i) with false; [apply andb_false_r|]. symmetry.
        destruct (N.eq_dec x 0) as [-> |Hz]; [apply N.bits_0|]. apply N.bits_above_log2.
        apply N.log2_lt_pow2; [lia|]. apply N.lt_le_trans with (2 ^ 32); [change (2 ^ 32) with 4294967296; lia|apply N.pow_le_mono_r; lia].
    - apply N.bits_inj. intros i. rewrite N.land_spec, N.bits_0. change 4294967296 with (2 ^ 32).
      destruct (N.lt_ge_cases i 32) as [L|L].
      + rewrite N.mul_pow2_bits_low by auto. reflexivity.
      + replace (N.testbit x i) with false; [apply andb_false_r|]. symmetry.
        destruct (N.eq_dec x 0) as [-> |Hz]; [apply N.bits_0|]. apply N.bits_above_log2.
        apply N.log2_lt_pow2; [lia|]. apply N.lt_le_trans with (2 ^ 32); [change (2 ^ 32) with 4294967296; lia|apply N.pow_le_mono_r; lia]. }
  rewrite !S by auto. lia.
Qed.

Lemma C34_order_proof :
  (forall a b, match pos_cmp a b with Lt => before a b | Eq => a = b | Gt => before b a end) /\
  (forall a b, is_u32 (line a) -> is_u32 (line b) -> pos_eqb a b = true <-> a = b) /\
  (forall a b, is_u32 (sstart a) -> is_u32 (sstart b) -> span_eqb a b = true <-> a = b) /\
  (forall a b, range_cmp a b = Eq <-> a = b) /\ (forall a b, range_cmp b a = CompOpp (range_cmp a b)) /\
  (forall a b c, range_cmp a b = Lt -> range_cmp b c = Lt -> range_cmp a c = Lt).
Proof.
  split; [exact cmp_spec|]. split; [|split].
  - intros a b Ha Hb. unfold pos_eqb, pos_as_u64. rewrite N.eqb_eq. split; [|intros ->; auto].
    intros E. apply pack in E as [E1 E2]; auto. apply pos_eq; auto.
  - intros a b Ha Hb. unfold span_eqb, span_as_u64. rewrite N.eqb_eq. split; [|intros ->; auto].
    intros E. apply pack in E as [E1 E2]; auto. destruct a, b; simpl in *; congruence.
  - assert (R : forall a b, match range_cmp a b with
        | Lt => before (rstart a) (rstart b) \/ (rstart a = rstart b /\ before (rend a) (rend b))
        | Eq => a = b
        | Gt => before (rstart b) (rstart a) \/ (rstart b = rstart a /\ before (rend b) (rend a)) end).
    { intros a b. unfold range_cmp. pose proof (cmp_spec (rstart a) (rstart b)) as H. destruct (pos_cmp (rstart a) (rstart b)); auto.
      pose proof (cmp_spec (rend a) (rend b)) as K. destruct (pos_cmp (rend a) (rend b)); auto. destruct a, b; simpl in *; congruence. }
    assert (NB : forall p q, before p q -> before q p -> False) by (unfold before; intros; lia).
    assert (NR : forall p, before p p -> False) by (unfold before; intros; lia).
    assert (BT : forall p q r, before p q -> before q r -> before p r) by (unfold before; intros; lia).
    split; [|split].
    + intros a b. specialize (R a b). destruct (range_cmp a b); split; intros E; auto; try discriminate.
      * subst. destruct R as [R|[_ R]]; apply NR in R; contradiction.
      * subst. destruct R as [R|[_ R]]; apply NR in R; contradiction.
    + intros a b. pose proof (R a b) as R1. pose proof (R b a) as R2.
      destruct (range_cmp a b), (range_cmp b a); try reflexivity; exfalso; subst;
      repeat match goal with H : _ \/ _ |- _ => destruct H | H : _ /\ _ |- _ => destruct H | H : before ?p ?p |- _ => exact (NR _ H)
        | H : ?p = ?q, K : before ?p ?q |- _ => rewrite H in K | H : ?p = ?q, K : before ?q ?p |- _ => rewrite H in K
        | H : before ?p ?q, K : before ?q ?p |- _ => exact (NB _ _ H K) end.
    + intros a b c H1 H2. pose proof (R a b) as R1. pose proof (R b c) as R2. pose proof (R a c) as R3.
      rewrite H1 in R1. rewrite H2 in R2. destruct (range_cmp a c); [exfalso|reflexivity|exfalso]; subst;
      repeat match goal with H : _ \/ _ |- _ => destruct H | H : _ /\ _ |- _ => destruct H end;
      unfold before in *; repeat match goal with H : _ = _ :> position |- _ => (rewrite H in * ) ; clear H end; lia.
Qed.
(** Positions are ordered in reading order, equality (computed on a packed 64-bit word) is equality of
    line and column, and ranges are totally ordered. *)
Theorem C34_order :
  (forall a b, match pos_cmp a b with Lt => before a b | Eq => a = b | Gt => before b a end) /\
  (forall a b, is_u32 (line a) -> is_u32 (line b) -> pos_eqb a b = true <-> a = b) /\
  (forall a b, is_u32 (sstart a) -> is_u32 (sstart b) -> span_eqb a b = true <-> a = b) /\
  (forall a b, range_cmp a b = Eq <-> a = b) /\ (forall a b, range_cmp b a = CompOpp (range_cmp a b)) /\
  (forall a b c, range_cmp a b = Lt -> range_cmp b c = Lt -> range_cmp a c = Lt).
Proof. exact C34_order_proof. Qed.
Print Assumptions C34_order.

(** * Ranges *)
Lemma min_spec a b : at_or_before (pos_min a b) a /\ at_or_before (pos_min a b) b /\ (pos_min a b = a \/ pos_min a b = b).
Proof.
  unfold pos_min. destruct (pos_leb a b) eqn:E.
  - apply leb_spec in E. repeat split; auto. apply le_refl.
  - destruct (leb_total a b) as [K|K]; [apply leb_spec in K; congruence|]. repeat split; auto. apply le_refl.
Qed.
Lemma max_spec a b : at_or_before a (pos_max a b) /\ at_or_before b (pos_max a b) /\ (pos_max a b = a \/ pos_max a b = b).
Proof.
  unfold pos_max. destruct (pos_leb a b) eqn:E.
  - apply leb_spec in E. repeat split; auto. apply le_refl.
  - destruct (leb_total a b) as [K|K]; [apply leb_spec in K; congruence|]. repeat split; auto. apply le_refl.
Qed.

Lemma C34_ranges_proof :
  (forall s e, proper (range_new s e) /\ (at_or_before s e -> range_new s e = MkRange s e)) /\
  (forall r p, range_contains r p = true <-> in_range_of r p) /\
  (forall r o, proper r -> proper o -> range_intersects r o = true <-> exists p, in_range_of r p /\ in_range_of o p) /\
  (forall r, proper r -> range_is_empty r = true <-> forall p q, in_range_of r p -> in_range_of r q -> p = q) /\
  (forall a b, proper a -> proper b ->
     proper (range_add a b) /\ (forall p, in_range_of a p \/ in_range_of b p -> in_range_of (range_add a b) p) /\
     (forall r, (forall p, in_range_of a p \/ in_range_of b p -> in_range_of r p) -> forall p, in_range_of (range_add a b) p -> in_range_of r p)).
Proof.
  split; [|split; [|split; [|split]]].
  - intros s e. unfold range_new, proper. destruct (pos_leb s e) eqn:E; cbn [rstart rend].
    + split; auto. apply leb_spec; auto.
    + split; [apply le_refl|]. intros K. apply leb_spec in K. congruence.
  - intros r p. unfold range_contains, in_range_of. rewrite andb_true_iff, !leb_spec. reflexivity.
  - intros r o Hr Ho. unfold range_intersects, in_range_of. rewrite andb_true_iff, !leb_spec. split.
    + intros [H1 H2]. destruct (leb_total (rstart r) (rstart o)) as [K|K].
      * exists (rstart o). repeat split; auto. apply le_refl.
      * exists (rstart r). repeat split; auto. apply le_refl.
    + intros (p & [A1 A2] & [B1 B2]). split; eapply le_trans; eauto.
  - intros r Hr. unfold range_is_empty, in_range_of. rewrite andb_true_iff, !N.eqb_eq. split.
    + intros [E1 E2] p q [A1 A2] [B1 B2]. pose proof (pos_eq _ _ E1 E2) as E. rewrite E in *.
      rewrite (le_antisym p (rend r)), (le_antisym q (rend r)); auto.
    + intros H. rewrite (H (rstart r) (rend r)); auto; split; auto; apply le_refl.
  - intros a b Ha Hb. pose proof (min_spec (rstart a) (rstart b)) as (M1 & M2 & M3). pose proof (max_spec (rend a) (rend b)) as (X1 & X2 & X3).
    assert (P : at_or_before (pos_min (rstart a) (rstart b)) (pos_max (rend a) (rend b))).
    { eapply le_trans; [exact M1|]. eapply le_trans; [exact Ha|exact X1]. }
    assert (E : range_add a b = MkRange (pos_min (rstart a) (rstart b)) (pos_max (rend a) (rend b))).
    { unfold range_add, range_new. apply leb_spec in P. rewrite P. reflexivity. }
    rewrite E. unfold proper, in_range_of. cbn [rstart rend]. split; [exact P|]. split.
    + intros p [[H1 H2]|[H1 H2]]; split.
      * exact (le_trans _ _ _ M1 H1).
      * exact (le_trans _ _ _ H2 X1).
      * exact (le_trans _ _ _ M2 H1).
      * exact (le_trans _ _ _ H2 X2).
    + intros r Hr p [H1 H2].
      assert (A1 := Hr (rstart a) (or_introl (conj (le_refl _) Ha))). assert (A2 := Hr (rend a) (or_introl (conj Ha (le_refl _)))).
      assert (B1 := Hr (rstart b) (or_intror (conj (le_refl _) Hb))). assert (B2 := Hr (rend b) (or_intror (conj Hb (le_refl _)))).
      destruct A1, A2, B1, B2. split.
      * eapply le_trans; [|exact H1]. destruct M3 as [-> | ->]; auto.
      * eapply le_trans; [exact H2|]. destruct X3 as [-> | ->]; auto.
Qed.
(** Ranges are intervals of the reading order: [Range::new] keeps the invariant, containment, intersection
    and emptiness agree with the positions covered, and the sum of two ranges is the smallest range that
    covers both. *)
Theorem C34_ranges :
  (forall s e, proper (range_new s e) /\ (at_or_before s e -> range_new s e = MkRange s e)) /\
  (forall r p, range_contains r p = true <-> in_range_of r p) /\
  (forall r o, proper r -> proper o -> range_intersects r o = true <-> exists p, in_range_of r p /\ in_range_of o p) /\
  (forall r, proper r -> range_is_empty r = true <-> forall p q, in_range_of r p -> in_range_of r q -> p = q) /\
  (forall a b, proper a -> proper b ->
     proper (range_add a b) /\ (forall p, in_range_of a p \/ in_range_of b p -> in_range_of (range_add a b) p) /\
     (forall r, (forall p, in_range_of a p \/ in_range_of b p -> in_range_of r p) -> forall p, in_range_of (range_add a b) p -> in_range_of r p)).
Proof. exact C34_ranges_proof. Qed.
Print Assumptions C34_ranges.

(** * Spans *)
Lemma C34_spans_proof : forall a b, proper_span a -> proper_span b ->
  (forall o, span_contains a o = true <-> in_span a o) /\
  (forall o, span_contains_inclusive a o = true <-> sstart a <= o <= send a) /\
  (span_contains_span a b = true -> forall o, in_span b o -> in_span a o) /\
  (sstart b < send b -> (forall o, in_span b o -> in_span a o) -> span_contains_span a b = true) /\
  (forall o, (in_span a o /\ in_span b o) <-> exists s, span_intersect a b = Some s /\ in_span s o) /\
  (span_intersect a b = None <-> ~ exists o, sstart a <= o <= send a /\ sstart b <= o <= send b) /\
  (forall s, span_intersect a b = Some s -> proper_span s) /\
  (proper_span (span_cover a b) /\ span_contains_span (span_cover a b) a = true /\ span_contains_span (span_cover a b) b = true /\
   forall s, span_contains_span s a = true -> span_contains_span s b = true -> span_contains_span s (span_cover a b) = true) /\
  (forall o s, span_contains_span s a = true -> span_contains_inclusive s o = true -> span_contains_span s (span_cover_offset a o) = true) /\
  (span_ordering a b = Eq -> sstart a < send a -> sstart b < send b -> exists o, in_span a o /\ in_span b o) /\
  (span_ordering a b = Lt -> forall x y, in_span a x -> in_span b y -> x < y) /\
  (span_ordering a b = Gt -> forall x y, in_span a x -> in_span b y -> y < x) /\
  (forall o s, span_checked_add a o = Some s -> span_checked_sub s o = Some a) /\
  (forall o s, span_checked_sub a o = Some s -> is_u32 (send a) -> span_checked_add s o = Some a).
Proof.
  intros [a1 a2] [b1 b2] Ha Hb. unfold span_cover_offset, span_checked_add, span_checked_sub. unfold proper_span, in_span, span_contains, span_contains_inclusive, span_contains_span, span_intersect,
    span_cover, span_cover_offset, span_ordering, span_checked_add, span_checked_sub, span_shift, offset_checked_add, offset_checked_sub, is_u32, u32_max in *.
  cbn [sstart send] in *.
  split; [intros; lia|]. split; [intros; lia|]. split; [intros; lia|].
  split. { intros H K. pose proof (K b1). pose proof (K (b2 - 1)). lia. }
  split. { intros o. destruct (N.min a2 b2 <? N.max a1 b1) eqn:E; split.
    - lia. - intros (s & K & _). discriminate.
    - intros H. eexists. split; [reflexivity|]. cbn. lia.
    - intros (s & K & K2). injection K as <-. cbn in K2. lia. }
  split. { destruct (N.min a2 b2 <? N.max a1 b1) eqn:E; split; try discriminate; auto.
    - intros _ (o & H1 & H2). lia.
    - intros H. exfalso. apply H. exists (N.max a1 b1). lia. }
  split. { intros s. destruct (_ <? _) eqn:E; [discriminate|]. intros K. injection K as <-. cbn. lia. }
  split; [repeat split; intros; lia|]. split; [intros; lia|].
  split. { destruct (a2 <=? b1) eqn:E1; [discriminate|]. destruct (b2 <=? a1) eqn:E2; [discriminate|]. intros _ H1 H2. exists (N.max a1 b1). lia. }
  split. { destruct (a2 <=? b1) eqn:E1; [intros; lia|]. destruct (b2 <=? a1) eqn:E2; discriminate. }
  split. { destruct (a2 <=? b1) eqn:E1; [discriminate|]. destruct (b2 <=? a1) eqn:E2; [intros; lia|discriminate]. }
  split.
  - intros o s. destruct (a1 + o <=? 4294967295); [|discriminate]. destruct (a2 + o <=? 4294967295); [|discriminate].
    intros E. injection E as <-. cbn [sstart send]. replace (o <=? a1 + o) with true by lia. replace (o <=? a2 + o) with true by lia. f_equal. f_equal; lia.
  - intros o s. destruct (o <=? a1) eqn:E1; [|discriminate]. destruct (o <=? a2) eqn:E2; [|discriminate].
    intros E HU. injection E as <-. cbn [sstart send]. replace (a1 - o + o <=? 4294967295) with true by lia. replace (a2 - o + o <=? 4294967295) with true by lia. f_equal. f_equal; lia.
Qed.
(** Spans are half-open intervals of offsets. *)
Theorem C34_spans : forall a b, proper_span a -> proper_span b ->
  (forall o, span_contains a o = true <-> in_span a o) /\
  (forall o, span_contains_inclusive a o = true <-> sstart a <= o <= send a) /\
  (span_contains_span a b = true -> forall o, in_span b o -> in_span a o) /\
  (sstart b < send b -> (forall o, in_span b o -> in_span a o) -> span_contains_span a b = true) /\
  (forall o, (in_span a o /\ in_span b o) <-> exists s, span_intersect a b = Some s /\ in_span s o) /\
  (span_intersect a b = None <-> ~ exists o, sstart a <= o <= send a /\ sstart b <= o <= send b) /\
  (forall s, span_intersect a b = Some s -> proper_span s) /\
  (proper_span (span_cover a b) /\ span_contains_span (span_cover a b) a = true /\ span_contains_span (span_cover a b) b = true /\
   forall s, span_contains_span s a = true -> span_contains_span s b = true -> span_contains_span s (span_cover a b) = true) /\
  (forall o s, span_contains_span s a = true -> span_contains_inclusive s o = true -> span_contains_span s (span_cover_offset a o) = true) /\
  (span_ordering a b = Eq -> sstart a < send a -> sstart b < send b -> exists o, in_span a o /\ in_span b o) /\
  (span_ordering a b = Lt -> forall x y, in_span a x -> in_span b y -> x < y) /\
  (span_ordering a b = Gt -> forall x y, in_span a x -> in_span b y -> y < x) /\
  (forall o s, span_checked_add a o = Some s -> span_checked_sub s o = Some a) /\
  (forall o s, span_checked_sub a o = Some s -> is_u32 (send a) -> span_checked_add s o = Some a).
Proof. exact C34_spans_proof. Qed.
Print Assumptions C34_spans.

(** * Advancing *)
Lemma rel_from gs : forall l c, rel_of_clusters_from l c gs =
  Rel (l + N.of_nat (length (line_breaks gs))) (if existsb is_newline_cluster gs then N.of_nat (length (since_break gs)) else c + N.of_nat (length gs)).
Proof.
  induction gs as [|g gs IH]; intros l c; [simpl; f_equal; lia|].
  cbn [rel_of_clusters_from line_breaks filter existsb since_break]. destruct (is_newline_cluster g) eqn:E; rewrite IH; cbn [orb].
  - cbn [length]. f_equal; [fold (line_breaks gs); lia|]. destruct (existsb is_newline_cluster gs) eqn:EX; [reflexivity|].
    replace (since_break gs) with gs; [lia|]. destruct gs; [reflexivity|]. cbn [since_break]. rewrite EX. reflexivity.
  - f_equal. destruct (existsb is_newline_cluster gs) eqn:EX; [reflexivity|]. cbn [length]. lia.
Qed.
Lemma C34_advance_proof :
  (forall p gs, pos_add p (rel_of_clusters gs) =
     Pos (line p + N.of_nat (length (line_breaks gs)))
         (match line_breaks gs with [] => column p + N.of_nat (length gs) | _ => N.of_nat (length (since_break gs)) end)) /\
  (forall p a b, pos_add p (rel_of_clusters (a ++ b)) = pos_add (pos_add p (rel_of_clusters a)) (rel_of_clusters b)) /\
  (forall p a b, pos_add p (rel_add a b) = pos_add (pos_add p a) b) /\
  (forall p q, at_or_before p q -> pos_add p (pos_sub q p) = q) /\
  (forall p d, at_or_before p (pos_add p d)) /\
  (forall r d, proper r -> proper (range_extend r d)).
Proof.
  assert (A1 : forall p gs, pos_add p (rel_of_clusters gs) =
     Pos (line p + N.of_nat (length (line_breaks gs)))
         (match line_breaks gs with [] => column p + N.of_nat (length gs) | _ => N.of_nat (length (since_break gs)) end)).
  { intros p gs. unfold rel_of_clusters, pos_add. rewrite rel_from. cbn [rline rcolumn].
    assert (X : existsb is_newline_cluster gs = match line_breaks gs with [] => false | _ => true end).
    { unfold line_breaks. induction gs as [|g gs IH]; [reflexivity|]. simpl. destruct (is_newline_cluster g); [reflexivity|exact IH]. }
    rewrite X. destruct (line_breaks gs); [f_equal; simpl; lia|]. f_equal; simpl; lia. }
  assert (A2 : forall p a b, pos_add p (rel_add a b) = pos_add (pos_add p a) b).
  { intros p [l1 c1] [l2 c2]. unfold pos_add, rel_add. cbn [rline rcolumn line column].
    destruct (N.eqb l2 0) eqn:E2, (N.eqb l1 0) eqn:E1; destruct (N.eqb (l1 + l2) 0) eqn:E; f_equal; lia. }
  split; [exact A1|]. split; [|split; [exact A2|split; [|split]]].
  - intros p a b. rewrite <- A2. f_equal. unfold rel_of_clusters.
    assert (G : forall l c, rel_of_clusters_from l c (a ++ b) = rel_of_clusters_from (rline (rel_of_clusters_from l c a)) (rcolumn (rel_of_clusters_from l c a)) b).
    { induction a as [|g a IH]; intros; [reflexivity|]. cbn [app rel_of_clusters_from]. destruct (is_newline_cluster g); apply IH. }
    rewrite G. generalize (rel_of_clusters_from 0 0 a). intros [l c]. cbn [rline rcolumn].
    rewrite !rel_from. unfold rel_add. cbn [rline rcolumn].
    assert (X : existsb is_newline_cluster b = negb (N.eqb (N.of_nat (length (line_breaks b))) 0)).
    { unfold line_breaks. clear. induction b as [|g b IH]; [reflexivity|]. simpl. destruct (is_newline_cluster g); [reflexivity|exact IH]. }
    rewrite X. rewrite N.add_0_l. destruct (N.eqb _ 0); f_equal; simpl; lia.
  - intros p q H. unfold pos_sub. rewrite (proj2 (leb_spec p q) H). cbn [negb]. unfold at_or_before, before in H. unfold pos_add. cbn [rline rcolumn].
    apply pos_eq; cbn [line column]; [destruct H as [H|<-]; lia|]. destruct (N.eqb (line q - line p) 0) eqn:E; [|reflexivity].
    destruct H as [H|<-]; lia.
  - intros p d. unfold at_or_before, before, pos_add. cbn [line column]. destruct (N.eqb (rline d) 0) eqn:E; [|left; lia].
    destruct (N.eq_dec (rcolumn d) 0) as [Z|Z]; [right; apply pos_eq; cbn; lia|left; lia].
  - intros r d H. unfold proper, range_extend in *. cbn [rstart rend]. eapply le_trans; [exact H|].
    unfold at_or_before, before, pos_add. cbn [line column]. destruct (N.eqb (rline d) 0) eqn:E; [|left; lia].
    destruct (N.eq_dec (rcolumn d) 0) as [Z|Z]; [right; apply pos_eq; cbn; lia|left; lia].
Qed.
(** Advancing a position by a text given as its grapheme clusters counts the line breaks and the clusters
    since the last one; advancing by one text and then by another is advancing by their concatenation;
    subtraction undoes it. *)
Theorem C34_advance :
  (forall p gs, pos_add p (rel_of_clusters gs) =
     Pos (line p + N.of_nat (length (line_breaks gs)))
         (match line_breaks gs with [] => column p + N.of_nat (length gs) | _ => N.of_nat (length (since_break gs)) end)) /\
  (forall p a b, pos_add p (rel_of_clusters (a ++ b)) = pos_add (pos_add p (rel_of_clusters a)) (rel_of_clusters b)) /\
  (forall p a b, pos_add p (rel_add a b) = pos_add (pos_add p a) b) /\
  (forall p q, at_or_before p q -> pos_add p (pos_sub q p) = q) /\
  (forall p d, at_or_before p (pos_add p d)) /\
  (forall r d, proper r -> proper (range_extend r d)).
Proof. exact C34_advance_proof. Qed.
Print Assumptions C34_advance.

Example C34_example :
  pos_add (Pos 3 7) (rel_of_clusters [[97]; [13; 10]; [98]; [101; 0x301]]) = Pos 4 2 /\
  proper (range_add (MkRange (Pos 1 2) (Pos 1 5)) (MkRange (Pos 0 9) (Pos 1 3))) /\
  range_add (MkRange (Pos 1 2) (Pos 1 5)) (MkRange (Pos 0 9) (Pos 1 3)) = MkRange (Pos 0 9) (Pos 1 5) /\
  proper_span (MkSpan 2 5) /\ span_intersect (MkSpan 2 5) (MkSpan 4 9) = Some (MkSpan 4 5).
Proof. repeat split. - left. left. reflexivity. - vm_compute. discriminate. Qed.
