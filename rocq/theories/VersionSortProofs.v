(** Version sort is a total preorder, and sorts numbers by value. *)
From Coq Require Import String Ascii List NArith Bool Arith Lia ZifyBool.
From Verif Require Import Base NumberSpec VersionSortModel.
Import ListNotations.
Open Scope N_scope.
Open Scope list_scope.

(** * Lexicographic orders *)
Section Lex.
Context {A : Type} (cmp : A -> A -> comparison).
Fixpoint lex (a b : list A) : comparison :=
  match a, b with
  | [], [] => Eq
  | [], _ :: _ => Lt
  | _ :: _, [] => Gt
  | x :: a, y :: b => match cmp x y with Eq => lex a b | o => o end
  end.
Definition total_order (c : A -> A -> comparison) : Prop :=
  (forall x y, c x y = Eq <-> x = y) /\ (forall x y, c y x = CompOpp (c x y)) /\
  (forall x y z, c x y = Lt -> c y z = Lt -> c x z = Lt).
End Lex.
Lemma lex_total {A} (cmp : A -> A -> comparison) : total_order cmp -> total_order (lex cmp).
Proof.
  intros (HE & HS & HT). split; [|split].
  - induction x as [|x a IH]; intros [|y b]; simpl; try (split; congruence).
    destruct (cmp x y) eqn:E.
    + apply HE in E. subst. rewrite IH. split; congruence.
    + split; [discriminate|]. intros K. inversion K; subst. assert (cmp y y = Eq) by (apply HE; auto). congruence.
    + split; [discriminate|]. intros K. inversion K; subst. assert (cmp y y = Eq) by (apply HE; auto). congruence.
  - induction x as [|x a IH]; intros [|y b]; simpl; auto. rewrite (HS x y). destruct (cmp x y); simpl; auto.
  - induction x as [|x a IH]; intros [|y b] [|z c] H1 H2; simpl in *; try discriminate; auto.
    destruct (cmp x y) eqn:E1; try discriminate.
    + apply HE in E1. subst. destruct (cmp y z); try discriminate; auto. eapply IH; eauto.
    + destruct (cmp y z) eqn:E2; try discriminate.
      * apply HE in E2. subst. rewrite E1. reflexivity.
      * rewrite (HT _ _ _ E1 E2). reflexivity.
Qed.
Lemma N_total : total_order N.compare.
Proof.
  split; [|split].
  - apply N.compare_eq_iff.
  - intros. apply N.compare_antisym.
  - intros x y z. rewrite !N.compare_lt_iff. lia.
Qed.
Lemma str_cmp_lex a b : str_cmp a b = lex N.compare a b.
Proof. revert b; induction a as [|x a IH]; intros [|y b]; simpl; auto; rewrite ?IH; reflexivity. Qed.

(** * Keys of chunks *)
Definition key (c : chunk) : str :=
  match c with
  | VersionOp op => 0 :: op
  | Underscore | Hyphen => [1]
  | Str s => 2 :: s
  | Number v _ _ => [2; 48; v]
  end.
Definition zeros_of (c : chunk) : N := match c with Number _ z _ => z | _ => 0 end.
(** The shape of the chunks the iterator yields. *)
Definition wf_chunk (c : chunk) : Prop :=
  match c with
  | Str s => exists x r, s = x :: r /\ is_ascii_digit x = false
  | Number v z src => exists x r, src = x :: r /\ is_ascii_digit x = true
  | _ => True
  end.

Lemma digit_range x : is_ascii_digit x = true <-> 48 <= x <= 57.
Proof. unfold is_ascii_digit, in_range. lia. Qed.
Lemma lex_same x a b : lex N.compare (x :: a) (x :: b) = lex N.compare a b.
Proof. cbn [lex]. rewrite N.compare_refl. reflexivity. Qed.
Lemma cmp_chunk_key z a b : wf_chunk a -> wf_chunk b ->
  cmp_chunk z a b =
  match lex N.compare (key a) (key b) with
  | Eq => inr (match z with ZEqual => match zeros_of a ?= zeros_of b with Eq => ZEqual | Gt => ZLeft | Lt => ZRight end | _ => z end)
  | o => inl o
  end.
Proof.
  intros HA HB. destruct a as [| |opa|sa|va za srca], b as [| |opb|sb|vb zb srcb]; cbn [cmp_chunk key zeros_of];
    rewrite ?lex_same, ?str_cmp_lex; try (destruct z; reflexivity).
  - destruct HA as (x & r & -> & HX), HB as (y & r' & -> & HY). apply digit_range in HY. assert (HX' : ~ (48 <= x <= 57)) by (rewrite <- digit_range; congruence).
    cbn [lex]. destruct (N.compare_spec x y), (N.compare_spec x 48); try lia; reflexivity.
  - destruct HA as (y & r' & -> & HY), HB as (x & r & -> & HX). apply digit_range in HY. assert (HX' : ~ (48 <= x <= 57)) by (rewrite <- digit_range; congruence).
    cbn [lex]. rewrite (N.compare_antisym x y). destruct (N.compare_spec x y), (N.compare_spec 48 x); try lia; reflexivity.
  - cbn [lex]. destruct (va ?= vb); try reflexivity. destruct (N.eqb_spec za zb) as [->|Hz].
    + rewrite N.compare_refl. destruct z; reflexivity.
    + destruct z; try reflexivity. destruct (N.compare_spec za zb); try lia.
      * replace (zb <? za) with false by lia. replace (za <? zb) with true by lia. reflexivity.
      * replace (zb <? za) with true by lia. reflexivity.
Qed.

Definition keys (l : list chunk) : list str := map key l.
Definition zeros (l : list chunk) : str := map zeros_of l.
Definition key_cmp := lex (lex N.compare).
Lemma key_cmp_total : total_order key_cmp.
Proof. apply lex_total, lex_total, N_total. Qed.

Lemma cmp_chunks_keys : forall a b z, Forall wf_chunk a -> Forall wf_chunk b ->
  cmp_chunks z a b =
  match key_cmp (keys a) (keys b) with
  | Eq => match z with ZLeft => Lt | ZRight => Gt | ZEqual => CompOpp (lex N.compare (zeros a) (zeros b)) end
  | o => o
  end.
Proof.
  induction a as [|x a IH]; intros [|y b] z HA HB; cbn [cmp_chunks keys zeros map key_cmp lex]; try reflexivity.
  - inversion HA; inversion HB; subst. rewrite cmp_chunk_key by auto. destruct (lex N.compare (key x) (key y)) eqn:E; try reflexivity.
    rewrite IH by auto. unfold keys. fold key_cmp.
    destruct (key_cmp (map key a) (map key b)) eqn:E2; try reflexivity.
    destruct z; try reflexivity. unfold zeros. destruct (zeros_of x ?= zeros_of y); reflexivity.
Qed.

(** * The iterator *)
Lemma take_digits_cons c s : is_ascii_digit c = true -> take_while is_ascii_digit (c :: s) = c :: take_while is_ascii_digit s.
Proof. intros H. cbn [take_while]. rewrite H. reflexivity. Qed.
Lemma next_wf s c r : next_chunk s = (Some c, r) -> wf_chunk c.
Proof.
  destruct s as [|x s]; cbn [next_chunk]; [discriminate|]. destruct (N.eqb x 95); [intros K; inversion K; exact I|]. destruct (N.eqb x 45); [intros K; inversion K; exact I|].
  destruct (is_ascii_digit x) eqn:E.
  - unfold parse_numeric_chunk. rewrite take_digits_cons by auto. destruct (parse_usize _); simpl; [|discriminate]. intros K. inversion K; subst. simpl. eauto.
  - destruct (check_version_operator_at (x :: s)); [intros K; inversion K; exact I|]. destruct (str_chunk_tail s) as [a r']. intros K; inversion K; subst. simpl. eauto.
Qed.
Lemma chunks_wf : forall fuel s, Forall wf_chunk (chunks_fuel fuel s).
Proof.
  induction fuel as [|f IH]; intros s; cbn [chunks_fuel]; [constructor|]. destruct (next_chunk s) as [[c|] r] eqn:E; [|constructor]. constructor; auto. eapply next_wf; eauto.
Qed.
Lemma version_sort_keys a b : version_sort a b =
  match key_cmp (keys (chunks a)) (keys (chunks b)) with Eq => CompOpp (lex N.compare (zeros (chunks a)) (zeros (chunks b))) | o => o end.
Proof. unfold version_sort. rewrite cmp_chunks_keys by apply chunks_wf. reflexivity. Qed.

Lemma version_sort_refl a : version_sort a a = Eq.
Proof.
  rewrite version_sort_keys. destruct key_cmp_total as (HE & _). destruct (lex_total _ N_total) as (HE' & _).
  rewrite (proj2 (HE _ _) eq_refl), (proj2 (HE' _ _) eq_refl). reflexivity.
Qed.
Lemma version_sort_antisym a b : version_sort b a = CompOpp (version_sort a b).
Proof.
  rewrite !version_sort_keys. destruct key_cmp_total as (_ & HS & _). destruct (lex_total _ N_total) as (_ & HS' & _).
  rewrite (HS (keys (chunks a))), (HS' (zeros (chunks a))). destruct (key_cmp _ _); simpl; auto.
Qed.
Lemma version_sort_trans a b c : version_sort a b <> Gt -> version_sort b c <> Gt -> version_sort a c <> Gt.
Proof.
  rewrite !version_sort_keys. destruct key_cmp_total as (HE & HS & HT). destruct (lex_total _ N_total) as (HE' & HS' & HT').
  generalize (keys (chunks a)) (keys (chunks b)) (keys (chunks c)) (zeros (chunks a)) (zeros (chunks b)) (zeros (chunks c)). intros k1 k2 k3 z1 z2 z3 H1 H2.
  destruct (key_cmp k1 k2) eqn:E1; [apply HE in E1; subst k2| |congruence].
  - destruct (key_cmp k1 k3) eqn:E2; [|discriminate|congruence].
    rewrite <- HS' in *. destruct (lex N.compare z2 z1) eqn:F1; [apply HE' in F1; subst z2; auto| |congruence].
    destruct (lex N.compare z3 z2) eqn:F2; [apply HE' in F2; subst z3; rewrite F1; discriminate| |congruence].
    rewrite (HT' _ _ _ F2 F1). discriminate.
  - destruct (key_cmp k2 k3) eqn:E2; [apply HE in E2; subst k3; rewrite E1; discriminate| |congruence]. rewrite (HT _ _ _ E1 E2). discriminate.
Qed.
(** Texts that compare equal are interchangeable. *)
Lemma version_sort_eq_cong a b c : version_sort a b = Eq -> version_sort a c = version_sort b c.
Proof.
  rewrite !version_sort_keys. destruct key_cmp_total as (HE & _). destruct (lex_total _ N_total) as (HE' & _).
  destruct (key_cmp (keys (chunks a)) (keys (chunks b))) eqn:E1; try discriminate. apply HE in E1. rewrite E1.
  destruct (lex N.compare (zeros (chunks a)) (zeros (chunks b))) eqn:E2; try discriminate. apply HE' in E2. rewrite E2. reflexivity.
Qed.
