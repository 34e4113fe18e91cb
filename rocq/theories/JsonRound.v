(** Decimal numbers are rounded to the nearest [f64]. *)
From Coq Require Import List NArith ZArith Bool Arith Lia.
From Verif Require Import Base JsonModel JsonSpec.
Import ListNotations.
Open Scope N_scope.

Lemma pow_pos n : 0 < 2 ^ n.
Proof. apply N.neq_0_lt_0, N.pow_nonzero. discriminate. Qed.

(** * Rounding to an integer *)
Definition ndist (x y : N) : N := (x - y) + (y - x).
Lemma ndist_mul c x y : ndist (c * x) (c * y) = c * ndist x y.
Proof. unfold ndist. rewrite N.mul_add_distr_l, !N.mul_sub_distr_l. reflexivity. Qed.

Lemma round_nearest num den k : 0 < den -> ndist num (round_half_even num den * den) <= ndist num (k * den).
Proof.
  intros HD. unfold round_half_even. pose proof (N.div_mod num den ltac:(lia)) as HM. pose proof (N.mod_lt num den ltac:(lia)) as HR.
  set (q := num / den) in *. set (r := num mod den) in *.
  assert (HQ : num = q * den + r) by lia. rewrite HQ. clearbody q r. clear HM HQ num.
  assert (HK : k <= q \/ q + 1 <= k) by lia.
  assert (HK1 : k <= q -> r <= ndist (q * den + r) (k * den)).
  { intros H. unfold ndist. assert (k * den <= q * den) by (apply N.mul_le_mono_r; exact H). lia. }
  assert (HK2 : q + 1 <= k -> den - r <= ndist (q * den + r) (k * den)).
  { intros H. unfold ndist. assert ((q + 1) * den <= k * den) by (apply N.mul_le_mono_r; exact H). lia. }
  assert (HD1 : ndist (q * den + r) (q * den) = r) by (unfold ndist; lia).
  assert (HD2 : ndist (q * den + r) ((q + 1) * den) = den - r) by (unfold ndist; lia).
  destruct (N.ltb_spec (2 * r) den); [rewrite HD1; lia|]. destruct (N.ltb_spec den (2 * r)); [rewrite HD2; lia|].
  destruct (N.even q); [rewrite HD1|rewrite HD2]; lia.
Qed.
Lemma round_tie num den k : 0 < den -> k <> round_half_even num den ->
  ndist num (k * den) = ndist num (round_half_even num den * den) -> N.even (round_half_even num den) = true.
Proof.
  intros HD. unfold round_half_even. pose proof (N.div_mod num den ltac:(lia)) as HM. pose proof (N.mod_lt num den ltac:(lia)) as HR.
  set (q := num / den) in *. set (r := num mod den) in *.
  assert (HQ : num = q * den + r) by lia. rewrite HQ. clearbody q r. clear HM HQ num.
  assert (HD1 : ndist (q * den + r) (q * den) = r) by (unfold ndist; lia).
  assert (HD2 : ndist (q * den + r) ((q + 1) * den) = den - r) by (unfold ndist; lia).
  assert (HK : k < q \/ k = q \/ k = q + 1 \/ q + 2 <= k) by lia.
  assert (HK1 : k < q -> r + den <= ndist (q * den + r) (k * den)).
  { intros H. unfold ndist. assert ((k + 1) * den <= q * den) by (apply N.mul_le_mono_r; lia). lia. }
  assert (HK2 : q + 2 <= k -> 2 * den - r <= ndist (q * den + r) (k * den)).
  { intros H. unfold ndist. assert ((q + 2) * den <= k * den) by (apply N.mul_le_mono_r; exact H). lia. }
  destruct (N.ltb_spec (2 * r) den).
  { rewrite HD1. intros HN HE. destruct HK as [HK|[->|[->|HK]]]; [apply HK1 in HK; lia|congruence|rewrite HD2 in HE; lia|apply HK2 in HK; lia]. }
  destruct (N.ltb_spec den (2 * r)).
  { rewrite HD2. intros HN HE. destruct HK as [HK|[->|[->|HK]]]; [apply HK1 in HK; lia|rewrite HD1 in HE; lia|congruence|apply HK2 in HK; lia]. }
  destruct (N.even q) eqn:EQ; [auto|]. intros _ _. rewrite N.even_add, EQ. reflexivity.
Qed.
Lemma round_lt num den k : 0 < den -> num < k * den -> round_half_even num den <= k.
Proof.
  intros HD HN. unfold round_half_even. assert (num / den < k) by (apply N.div_lt_upper_bound; lia).
  destruct (_ <? _); [lia|]. destruct (_ <? _); [lia|]. destruct (N.even _); lia.
Qed.
Lemma round_eq num den k : 0 < den -> 0 < k -> num < k * den -> round_half_even num den = k <->
  (2 * k - 1) * den < 2 * num \/ (2 * num = (2 * k - 1) * den /\ N.even k = true).
Proof.
  intros HD Hk HN. unfold round_half_even. pose proof (N.div_mod num den ltac:(lia)) as HM. pose proof (N.mod_lt num den ltac:(lia)) as HR.
  assert (HQK : num / den < k) by (apply N.div_lt_upper_bound; lia).
  set (q := num / den) in *. set (r := num mod den) in *.
  assert (HQ : num = q * den + r) by lia. rewrite HQ in *. clearbody q r. clear HM HQ num.
  assert (HC : q + 2 <= k \/ k = q + 1) by lia.
  assert (HX : q + 2 <= k -> 2 * (q * den + r) < (2 * k - 1) * den).
  { intros H. assert ((2 * q + 3) * den <= (2 * k - 1) * den) by (apply N.mul_le_mono_r; lia). lia. }
  destruct HC as [HC| ->].
  - specialize (HX HC). split; [|lia]. destruct (_ <? _); [lia|]. destruct (_ <? _); [lia|]. destruct (N.even _); lia.
  - replace (2 * (q + 1) - 1) with (2 * q + 1) by lia.
    destruct (N.ltb_spec (2 * r) den); [lia|]. destruct (N.ltb_spec den (2 * r)); [lia|].
    rewrite N.even_add. destruct (N.even q).
    + split; [intros HF; exfalso; lia|]. intros [HF|[_ HF]]; [exfalso; lia|discriminate].
    + split; [|reflexivity]. intros _. right. split; [lia|reflexivity].
Qed.

(** * The exponent *)
Section Round.
Context (a b : N) (Ha : 0 < a) (Hb : 0 < b).
Notation num e := (f64_scale_num a e).
Notation den e := (f64_scale_den b e).

Lemma den_pos e : 0 < den e.
Proof. unfold f64_scale_den. pose proof (pow_pos (Z.to_N e)). apply N.mul_pos_pos; auto. Qed.
Lemma num_pos e : 0 < num e.
Proof. unfold f64_scale_num. pose proof (pow_pos (Z.to_N (- e))). apply N.mul_pos_pos; auto. Qed.

Lemma scale_shift e f : (e <= f)%Z -> num e * den f = 2 ^ Z.to_N (f - e) * (num f * den e).
Proof.
  intros H. unfold f64_scale_num, f64_scale_den.
  assert (HP : 2 ^ Z.to_N (- e) * 2 ^ Z.to_N f = 2 ^ Z.to_N (f - e) * (2 ^ Z.to_N (- f) * 2 ^ Z.to_N e)).
  { rewrite <- !N.pow_add_r. f_equal. lia. }
  nia.
Qed.
Lemma below_mono e f k : (e <= f)%Z -> num e < k * den e -> num f < k * den f.
Proof.
  intros H HL. pose proof (scale_shift e f H) as HS. pose proof (pow_pos (Z.to_N (f - e))) as HP. pose proof (den_pos e). pose proof (den_pos f).
  apply (N.mul_lt_mono_pos_r (den e)); [assumption|].
  apply N.le_lt_trans with (num e * den f); [rewrite HS; generalize (num f * den e); intros; nia|].
  replace (k * den f * den e) with (k * den e * den f) by lia. apply N.mul_lt_mono_pos_r; assumption.
Qed.
Lemma double e : num e * den (e + 1) = 2 * (num (e + 1) * den e).
Proof. rewrite (scale_shift e (e + 1)) by lia. replace (Z.to_N (e + 1 - e)) with 1 by lia. reflexivity. Qed.

Lemma first_exponent : let e := (Z.of_N (N.log2 a) - Z.of_N (N.log2 b) - 53)%Z in 2 ^ 52 * den e <= num e < 2 ^ 54 * den e.
Proof.
  intros e. pose proof (N.log2_spec a Ha) as [Ha1 Ha2]. pose proof (N.log2_spec b Hb) as [Hb1 Hb2].
  set (la := N.log2 a) in *. set (lb := N.log2 b) in *. unfold f64_scale_num, f64_scale_den. subst e.
  set (e := (Z.of_N la - Z.of_N lb - 53)%Z). 
  assert (HP : 2 ^ 52 * 2 ^ N.succ lb * 2 ^ Z.to_N e = 2 ^ la * 2 ^ Z.to_N (- e)).
  { rewrite <- !N.pow_add_r. f_equal. lia. }
  assert (HQ : 2 ^ 54 * 2 ^ lb * 2 ^ Z.to_N e = 2 ^ N.succ la * 2 ^ Z.to_N (- e)).
  { rewrite <- !N.pow_add_r. f_equal. lia. }
  pose proof (pow_pos (Z.to_N e)) as P1. pose proof (pow_pos (Z.to_N (- e))) as P2.
  set (u := 2 ^ Z.to_N (- e)) in *. set (v := 2 ^ Z.to_N e) in *. set (A1 := 2 ^ N.succ la) in *. set (A0 := 2 ^ la) in *.
  set (B1 := 2 ^ N.succ lb) in *. set (B0 := 2 ^ lb) in *. clearbody u v A1 A0 B1 B0. split.
  - apply N.le_trans with (2 ^ 52 * B1 * v).
    + rewrite <- N.mul_assoc. apply N.mul_le_mono_l. apply N.mul_le_mono_r. lia.
    + rewrite HP. apply N.mul_le_mono_r. exact Ha1.
  - apply N.lt_le_trans with (A1 * u).
    + apply N.mul_lt_mono_pos_r; lia.
    + rewrite <- HQ. rewrite <- N.mul_assoc. apply N.mul_le_mono_l. apply N.mul_le_mono_r. exact Hb1.
Qed.

Lemma exponent_spec : let e := f64_exponent a b in
  (-1074 <= e)%Z /\ num e < 2 ^ 53 * den e /\ ((-1074 < e)%Z -> 2 ^ 52 * den e <= num e).
Proof.
  intros e. pose proof first_exponent as HF. cbn zeta in HF. subst e. unfold f64_exponent.
  set (e0 := (Z.of_N (N.log2 a) - Z.of_N (N.log2 b) - 53)%Z) in *. clearbody e0. destruct HF as [HF1 HF2].
  set (e1 := if num e0 <? 2 ^ 53 * den e0 then e0 else (e0 + 1)%Z).
  assert (HE : 2 ^ 52 * den e1 <= num e1 < 2 ^ 53 * den e1).
  { subst e1. destruct (N.ltb_spec (num e0) (2 ^ 53 * den e0)) as [HL|HL]; [auto|].
    pose proof (double e0) as HDb. pose proof (den_pos e0) as Hz. pose proof (den_pos (e0 + 1)).
    assert (HA : 2 ^ 53 * den e0 * den (e0 + 1) <= 2 * (num (e0 + 1) * den e0)) by (rewrite <- HDb; apply N.mul_le_mono_r; exact HL).
    assert (HB : 2 * (num (e0 + 1) * den e0) < 2 ^ 54 * den e0 * den (e0 + 1)) by (rewrite <- HDb; apply N.mul_lt_mono_pos_r; assumption).
    set (z := den e0) in *. set (y := den (e0 + 1)) in *. set (x := num (e0 + 1)) in *. clearbody z y x. clear HDb.
    change (2 ^ 54) with (2 * 2 ^ 53) in HB. change (2 ^ 53) with (2 * 2 ^ 52) in HA. revert HA HB. generalize (2 ^ 52) (2 ^ 53). intros q p HA HB. split.
    - apply (N.mul_le_mono_pos_r _ _ z Hz). nia.
    - apply (N.mul_lt_mono_pos_r z _ _ Hz). nia. }
  clearbody e1. split; [lia|]. split.
  - apply (below_mono e1); [lia|]. apply HE.
  - intros H. rewrite Z.max_r by lia. apply HE.
Qed.

(** * Nearest *)
(** 2^1074 * b times the distance between a/b and m * 2^e *)
Definition f64_dist (m : N) (e : Z) : N := ndist (a * 2 ^ 1074) (b * (m * 2 ^ Z.to_N (e + 1074))).

Lemma dist_scaled e : (-1074 <= e)%Z -> exists c, 0 < c /\ forall f m, (e <= f)%Z -> f64_dist m f = c * ndist (num e) (m * 2 ^ Z.to_N (f - e) * den e).
Proof.
  intros He. destruct (Z.leb_spec 0 e) as [H|H].
  - exists (2 ^ 1074). split; [apply pow_pos|]. intros f m Hf. unfold f64_dist. rewrite <- ndist_mul. f_equal.
    + unfold f64_scale_num. replace (Z.to_N (- e)) with 0 by lia. rewrite N.pow_0_r. generalize (2 ^ 1074). intros. lia.
    + unfold f64_scale_den. replace (2 ^ Z.to_N (f + 1074)) with (2 ^ 1074 * (2 ^ Z.to_N (f - e) * 2 ^ Z.to_N e)) by (rewrite <- !N.pow_add_r; f_equal; lia).
      generalize (2 ^ 1074) (2 ^ Z.to_N (f - e)) (2 ^ Z.to_N e). clear. intros. nia.
  - exists (2 ^ Z.to_N (e + 1074)). split; [apply pow_pos|]. intros f m Hf. unfold f64_dist. rewrite <- ndist_mul. f_equal.
    + unfold f64_scale_num. replace (2 ^ 1074) with (2 ^ Z.to_N (e + 1074) * 2 ^ Z.to_N (- e)) by (rewrite <- N.pow_add_r; f_equal; lia).
      generalize (2 ^ Z.to_N (e + 1074)) (2 ^ Z.to_N (- e)). clear. intros. nia.
    + unfold f64_scale_den. replace (Z.to_N e) with 0 by lia. rewrite N.pow_0_r.
      replace (2 ^ Z.to_N (f + 1074)) with (2 ^ Z.to_N (e + 1074) * 2 ^ Z.to_N (f - e)) by (rewrite <- !N.pow_add_r; f_equal; lia).
      generalize (2 ^ Z.to_N (f - e)) (2 ^ Z.to_N (e + 1074)). clear. intros. nia.
Qed.
End Round.

(** the numbers [m * 2^e] that an [f64] can be *)
Definition f64_finite (m : N) (e : Z) : Prop := m < 2 ^ 53 /\ (-1074 <= e <= 971)%Z.

Section Nearest.
Context (a b : N) (Ha : 0 < a) (Hb : 0 < b).
Let e := f64_exponent a b.
Let num := f64_scale_num a e.
Let den := f64_scale_den b e.
Let m := round_half_even num den.

Lemma m_bound : m <= 2 ^ 53.
Proof. apply round_lt; [apply den_pos; auto|]. apply (exponent_spec a b Ha Hb). Qed.

(** the rounded mantissa is at least as near as any other [m' * 2^e'] with m' < 2^53 *)
Lemma nearest_raw m' e' : m' < 2 ^ 53 -> (-1074 <= e')%Z ->
  f64_dist a b m e <= f64_dist a b m' e' /\
  (f64_dist a b m e = f64_dist a b m' e' -> m' * 2 ^ Z.to_N (e' + 1074) = m * 2 ^ Z.to_N (e + 1074) \/ N.even m = true).
Proof.
  intros Hm' He'. destruct (exponent_spec a b Ha Hb) as (He & HU & HL). fold e num den in He, HU, HL.
  destruct (dist_scaled a b Ha Hb e He) as (c & Hc & HD). fold num den in HD.
  assert (HDP : 0 < den) by (apply den_pos; auto).
  assert (HDm : f64_dist a b m e = c * ndist num (m * den)).
  { rewrite HD by lia. replace (e - e)%Z with 0%Z by lia. cbn [Z.to_N]. rewrite N.pow_0_r, N.mul_1_r. reflexivity. }
  rewrite HDm. destruct (Z.leb_spec e e') as [Hle|Hlt].
  - rewrite (HD e' m') by lia. set (k := m' * 2 ^ Z.to_N (e' - e)). split.
    + apply N.mul_le_mono_l. apply round_nearest. exact HDP.
    + intros HE. apply N.mul_cancel_l in HE; [|lia]. destruct (N.eq_dec k m) as [EK|EK].
      * left. rewrite <- EK. unfold k. rewrite <- N.mul_assoc, <- N.pow_add_r. do 2 f_equal. lia.
      * right. unfold m. apply (round_tie num den k); auto.
  - (* v' < 2^52 * 2^e <= V *)
    assert (H52 : 2 ^ 52 * den <= num) by (apply HL; lia).
    assert (HR : ndist num (m * den) <= num - 2 ^ 52 * den).
    { eapply N.le_trans; [apply (round_nearest num den (2 ^ 52) HDP)|]. unfold ndist. lia. }
    assert (HDist : c * (num - 2 ^ 52 * den) < f64_dist a b m' e').
    { pose proof (HD e (2 ^ 52) ltac:(lia)) as HX. replace (e - e)%Z with 0%Z in HX by lia. cbn [Z.to_N] in HX. rewrite N.pow_0_r, N.mul_1_r in HX.
      replace (ndist num (2 ^ 52 * den)) with (num - 2 ^ 52 * den) in HX by (unfold ndist; lia). rewrite <- HX.
      unfold f64_dist. assert (HV : m' * 2 ^ Z.to_N (e' + 1074) < 2 ^ 52 * 2 ^ Z.to_N (e + 1074)).
      { apply N.lt_le_trans with (2 ^ 53 * 2 ^ Z.to_N (e' + 1074)); [apply N.mul_lt_mono_pos_r; [apply pow_pos|exact Hm']|].
        rewrite <- !N.pow_add_r. apply N.pow_le_mono_r; lia. }
      assert (HV2 : b * (m' * 2 ^ Z.to_N (e' + 1074)) < b * (2 ^ 52 * 2 ^ Z.to_N (e + 1074))) by (apply N.mul_lt_mono_pos_l; auto).
      assert (HV3 : b * (2 ^ 52 * 2 ^ Z.to_N (e + 1074)) <= a * 2 ^ 1074).
      { destruct (N.le_gt_cases (b * (2 ^ 52 * 2 ^ Z.to_N (e + 1074))) (a * 2 ^ 1074)) as [HC|HC]; [exact HC|exfalso].
        (* the distance of 2^52 would then be on the other side *)
        clear HX. assert (HS : b * 2 ^ Z.to_N (e + 1074) * num = a * 2 ^ 1074 * den).
        { unfold num, den, f64_scale_num, f64_scale_den. 
          assert (HP : 2 ^ Z.to_N (e + 1074) * 2 ^ Z.to_N (- e) = 2 ^ 1074 * 2 ^ Z.to_N e) by (rewrite <- !N.pow_add_r; f_equal; lia).
          revert HP. generalize (2 ^ Z.to_N (e + 1074)) (2 ^ Z.to_N (- e)) (2 ^ 1074) (2 ^ Z.to_N e). clear. intros x y z t HP. transitivity (a * b * (x * y)); [ring|rewrite HP; ring]. }
        revert HS HC H52 HDP. pose proof (pow_pos (Z.to_N (e + 1074))) as HPP. revert HPP Hb. generalize num den (2 ^ 52) (a * 2 ^ 1074) (2 ^ Z.to_N (e + 1074)). clear.
        intros n d p A q Hq Hb HS HC HL HD.
        assert (b * q * (p * d) <= b * q * n) by (apply N.mul_le_mono_l; exact HL). 
        assert (A * d < b * (p * q) * d) by (apply N.mul_lt_mono_pos_r; auto). lia. }
      revert HV2 HV3. generalize (b * (m' * 2 ^ Z.to_N (e' + 1074))) (b * (2 ^ 52 * 2 ^ Z.to_N (e + 1074))) (a * 2 ^ 1074). clear. intros x y z H1 H2. unfold ndist. lia. }
    assert (HF : c * ndist num (m * den) < f64_dist a b m' e').
    { eapply N.le_lt_trans; [|exact HDist]. apply N.mul_le_mono_l. exact HR. }
    split; [apply N.lt_le_incl; exact HF|]. intros HE. rewrite HE in HF. destruct (N.lt_irrefl _ HF).
Qed.
End Nearest.

(** ** The theorem on rounding *)
Theorem f64_round_nearest neg a b : 0 < a -> 0 < b ->
  match f64_round neg a b with
  | Fin s m e =>
      s = neg /\ f64_finite m e /\
      (* no number of the format is nearer, and of two that are equally near the even one is taken *)
      (forall m' e', f64_finite m' e' -> f64_dist a b m e <= f64_dist a b m' e' /\
        (f64_dist a b m e = f64_dist a b m' e' -> m' * 2 ^ Z.to_N (e' + 1074) = m * 2 ^ Z.to_N (e + 1074) \/ N.even m = true)) /\
      (* a/b < (2^53 - 1/2) * 2^971 *)
      2 * a < (2 ^ 54 - 1) * 2 ^ 971 * b
  | Inf s => s = neg /\ (2 ^ 54 - 1) * 2 ^ 971 * b <= 2 * a
  end.
Proof.
  intros Ha Hb. unfold f64_round. rewrite (proj2 (N.eqb_neq a 0)) by lia. cbn zeta.
  destruct (exponent_spec a b Ha Hb) as (He & HU & HL). pose proof (m_bound a b Ha Hb) as HM. pose proof (nearest_raw a b Ha Hb) as HN.
  set (e := f64_exponent a b) in *. set (num := f64_scale_num a e) in *. set (den := f64_scale_den b e) in *. set (m := round_half_even num den) in *.
  assert (HDP : 0 < den) by (apply den_pos; auto).
  assert (HEq : forall k, 0 < k -> num < k * den -> m = k <-> (2 * k - 1) * den < 2 * num \/ (2 * num = (2 * k - 1) * den /\ N.even k = true)) by (intros; apply round_eq; auto).
  (* a/b < 2^53 * 2^e in terms of the bound *)
  assert (HB : (e = 971)%Z -> num = a /\ den = b * 2 ^ 971).
  { intros E. unfold num, den, f64_scale_num, f64_scale_den. rewrite E. change (Z.to_N (-971)) with 0. change (Z.to_N 971) with 971. rewrite N.pow_0_r. split; [apply N.mul_1_r|reflexivity]. }
  assert (HBig : (971 < e)%Z -> (2 ^ 54 - 1) * 2 ^ 971 * b <= 2 * a).
  { intros E. specialize (HL ltac:(lia)). unfold num, den, f64_scale_num, f64_scale_den in HL. replace (Z.to_N (- e)) with 0 in HL by lia. rewrite N.pow_0_r, N.mul_1_r in HL.
    replace (Z.to_N e) with (971 + 1 + (Z.to_N e - 972)) in HL by lia. rewrite !N.pow_add_r in HL. change (2 ^ 1) with 2 in HL.
    pose proof (pow_pos (Z.to_N e - 972)) as HP. revert HL HP. change (2 ^ 54) with (4 * 2 ^ 52). generalize (2 ^ 971) (2 ^ (Z.to_N e - 972)) (2 ^ 52). clear. intros p q r HL HP.
    assert (r * (b * (p * 2)) * 1 <= r * (b * (p * 2)) * q) by (apply N.mul_le_mono_l; lia). 
    rewrite N.mul_sub_distr_r, N.mul_sub_distr_r. lia. }
  assert (HSmall : (e < 971)%Z -> 2 * a < (2 ^ 54 - 1) * 2 ^ 971 * b).
  { intros E. assert (HU2 : f64_scale_num a 970 < 2 ^ 53 * f64_scale_den b 970) by (apply (below_mono a b Ha Hb e); [lia|exact HU]).
    unfold f64_scale_num, f64_scale_den in HU2. change (Z.to_N (-970)) with 0 in HU2. change (Z.to_N 970) with 970 in HU2. rewrite N.pow_0_r, N.mul_1_r in HU2.
    change (2 ^ 971) with (2 * 2 ^ 970). revert HU2. change (2 ^ 54) with (2 * 2 ^ 53). assert (1 < 2 ^ 53) by reflexivity. revert H. assert (HQ := pow_pos 970). revert HQ. generalize (2 ^ 53) (2 ^ 970). intros p q HQ HP HU2.
    rewrite !N.mul_sub_distr_r. nia. }
  destruct (N.eqb_spec m (2 ^ 53)) as [EM|NM].
  - assert (HX : (2 * 2 ^ 53 - 1) * den <= 2 * num) by (apply HEq in EM; [lia|reflexivity|exact HU]).
    assert (HSame : 2 ^ 52 * 2 ^ Z.to_N (e + 1 + 1074) = 2 ^ 53 * 2 ^ Z.to_N (e + 1074)) by (rewrite <- !N.pow_add_r; f_equal; lia).
    destruct (Z.ltb_spec 971 (e + 1)) as [HE|HE].
    + split; [reflexivity|]. destruct (Z.eq_dec e 971) as [E|E]; [|apply HBig; lia]. destruct (HB E) as [HB1 HB2]. rewrite HB1, HB2 in HX.
      change (2 ^ 54) with (2 * 2 ^ 53). revert HX. generalize (2 ^ 53) (2 ^ 971). clear. intros. lia.
    + split; [reflexivity|]. split; [split; [reflexivity|lia]|]. split.
      * intros m' e' [H1 H2]. replace (f64_dist a b (2 ^ 52) (e + 1)) with (f64_dist a b m e) by (unfold f64_dist; rewrite EM, HSame; reflexivity).
        rewrite HSame, <- EM. destruct (HN m' e' H1) as [HN1 HN2]; [lia|]. split; [exact HN1|]. intros HQ. apply HN2 in HQ as [HQ|HQ]; [left; exact HQ|right; reflexivity].
      * apply HSmall. lia.
  - destruct (Z.ltb_spec 971 e) as [HE|HE].
    + split; [reflexivity|]. apply HBig. exact HE.
    + split; [reflexivity|]. split; [split; [lia|lia]|]. split.
      * intros m' e' [H1 H2]. apply HN; lia.
      * destruct (Z.eq_dec e 971) as [E|E]; [|apply HSmall; lia]. destruct (HB E) as [HB1 HB2].
        destruct (N.lt_ge_cases (2 * a) ((2 ^ 54 - 1) * 2 ^ 971 * b)) as [HC|HC]; [exact HC|exfalso]. apply NM.
        apply HEq; [reflexivity|exact HU|]. rewrite HB1, HB2. change (2 ^ 54) with (2 * 2 ^ 53) in HC. change (N.even (2 ^ 53)) with true. revert HC. generalize (2 ^ 53) (2 ^ 971). clear. intros. lia.
Qed.
