(** Proofs about dates and times. *)
From Coq Require Import String Ascii List NArith ZArith Bool Arith Lia ZifyBool.
From Verif Require Import Base TextModel LexerModel LexerSpec LexerProofs TomlTextModel DateTimeModel NumberSpec DateTimeSpec.
Import ListNotations.
Open Scope N_scope.
Open Scope list_scope.
Ltac Zify.zify_post_hook ::= Z.to_euclidean_division_equations.

Lemma bind_ok {A B} (r : dt_result A) (f : A -> dt_result B) b : bind r f = DTOk b <-> exists a, r = DTOk a /\ f a = DTOk b.
Proof. destruct r; simpl; split; [eauto|intros (a' & E & H); inversion E; subst; auto|discriminate|intros (a' & E & _); discriminate]. Qed.

(** * Digits *)
Definition digit_char (c : char) : Prop := 48 <= c <= 57.
Lemma is_digit_iff c : is_ascii_digit c = true <-> 48 <= c <= 57.
Proof. unfold is_ascii_digit, in_range. lia. Qed.
Lemma digit_of_digit c : 48 <= c <= 57 -> digit_of c = c - 48.
Proof. intros H. unfold digit_of. replace (c <=? 57) with true by lia. reflexivity. Qed.

Lemma digit_count_digits w : Forall (fun c => 48 <= c <= 57) w -> digit_count w = N.of_nat (length w).
Proof. induction 1 as [|c w Hc Hw IH]; cbn [digit_count length]; auto. replace (N.eqb c 95) with false by lia. rewrite IH. lia. Qed.
Lemma positional_cons c w : 48 <= c <= 57 -> Forall (fun c => 48 <= c <= 57) w -> positional 10 (c :: w) = (c - 48) * 10 ^ N.of_nat (length w) + positional 10 w.
Proof. intros H1 H2. cbn [positional]. replace (N.eqb c 95) with false by lia. rewrite digit_of_digit, digit_count_digits; auto. Qed.
Lemma positional_bound10 w : Forall (fun c => 48 <= c <= 57) w -> positional 10 w < 10 ^ N.of_nat (length w).
Proof.
  induction 1 as [|c w Hc Hw IH]; [reflexivity|]. rewrite positional_cons by auto. cbn [length].
  rewrite Nat2N.inj_succ, N.pow_succ_r'. nia.
Qed.

Lemma digit_ok s v r : digit s = DTOk (v, r) <-> exists c, s = c :: r /\ 48 <= c <= 57 /\ v = c - 48.
Proof.
  unfold digit. destruct s as [|c s]; [split; [discriminate|intros (c & E & _); discriminate]|].
  destruct (is_ascii_digit c) eqn:E.
  - apply is_digit_iff in E. split; [intros H; inversion H; subst; eauto|intros (c' & H & H1 & ->); inversion H; subst; reflexivity].
  - split; [discriminate|]. intros (c' & H & H1 & _). inversion H; subst. apply is_digit_iff in H1. congruence.
Qed.

Lemma two_digits_ok s v r : two_digits s = DTOk (v, r) <-> exists w, s = w ++ r /\ digits_are 2 v w.
Proof.
  unfold two_digits. rewrite bind_ok. split.
  - intros ((d1 & s1) & H1 & H). rewrite bind_ok in H. destruct H as ((d2 & s2) & H2 & H). inversion H; subst.
    apply digit_ok in H1 as (c1 & -> & Hc1 & ->). apply digit_ok in H2 as (c2 & -> & Hc2 & ->).
    exists [c1; c2]. split; auto. split; auto. split; auto. rewrite !positional_cons by auto. cbn. lia.
  - intros (w & -> & HL & HF & ->). destruct w as [|c1 [|c2 [|]]]; try discriminate. inversion HF as [|? ? H1 HF']; subst. inversion HF' as [|? ? H2 _]; subst. cbn [app].
    exists (c1 - 48, c2 :: r). split; [apply digit_ok; eauto|]. cbv beta iota; rewrite bind_ok. exists (c2 - 48, r). split; [apply digit_ok; eauto|].
    rewrite !positional_cons by auto. cbn [length positional]. do 2 f_equal. change (10 ^ N.of_nat 1) with 10. change (10 ^ N.of_nat 0) with 1. lia.
Qed.
Lemma expect_ok c e s r : expect c e s = DTOk r <-> s = c :: r.
Proof.
  unfold expect. destruct s as [|x s]; [split; discriminate|]. destruct (N.eqb_spec x c) as [->|Hne].
  - split; intros H; inversion H; reflexivity.
  - split; [discriminate|]. intros H. inversion H; subst. contradiction.
Qed.

(** * Dates *)
Lemma leap_iff y : is_leap_year y = true <-> leap y.
Proof. unfold is_leap_year, leap. lia. Qed.
Lemma max_days_iff y m d : 1 <= m <= 12 -> ((exists n, days_in y m n /\ d <= n) <-> d <= max_days_in_month y m).
Proof.
  intros Hm. split.
  - intros (n & H & Hd). unfold max_days_in_month. inversion H as [m' HI|m' HI|HL|HL]; subst.
    + cbn [In] in HI. destruct (N.eqb_spec m 2); [lia|]. replace (N.eqb m 4 || N.eqb m 6 || N.eqb m 9 || N.eqb m 11) with false by lia. exact Hd.
    + cbn [In] in HI. destruct (N.eqb_spec m 2); [lia|]. replace (N.eqb m 4 || N.eqb m 6 || N.eqb m 9 || N.eqb m 11) with true by lia. exact Hd.
    + apply leap_iff in HL. rewrite HL. exact Hd.
    + simpl. destruct (is_leap_year y) eqn:E; [apply leap_iff in E; contradiction|exact Hd].
  - intros Hd. unfold max_days_in_month in Hd. destruct (N.eqb_spec m 2) as [->|Hne].
    + destruct (is_leap_year y) eqn:E.
      * exists 29. split; auto. apply DI29. apply leap_iff; auto.
      * exists 28. split; auto. apply DI28. intros K. apply leap_iff in K. congruence.
    + destruct (N.eqb m 4 || N.eqb m 6 || N.eqb m 9 || N.eqb m 11) eqn:E.
      * exists 30. split; auto. apply DI30. cbn [In]. lia.
      * exists 31. split; auto. apply DI31. cbn [In]. lia.
Qed.
Lemma days_in_month y m n : days_in y m n -> 1 <= m <= 12.
Proof. intros H. inversion H; subst; cbn [In] in *; lia. Qed.

Lemma four_digits c1 c2 c3 c4 : 48 <= c1 <= 57 -> 48 <= c2 <= 57 -> 48 <= c3 <= 57 -> 48 <= c4 <= 57 ->
  positional 10 [c1; c2; c3; c4] = (c1 - 48) * 1000 + (c2 - 48) * 100 + (c3 - 48) * 10 + (c4 - 48).
Proof. intros. rewrite !positional_cons by auto. cbn. lia. Qed.

Lemma parse_date_ok s d r : parse_date s = DTOk (d, r) <-> exists w, s = w ++ r /\ toml_local_date w d.
Proof.
  unfold parse_date. split.
  - intros H. rewrite bind_ok in H. destruct H as ((y1 & s1) & H1 & H). rewrite bind_ok in H. destruct H as ((y2 & s2) & H2 & H).
    rewrite bind_ok in H. destruct H as ((y3 & s3) & H3 & H). rewrite bind_ok in H. destruct H as ((y4 & s4) & H4 & H).
    rewrite bind_ok in H. destruct H as (s5 & H5 & H). rewrite bind_ok in H. destruct H as ((m & s6) & H6 & H).
    rewrite bind_ok in H. destruct H as (s7 & H7 & H). rewrite bind_ok in H. destruct H as ((dd & s8) & H8 & H).
    apply digit_ok in H1 as (c1 & -> & K1 & ->). apply digit_ok in H2 as (c2 & -> & K2 & ->). apply digit_ok in H3 as (c3 & -> & K3 & ->).
    apply digit_ok in H4 as (c4 & -> & K4 & ->). apply expect_ok in H5 as ->. apply two_digits_ok in H6 as (wm & -> & Hm).
    apply expect_ok in H7 as ->. apply two_digits_ok in H8 as (wd & -> & Hd). cbv zeta in H.
    rewrite <- four_digits in H by auto. set (y := positional 10 [c1; c2; c3; c4]) in *.
    destruct ((m <? 1) || (12 <? m)) eqn:E1; [discriminate|]. destruct ((dd <? 1) || (max_days_in_month y m <? dd)) eqn:E2; [discriminate|].
    inversion H; subst. exists ([c1; c2; c3; c4] ++ [45] ++ wm ++ [45] ++ wd). split; [rewrite <- !app_assoc; reflexivity|]. split.
    + exists [c1; c2; c3; c4], wm, wd. repeat split; auto; try apply Hm; try apply Hd.
    + unfold valid_date. cbn [year month day]. split; [|split; [lia|apply max_days_iff; lia]].
      assert (y < 10 ^ N.of_nat 4) by (apply (positional_bound10 [c1; c2; c3; c4]); auto). change (10 ^ N.of_nat 4) with 10000 in *. lia.
  - intros (w & -> & (wy & wm & wd & -> & (Ly & Fy & Ey) & Hm & Hd) & (Vy & Vd & n & Vn & Vdn)).
    destruct wy as [|c1 [|c2 [|c3 [|c4 [|]]]]]; try discriminate.
    inversion Fy as [|? ? K1 F1]; subst. inversion F1 as [|? ? K2 F2]; subst. inversion F2 as [|? ? K3 F3]; subst. inversion F3 as [|? ? K4 _]; subst.
    rewrite <- !app_assoc. cbn [app].
    cbv beta iota; rewrite bind_ok. eexists; split; [apply digit_ok; eauto|]. cbv beta iota.
    cbv beta iota; rewrite bind_ok. eexists; split; [apply digit_ok; eauto|]. cbv beta iota.
    cbv beta iota; rewrite bind_ok. eexists; split; [apply digit_ok; eauto|]. cbv beta iota.
    cbv beta iota; rewrite bind_ok. eexists; split; [apply digit_ok; eauto|]. cbv beta iota.
    cbv beta iota; rewrite bind_ok. eexists; split; [apply expect_ok; reflexivity|].
    cbv beta iota; rewrite bind_ok. eexists; split; [apply two_digits_ok; eauto|]. cbv beta iota.
    cbv beta iota; rewrite bind_ok. eexists; split; [apply expect_ok; reflexivity|].
    cbv beta iota; rewrite bind_ok. eexists; split; [apply two_digits_ok; eauto|]. cbv beta iota zeta.
    rewrite <- four_digits, <- Ey by auto. pose proof (days_in_month _ _ _ Vn) as HM.
    replace ((month d <? 1) || (12 <? month d)) with false by lia.
    assert (HD : day d <= max_days_in_month (year d) (month d)) by (apply max_days_iff; eauto).
    replace ((day d <? 1) || (max_days_in_month (year d) (month d) <? day d)) with false by lia.
    destruct d; reflexivity.
Qed.

(** * Times *)
Definition fraction_stop (r : str) : Prop := match r with [] => True | c :: _ => is_ascii_digit c = false end.
Lemma fraction_ok : forall s i n l r, fraction i s = (n, l, r) ->
  exists w, s = w ++ r /\ length w = l /\ Forall (fun c => 48 <= c <= 57) w /\ fraction_stop r.
Proof.
  induction s as [|c s IH]; intros i n l r H; cbn [fraction] in H.
  - inversion H; subst. exists []. repeat split; auto.
  - destruct (is_ascii_digit c) eqn:E.
    + destruct (fraction (i + 1) s) as [[n' l'] r'] eqn:EF. inversion H; subst. destruct (IH _ _ _ _ EF) as (w & -> & <- & HF & HS).
      exists (c :: w). repeat split; auto. constructor; auto. apply is_digit_iff; auto.
    + inversion H; subst. exists []. repeat split; auto.
Qed.
Lemma fraction_app : forall w i r, Forall (fun c => 48 <= c <= 57) w -> fraction_stop r ->
  fraction i (w ++ r) = (fst (fst (fraction i w)), length w, r).
Proof.
  induction w as [|c w IH]; intros i r HF HS.
  - cbn [app]. destruct r as [|y r]; [reflexivity|]. cbn [fraction]. simpl in HS. rewrite HS. reflexivity.
  - inversion HF as [|? ? H1 H2]; subst. cbn [app fraction]. apply is_digit_iff in H1. rewrite H1.
    rewrite (IH (i + 1) r H2 HS). destruct (fraction (i + 1) w) as [[n l] r']. reflexivity.
Qed.
(** The sum is the fraction in units of 10^-9, truncated. *)
Lemma fraction_value : forall w i, Forall (fun c => 48 <= c <= 57) w ->
  fst (fst (fraction i w)) = positional 10 w * 10 ^ 9 / 10 ^ (i + N.of_nat (length w)).
Proof.
  induction w as [|c w IH]; intros i HF; cbn [fraction].
  - cbn. destruct i; reflexivity.
  - inversion HF as [|? ? H1 H2]; subst. rewrite (proj2 (is_digit_iff c) H1). specialize (IH (i + 1) H2).
    destruct (fraction (i + 1) w) as [[n l] r] eqn:EF. cbn [fst] in *. rewrite positional_cons by auto. cbn [length].
    replace (i + N.of_nat (S (length w))) with (i + 1 + N.of_nat (length w)) by lia. rewrite IH.
    set (p := positional 10 w) in *. set (L := N.of_nat (length w)). assert (HB : p < 10 ^ L) by (apply positional_bound10; auto).
    set (x := c - 48). destruct (N.ltb_spec i 9) as [Hi|Hi].
    + replace ((x * 10 ^ L + p) * 10 ^ 9) with (p * 10 ^ 9 + (10 ^ (8 - i) * x) * 10 ^ (i + 1 + L)).
      * rewrite N.div_add by (apply N.pow_nonzero; lia). lia.
      * assert (E : 10 ^ (8 - i) * 10 ^ (i + 1 + L) = 10 ^ 9 * 10 ^ L) by (rewrite <- !N.pow_add_r; f_equal; lia).
        rewrite N.mul_add_distr_r. replace (10 ^ (8 - i) * x * 10 ^ (i + 1 + L)) with (x * (10 ^ (8 - i) * 10 ^ (i + 1 + L))) by lia. rewrite E. lia.
    + assert (HX : (x * 10 ^ L + p) * 10 ^ 9 < 10 ^ (i + 1 + L)).
      { apply N.lt_le_trans with (10 ^ (L + 1) * 10 ^ 9).
        - apply N.mul_lt_mono_pos_r; [reflexivity|]. rewrite N.pow_add_r. change (10 ^ 1) with 10. assert (x <= 9) by (unfold x; lia). nia.
        - rewrite <- N.pow_add_r. apply N.pow_le_mono_r; lia. }
      rewrite !N.div_small; auto. nia.
Qed.

Definition time_stop (r : str) : Prop := match r with [] => True | c :: _ => c <> 58 /\ c <> 46 /\ is_ascii_digit c = false end.

Lemma parse_seconds_ok s sec n r : parse_seconds s = DTOk (sec, n, r) -> exists b w, s = w ++ r /\ seconds_text b w sec n.
Proof.
  unfold parse_seconds. intros H. destruct s as [|c s].
  - inversion H; subst. exists false, []. split; auto. constructor.
  - destruct (N.eqb_spec c 58) as [->|Hne]; [|inversion H; subst; exists false, []; split; auto; constructor].
    rewrite bind_ok in H. destruct H as ((v & s') & H1 & H). apply two_digits_ok in H1 as (ws & -> & Hw).
    assert (HW : DTOk (v, 0, s') = DTOk (sec, n, r) -> exists b w, 58 :: ws ++ s' = w ++ r /\ seconds_text b w sec n).
    { intros K. inversion K; subst. exists true, ([58] ++ ws). split; auto. constructor; auto. }
    destruct s' as [|p whole]; [auto|]. destruct (N.eqb_spec p 46) as [->|_]; [|auto].
    destruct (fraction 0 whole) as [[n' l] r'] eqn:EF. destruct l as [|l]; [discriminate|]. inversion H; subst.
    destruct (fraction_ok _ _ _ _ _ EF) as (wf & -> & HL & HF & HS).
    exists true, ([58] ++ ws ++ [46] ++ wf). split; [cbn [app]; rewrite <- app_assoc; reflexivity|].
    pose proof (fraction_value wf 0 HF) as HV. pose proof (fraction_app wf 0 r HF HS) as HA. rewrite EF in HA. inversion HA as [[E1 E2]].
    rewrite HV. apply ST_fraction; auto; [intros ->; discriminate|repeat split; auto].
Qed.
Lemma parse_seconds_complete b w sec n r : seconds_text b w sec n -> time_stop r -> parse_seconds (w ++ r) = DTOk (sec, n, r).
Proof.
  intros H HR. destruct H as [|ws s Hs|ws s wf f Hs Hn Hf].
  - cbn [app]. destruct r as [|c r]; [reflexivity|]. destruct HR as (H1 & _). unfold parse_seconds. replace (N.eqb c 58) with false by lia. reflexivity.
  - cbn [app]. unfold parse_seconds. rewrite N.eqb_refl. cbv beta iota; rewrite bind_ok. exists (s, r). split; [apply two_digits_ok; eauto|].
    destruct r as [|c r]; [reflexivity|]. destruct HR as (_ & H1 & _). replace (N.eqb c 46) with false by lia. reflexivity.
  - cbn [app]. unfold parse_seconds. rewrite N.eqb_refl. cbv beta iota; rewrite bind_ok. exists (s, 46 :: wf ++ r). split; [apply two_digits_ok; exists ws; split; auto; rewrite <- app_assoc; reflexivity|].
    rewrite N.eqb_refl. destruct Hf as (_ & HF & ->).
    assert (HS : fraction_stop r) by (destruct r as [|c r]; [exact I|apply HR]).
    rewrite (fraction_app wf 0 r HF HS). destruct wf as [|x wf]; [contradiction|]. cbn [length].
    rewrite (fraction_value (x :: wf) 0 HF). reflexivity.
Qed.

Lemma parse_time_ok s t r : parse_time s = DTOk (t, r) -> exists b w, s = w ++ r /\ toml_local_time b w t.
Proof.
  unfold parse_time. intros H. rewrite bind_ok in H. destruct H as ((h & s1) & H1 & H). rewrite bind_ok in H. destruct H as (s2 & H2 & H).
  rewrite bind_ok in H. destruct H as ((m & s3) & H3 & H). rewrite bind_ok in H. destruct H as (((sec & n) & s4) & H4 & H).
  apply two_digits_ok in H1 as (wh & -> & Hh). apply expect_ok in H2 as ->. apply two_digits_ok in H3 as (wm & -> & Hm).
  apply parse_seconds_ok in H4 as (b & ws & -> & Hs).
  destruct (24 <=? h) eqn:E1; [discriminate|]. destruct (60 <=? m) eqn:E2; [discriminate|]. destruct (60 <? sec) eqn:E3; [discriminate|].
  destruct (999999999 <? n) eqn:E4; [discriminate|]. inversion H; subst. exists b, (wh ++ [58] ++ wm ++ ws). split.
  - rewrite <- !app_assoc. cbn [app]. rewrite <- ?app_assoc. reflexivity.
  - split; [exists wh, wm, ws; auto|]. unfold valid_time. cbn [hour minute second nanosecond]. lia.
Qed.
Lemma parse_time_complete b w t r : toml_local_time b w t -> time_stop r -> parse_time (w ++ r) = DTOk (t, r).
Proof.
  intros [(wh & wm & ws & -> & Hh & Hm & Hs) (V1 & V2 & V3 & V4)] HR. unfold parse_time. rewrite <- !app_assoc. cbn [app].
  cbv beta iota; rewrite bind_ok. eexists; split; [apply two_digits_ok; eauto|]. cbv beta iota.
  cbv beta iota; rewrite bind_ok. eexists; split; [apply expect_ok; reflexivity|].
  cbv beta iota; rewrite bind_ok. eexists; split; [apply two_digits_ok; exists wm; split; eauto; rewrite <- app_assoc; reflexivity|]. cbv beta iota.
  rewrite (parse_seconds_complete _ _ _ _ _ Hs HR). cbn [bind].
  replace (24 <=? hour t) with false by lia. replace (60 <=? minute t) with false by lia. replace (60 <? second t) with false by lia.
  replace (999999999 <? nanosecond t) with false by lia. destruct t; reflexivity.
Qed.

(** * Offsets *)
Lemma two_bound v w : digits_are 2 v w -> v < 100.
Proof. intros (HL & HF & ->). pose proof (positional_bound10 w HF) as H. rewrite HL in H. exact H. Qed.
Lemma parse_offset_ok s o r : parse_offset s = DTOk (Some o, r) <-> exists w, s = w ++ r /\ offset_text w o.
Proof.
  split.
  - intros H. destruct s as [|c s]; [discriminate|]. cbn [parse_offset] in H.
    destruct (N.eqb c 90 || N.eqb c 122) eqn:EZ.
    { inversion H; subst. exists [c]. split; auto. assert (c = 90 \/ c = 122) as [->| ->] by lia; constructor. }
    destruct (N.eqb c 43 || N.eqb c 45) eqn:ES; [|discriminate].
    rewrite bind_ok in H. destruct H as ((h & s1) & H1 & H). rewrite bind_ok in H. destruct H as (s2 & H2 & H).
    rewrite bind_ok in H. destruct H as ((m & s3) & H3 & H).
    apply two_digits_ok in H1 as (wh & -> & Hh). apply expect_ok in H2 as ->. apply two_digits_ok in H3 as (wm & -> & Hm).
    destruct (24 <=? h) eqn:E1; [discriminate|]. destruct (60 <=? m) eqn:E2; [discriminate|]. cbv zeta in H.
    match type of H with (if ?b then _ else _) = _ => destruct b end; [discriminate|]. inversion H; subst.
    exists ([c] ++ wh ++ [58] ++ wm). split; [cbn [app]; rewrite <- app_assoc; reflexivity|].
    assert (c = 43 \/ c = 45) as [->| ->] by lia.
    + match goal with |- offset_text _ (OffCustom ?z) => replace z with (Z.of_N (h * 60 + m)) by (change (43 =? 43)%N with true; cbv iota; lia) end. apply OT_plus; auto; lia.
    + match goal with |- offset_text _ (OffCustom ?z) => replace z with (- Z.of_N (h * 60 + m))%Z by (change (45 =? 43)%N with false; cbv iota; lia) end. apply OT_minus; auto; lia.
  - intros (w & -> & H). destruct H as [| |wh wm h m Hh Hm H1 H2|wh wm h m Hh Hm H1 H2]; try reflexivity.
    + cbn [app parse_offset]. rewrite <- app_assoc. change (N.eqb 43 90 || N.eqb 43 122) with false. change (N.eqb 43 43 || N.eqb 43 45) with true. cbv iota.
      cbv beta iota; rewrite bind_ok. eexists; split; [apply two_digits_ok; eauto|]. cbv beta iota. cbv beta iota; rewrite bind_ok. eexists; split; [apply expect_ok; reflexivity|].
      cbv beta iota; rewrite bind_ok. eexists; split; [apply two_digits_ok; eauto|]. cbv beta iota zeta. replace (24 <=? h) with false by lia. replace (60 <=? m) with false by lia.
      rewrite N.eqb_refl. match goal with |- (if ?b then _ else _) = _ => replace b with false by lia end.
      do 4 f_equal. lia.
    + cbn [app parse_offset]. rewrite <- app_assoc. change (N.eqb 45 90 || N.eqb 45 122) with false. change (N.eqb 45 43 || N.eqb 45 45) with true. cbv iota.
      cbv beta iota; rewrite bind_ok. eexists; split; [apply two_digits_ok; eauto|]. cbv beta iota. cbv beta iota; rewrite bind_ok. eexists; split; [apply expect_ok; reflexivity|].
      cbv beta iota; rewrite bind_ok. eexists; split; [apply two_digits_ok; eauto|]. cbv beta iota zeta. replace (24 <=? h) with false by lia. replace (60 <=? m) with false by lia.
      change (45 =? 43) with false. cbv iota. match goal with |- (if ?b then _ else _) = _ => replace b with false by lia end.
      do 4 f_equal. lia.
Qed.
Lemma parse_offset_none s r : parse_offset s = DTOk (None, r) -> s = [] /\ r = [].
Proof.
  destruct s as [|c s]; [intros H; inversion H; auto|]. cbn [parse_offset]. destruct (N.eqb c 90 || N.eqb c 122); [discriminate|].
  destruct (N.eqb c 43 || N.eqb c 45); [|discriminate]. intros H. rewrite bind_ok in H. destruct H as ((h & s1) & H1 & H). rewrite bind_ok in H. destruct H as (s2 & H2 & H).
  rewrite bind_ok in H. destruct H as ((m & s3) & H3 & H). destruct (24 <=? h); [discriminate|]. destruct (60 <=? m); [discriminate|]. cbv zeta in H.
  match type of H with (if ?b then _ else _) = _ => destruct b end; discriminate.
Qed.
Lemma offset_stop w o : offset_text w o -> time_stop w.
Proof. intros H. destruct H; cbn; repeat split; try discriminate. Qed.

(** * The whole *)
Lemma date_text_shape w d : date_text w d -> exists c0 c1 c2 c3 u, w = c0 :: c1 :: c2 :: c3 :: u /\ c2 <> 58 /\ 3 <= len_bytes w.
Proof.
  intros (wy & wm & wd & -> & (Ly & Fy & _) & _). destruct wy as [|c1 [|c2 [|c3 [|c4 [|]]]]]; try discriminate.
  inversion Fy as [|? ? K1 F1]; subst. inversion F1 as [|? ? K2 F2]; subst. inversion F2 as [|? ? K3 F3]; subst.
  exists c1, c2, c3, c4. eexists. split; [reflexivity|]. split; [lia|].
  cbn [app len_bytes]. assert (forall c, 48 <= c <= 57 -> len_utf8 c = 1) by (intros c Hc; unfold len_utf8; replace (c <? 128) with true by lia; reflexivity).
  rewrite !H by auto. lia.
Qed.
Lemma time_text_shape b w t : time_text b w t -> exists c0 c1 u, w = c0 :: c1 :: 58 :: u /\ 3 <= len_bytes w.
Proof.
  intros (wh & wm & ws & -> & (Lh & Fh & _) & _). destruct wh as [|c1 [|c2 [|]]]; try discriminate.
  inversion Fh as [|? ? K1 F1]; subst. inversion F1 as [|? ? K2 F2]; subst.
  exists c1, c2. eexists. split; [reflexivity|]. cbn [app len_bytes].
  assert (forall c, 48 <= c <= 57 -> len_utf8 c = 1) by (intros c Hc; unfold len_utf8; replace (c <? 128) with true by lia; reflexivity).
  rewrite !H by auto. change (len_utf8 58) with 1. lia.
Qed.

Lemma delim_iff c : is_dt_delim c = true <-> delim c.
Proof. unfold is_dt_delim, delim. lia. Qed.

(** What [parse_datetime] accepts and what it returns. *)
Inductive any_text : str -> datetime -> Prop :=
| AT_time b w t : toml_local_time b w t -> any_text w (MkDateTime None (Some t) None)
| AT_date w d : toml_local_date w d -> any_text w (MkDateTime (Some d) None None)
| AT_local b w d t : toml_local_date_time b w (d, t) -> any_text w (MkDateTime (Some d) (Some t) None)
| AT_offset b w d t o : toml_offset_date_time b w (d, t, o) -> any_text w (MkDateTime (Some d) (Some t) (Some o)).

Lemma nth2_time s : nth_error s 2 = Some 58 -> forall (A : Type) (x y : A), match nth_error s 2 with Some 58 => x | _ => y end = x.
Proof. intros ->. reflexivity. Qed.
Lemma nth2_date s : nth_error s 2 <> Some 58 -> forall (A : Type) (x y : A), match nth_error s 2 with Some 58 => x | _ => y end = y.
Proof.
  intros H A x y. destruct (nth_error s 2) as [c|]; auto.
  assert (Hc : c <> 58) by congruence. destruct c as [|p]; auto. do 6 (destruct p as [p|p|]; try reflexivity). exfalso. apply Hc. reflexivity.
Qed.

Lemma parse_datetime_sound s v : parse_datetime s = DTOk v -> any_text s v.
Proof.
  unfold parse_datetime. destruct (len_bytes s <? 3); [discriminate|]. cbv zeta.
  assert (K : nth_error s 2 = Some 58 \/ nth_error s 2 <> Some 58) by (destruct (nth_error s 2) as [c|]; [destruct (N.eq_dec c 58); [left|right]; congruence|right; discriminate]).
  destruct K as [E|E].
  - rewrite (nth2_time s E). intros H. rewrite bind_ok in H. destruct H as ((t & r) & H1 & H). destruct r; [|discriminate]. inversion H; subst.
    apply parse_time_ok in H1 as (b & w & -> & HT). rewrite app_nil_r. eapply AT_time; eauto.
  - rewrite (nth2_date s E). intros H. rewrite bind_ok in H. destruct H as ((d & r) & H1 & H). apply parse_date_ok in H1 as (w & -> & HD).
    destruct r as [|c r].
    + inversion H; subst. rewrite app_nil_r. apply AT_date; auto.
    + destruct (is_dt_delim c) eqn:EC; [|discriminate]. apply delim_iff in EC. rewrite bind_ok in H. destruct H as ((t & r1) & H1 & H).
      apply parse_time_ok in H1 as (b & wt & -> & HT). rewrite bind_ok in H. destruct H as ((o & r2) & H1 & H). destruct r2; [|discriminate].
      inversion H; subst. destruct o as [o|].
      * apply parse_offset_ok in H1 as (wo & -> & HO). rewrite app_nil_r.
        apply (AT_offset b). exists (w ++ [c] ++ wt), wo. split; [rewrite <- !app_assoc; reflexivity|]. split; auto. exists w, c, wt. auto.
      * apply parse_offset_none in H1 as [-> _]. rewrite app_nil_r. apply (AT_local b). exists w, c, wt. auto.
Qed.
Lemma parse_datetime_complete s v : any_text s v -> parse_datetime s = DTOk v.
Proof.
  intros H. unfold parse_datetime. destruct H as [b w t H|w d H|b w d t H|b w d t o H].
  - destruct (time_text_shape b w t) as (c0 & c1 & u & E & HL); [apply H|]. replace (len_bytes w <? 3) with false by lia. cbv zeta.
    rewrite (nth2_time w) by (rewrite E; reflexivity). rewrite <- (app_nil_r w), (parse_time_complete b w t [] H I). reflexivity.
  - destruct (date_text_shape w d) as (c0 & c1 & c2 & c3 & u & E & HN & HL); [apply H|]. replace (len_bytes w <? 3) with false by lia. cbv zeta.
    rewrite (nth2_date w) by (rewrite E; cbn; congruence). cbv beta iota; rewrite bind_ok. exists (d, []). split; [apply parse_date_ok; exists w; rewrite app_nil_r; auto|reflexivity].
  - destruct H as (wd & c & wt & -> & HC & HD & HT).
    destruct (date_text_shape wd d) as (c0 & c1 & c2 & c3 & u & E & HN & HL); [apply HD|].
    replace (len_bytes (wd ++ [c] ++ wt) <? 3) with false by (rewrite len_bytes_app; lia). cbv zeta.
    rewrite (nth2_date (wd ++ [c] ++ wt)) by (rewrite E; cbn; congruence). cbv beta iota; rewrite bind_ok. exists (d, [c] ++ wt).
    split; [apply parse_date_ok; exists wd; auto|]. cbn [app]. apply delim_iff in HC. rewrite HC.
    rewrite <- (app_nil_r wt). cbn [fst snd] in *. rewrite (parse_time_complete b wt t [] HT I). reflexivity.
  - destruct H as (w1 & wo & -> & (wd & c & wt & -> & HC & HD & HT) & HO). cbn [fst snd] in *.
    destruct (date_text_shape wd d) as (c0 & c1 & c2 & c3 & u & E & HN & HL); [apply HD|]. rewrite <- !app_assoc.
    replace (len_bytes (wd ++ [c] ++ wt ++ wo) <? 3) with false by (rewrite len_bytes_app; lia). cbv zeta.
    rewrite (nth2_date (wd ++ [c] ++ wt ++ wo)) by (rewrite E; cbn; congruence). cbv beta iota; rewrite bind_ok. exists (d, [c] ++ wt ++ wo).
    split; [apply parse_date_ok; exists wd; auto|]. cbn [app]. apply delim_iff in HC. rewrite HC.
    rewrite (parse_time_complete b wt t wo HT (offset_stop _ _ HO)). cbn [bind].
    cbv beta iota; rewrite bind_ok. exists (Some o, []). split; [apply parse_offset_ok; exists wo; rewrite app_nil_r; auto|reflexivity].
Qed.

(** * Printing *)
Lemma positional_app a b : Forall (fun c => 48 <= c <= 57) a -> Forall (fun c => 48 <= c <= 57) b ->
  positional 10 (a ++ b) = positional 10 a * 10 ^ N.of_nat (length b) + positional 10 b.
Proof.
  intros Ha Hb. induction Ha as [|c a Hc Ha IH]; [reflexivity|]. cbn [app]. rewrite !positional_cons by (auto; apply Forall_app; auto).
  rewrite IH, app_length, Nat2N.inj_add, N.pow_add_r. lia.
Qed.
Lemma positional_zeros k : positional 10 (repeat 48 k) = 0.
Proof. induction k; [reflexivity|]. cbn [repeat]. rewrite positional_cons; [|lia|apply Forall_forall; intros x Hx; apply repeat_spec in Hx; lia]. rewrite IHk. lia. Qed.
Lemma zeros_digits k : Forall (fun c => 48 <= c <= 57) (repeat 48 k).
Proof. apply Forall_forall; intros x Hx; apply repeat_spec in Hx; lia. Qed.

Lemma decimal_fuel_spec : forall fuel n acc, n < 10 ^ N.of_nat fuel -> fuel <> O ->
  exists w, decimal_fuel fuel n acc = w ++ acc /\ w <> [] /\ Forall (fun c => 48 <= c <= 57) w /\ positional 10 w = n /\
            (length w = 1%nat \/ 10 ^ N.of_nat (length w - 1) <= n).
Proof.
  induction fuel as [|fuel IH]; intros n acc Hn Hf; [contradiction|]. cbn [decimal_fuel].
  assert (HD : 48 <= 48 + n mod 10 <= 57) by lia.
  destruct (N.ltb_spec n 10) as [Hlt|Hge].
  - exists [48 + n mod 10]. repeat split; auto; [discriminate|]. rewrite positional_cons by auto. cbn [length positional]. change (10 ^ N.of_nat 0) with 1. lia.
  - destruct fuel as [|fuel]; [change (10 ^ N.of_nat 1) with 10 in Hn; lia|].
    destruct (IH (n / 10) ((48 + n mod 10) :: acc)) as (w & E & Hne & HF & HP & HL).
    { rewrite Nat2N.inj_succ, N.pow_succ_r' in Hn. lia. }
    { discriminate. }
    exists (w ++ [48 + n mod 10]). rewrite <- app_assoc. repeat split; auto.
    + destruct w; discriminate.
    + apply Forall_app; auto.
    + rewrite positional_app by auto. rewrite positional_cons by auto. cbn [length positional]. rewrite HP. change (10 ^ N.of_nat 1) with 10. change (10 ^ N.of_nat 0) with 1. lia.
    + right. rewrite app_length. cbn [length]. replace (length w + 1 - 1)%nat with (length w) by lia. destruct HL as [->|HL]; [change (10 ^ N.of_nat 1) with 10; lia|].
      destruct w as [|x w]; [contradiction|]. cbn [length] in *. replace (S (length w) - 1)%nat with (length w) in HL by lia.
      rewrite Nat2N.inj_succ, N.pow_succ_r'. lia.
Qed.
Lemma decimal_spec n : exists w, decimal n = w /\ w <> [] /\ Forall (fun c => 48 <= c <= 57) w /\ positional 10 w = n /\
  (length w = 1%nat \/ 10 ^ N.of_nat (length w - 1) <= n).
Proof.
  unfold decimal. destruct (decimal_fuel_spec (S (N.to_nat (N.log2 n))) n []) as (w & E & H).
  - rewrite Nat2N.inj_succ, N2Nat.id. destruct (N.eq_dec n 0) as [->|Hn]; [reflexivity|].
    pose proof (N.log2_spec n ltac:(lia)) as [_ H]. apply N.lt_le_trans with (1 := H). apply N.pow_le_mono_l. lia.
  - discriminate.
  - exists w. rewrite app_nil_r in E. auto.
Qed.
Lemma pad_digits k n : n < 10 ^ N.of_nat k -> k <> O -> digits_are k n (pad k n).
Proof.
  intros Hn Hk. unfold pad. destruct (decimal_spec n) as (w & -> & Hne & HF & HP & HL).
  assert (HLe : (length w <= k)%nat).
  { destruct HL as [->|HL]; [lia|]. destruct (Nat.le_gt_cases (length w) k) as [|K]; auto. exfalso.
    assert (10 ^ N.of_nat k <= 10 ^ N.of_nat (length w - 1)) by (apply N.pow_le_mono_r; lia). lia. }
  split; [rewrite app_length, repeat_length; lia|]. split; [apply Forall_app; auto using zeros_digits|].
  rewrite positional_app, positional_zeros by auto using zeros_digits. lia.
Qed.

Lemma trim_zeros_spec s : exists k, s = trim_zeros s ++ repeat 48 k.
Proof.
  induction s as [|c s (k & IH)]; [exists O; reflexivity|]. cbn [trim_zeros]. destruct (trim_zeros s) as [|y t].
  - destruct (N.eqb_spec c 48) as [->|_]; [exists (S k); simpl in *; congruence|exists k; simpl in *; congruence].
  - exists k. simpl in *. congruence.
Qed.

Lemma print_date_text d : valid_date d -> date_text (print_date d) d.
Proof.
  intros (Hy & Hd & n & Hn & Hdn). pose proof (days_in_month _ _ _ Hn). assert (n <= 31) by (inversion Hn; lia).
  exists (pad 4 (year d)), (pad 2 (month d)), (pad 2 (day d)). split; [reflexivity|].
  split; [|split]; apply pad_digits; try discriminate; simpl; lia.
Qed.
Lemma print_time_text t : valid_time t -> time_text true (print_time t) t.
Proof.
  intros (H1 & H2 & H3 & H4). unfold print_time.
  exists (pad 2 (hour t)), (pad 2 (minute t)), ([58] ++ pad 2 (second t) ++ (if N.eqb (nanosecond t) 0 then [] else [46] ++ trim_zeros (pad 9 (nanosecond t)))).
  split; [reflexivity|]. split; [apply pad_digits; try discriminate; simpl; lia|]. split; [apply pad_digits; try discriminate; simpl; lia|].
  assert (HS : digits_are 2 (second t) (pad 2 (second t))) by (apply pad_digits; try discriminate; simpl; lia).
  destruct (N.eqb_spec (nanosecond t) 0) as [->|Hn].
  - rewrite app_nil_r. apply ST_whole; auto.
  - assert (HP : digits_are 9 (nanosecond t) (pad 9 (nanosecond t))) by (apply pad_digits; try discriminate; simpl; lia).
    destruct HP as (HL & HF & HV). destruct (trim_zeros_spec (pad 9 (nanosecond t))) as (k & E). set (tz := trim_zeros (pad 9 (nanosecond t))) in *.
    rewrite E in HL, HF, HV. apply Forall_app in HF as [HF1 HF2]. rewrite positional_app, positional_zeros, repeat_length in HV by auto.
    rewrite app_length, repeat_length in HL.
    assert (Hne : tz <> []) by (intros K; rewrite K in HV; simpl in HV; lia).
    replace (nanosecond t) with (positional 10 tz * 1000000000 / 10 ^ N.of_nat (length tz)).
    + apply ST_fraction; auto. repeat split; auto.
    + assert (E9 : 1000000000 = 10 ^ N.of_nat k * 10 ^ N.of_nat (length tz)).
      { rewrite <- N.pow_add_r, <- Nat2N.inj_add. replace (k + length tz)%nat with 9%nat by lia. reflexivity. }
      rewrite E9, N.mul_assoc, N.div_mul by (apply N.pow_nonzero; lia). lia.
Qed.
Lemma print_offset_text o : valid_offset o -> offset_text (print_offset o) o.
Proof.
  destruct o as [|z]; intros H; [constructor|]. cbn [valid_offset] in H. unfold print_offset.
  assert (HM : Z.abs_N z < 1440) by lia. set (m := Z.abs_N z) in *.
  assert (D1 : digits_are 2 (m / 60) (pad 2 (m / 60))) by (apply pad_digits; try discriminate; change (10 ^ N.of_nat 2) with 100; lia).
  assert (D2 : digits_are 2 (m mod 60) (pad 2 (m mod 60))) by (apply pad_digits; try discriminate; change (10 ^ N.of_nat 2) with 100; lia).
  destruct (Z.ltb_spec z 0) as [Hz|Hz].
  - replace (OffCustom z) with (OffCustom (- Z.of_N (m / 60 * 60 + m mod 60))) by (f_equal; lia). apply OT_minus; auto; lia.
  - replace (OffCustom z) with (OffCustom (Z.of_N (m / 60 * 60 + m mod 60))) by (f_equal; lia). apply OT_plus; auto; lia.
Qed.

(** * The four types *)
Lemma local_date_iff s d : local_date_from_str s = DTOk d <-> toml_local_date s d.
Proof.
  unfold local_date_from_str. rewrite bind_ok. split.
  - intros (v & H & E). apply parse_datetime_sound in H. destruct H; try discriminate. inversion E; subst. auto.
  - intros H. exists (MkDateTime (Some d) None None). split; auto. apply parse_datetime_complete. constructor; auto.
Qed.
Lemma local_time_iff s t : local_time_from_str s = DTOk t <-> exists b, toml_local_time b s t.
Proof.
  unfold local_time_from_str. rewrite bind_ok. split.
  - intros (v & H & E). apply parse_datetime_sound in H. destruct H; try discriminate. inversion E; subst. eauto.
  - intros (b & H). exists (MkDateTime None (Some t) None). split; auto. apply parse_datetime_complete. econstructor; eauto.
Qed.
Lemma local_date_time_iff s x : local_date_time_from_str s = DTOk x <-> exists b, toml_local_date_time b s x.
Proof.
  unfold local_date_time_from_str. rewrite bind_ok. split.
  - intros (v & H & E). apply parse_datetime_sound in H. destruct H; try discriminate. inversion E; subst. eauto.
  - intros (b & H). destruct x as [d t]. exists (MkDateTime (Some d) (Some t) None). split; auto. apply parse_datetime_complete. econstructor; eauto.
Qed.
Lemma offset_date_time_iff s x : offset_date_time_from_str s = DTOk x <-> exists b, toml_offset_date_time b s x.
Proof.
  unfold offset_date_time_from_str. rewrite bind_ok. split.
  - intros (v & H & E). apply parse_datetime_sound in H. destruct H; try discriminate. inversion E; subst. eauto.
  - intros (b & H). destruct x as [[d t] o]. exists (MkDateTime (Some d) (Some t) (Some o)). split; auto. apply parse_datetime_complete. econstructor; eauto.
Qed.
