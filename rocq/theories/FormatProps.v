(** * C39: string formats accept what their standards define *)
From Coq Require Import String Ascii List NArith ZArith Bool Arith Lia ZifyBool.
From Verif Require Import Base TextModel TomlTextModel DateTimeModel NumberSpec DateTimeSpec DateTimeProofs FormatModel.
Import ListNotations.
Open Scope N_scope.
Open Scope list_scope.

(** ** Specification *)
(** RFC 3339: [full-date] is [toml_local_date], [partial-time] is [toml_local_time true], [date-time] is [toml_offset_date_time true] of
    [DateTimeSpec]; [full-time] is a partial time with an offset. *)
Definition full_time (w : str) : Prop := exists w1 wo t o, w = w1 ++ wo /\ toml_local_time true w1 t /\ offset_text wo o.
(** RFC 6901 *)
Inductive reference_token : str -> Prop :=
| RT_end : reference_token []
| RT_unescaped c r : c <> 47 -> c <> 126 -> reference_token r -> reference_token (c :: r)
| RT_tilde r : reference_token r -> reference_token (126 :: 48 :: r)
| RT_slash r : reference_token r -> reference_token (126 :: 49 :: r).
Definition json_pointer (s : str) : Prop := exists tokens, Forall reference_token tokens /\ s = concat (map (fun t => 47 :: t) tokens).
(** RFC 3986, appendix A *)
Definition alpha (c : char) : Prop := 65 <= c <= 90 \/ 97 <= c <= 122.
Definition digit_c (c : char) : Prop := 48 <= c <= 57.
Definition hexdig (c : char) : Prop := digit_c c \/ 65 <= c <= 70 \/ 97 <= c <= 102.
Definition unreserved (c : char) : Prop := alpha c \/ digit_c c \/ In c (lit "-._~").
Definition sub_delim (c : char) : Prop := In c (lit "!$&'()*+,;=").
(** a text of [unreserved], [sub-delims], percent-encoded octets and the characters in [extra] *)
Inductive pchars (extra : str) : str -> Prop :=
| PC_end : pchars extra []
| PC_char c r : unreserved c \/ sub_delim c \/ In c extra -> pchars extra r -> pchars extra (c :: r)
| PC_octet h1 h2 r : hexdig h1 -> hexdig h2 -> pchars extra r -> pchars extra (37 :: h1 :: h2 :: r).
Definition segment : str -> Prop := pchars (lit ":@").
Definition segment_nz (s : str) : Prop := segment s /\ s <> [].
Definition segment_nz_nc (s : str) : Prop := pchars (lit "@") s /\ s <> [].
Definition path_abempty (s : str) : Prop := exists l, Forall segment l /\ s = concat (map (fun t => 47 :: t) l).
(** the grammar of an authority is left out: any text without a slash, question mark or number sign *)
Definition authority (s : str) : Prop := Forall (fun c => c <> 47 /\ c <> 63 /\ c <> 35) s.
Inductive relative_part : str -> Prop :=
| RP_network a p : authority a -> path_abempty p -> relative_part ([47; 47] ++ a ++ p)
| RP_absolute s p : segment_nz s -> path_abempty p -> relative_part ([47] ++ s ++ p)
| RP_root : relative_part [47]
| RP_noscheme s p : segment_nz_nc s -> path_abempty p -> relative_part (s ++ p)
| RP_empty : relative_part [].
Definition query_text : str -> Prop := pchars (lit ":@/?").
Definition optional (sep : char) (P : str -> Prop) (s : str) : Prop := s = [] \/ exists r, s = sep :: r /\ P r.
Definition relative_ref (s : str) : Prop := exists p q f, s = p ++ q ++ f /\ relative_part p /\ optional 63 query_text q /\ optional 35 query_text f.
(** every URI starts with a scheme and a colon *)
Definition has_scheme (s : str) : Prop := exists c r t, s = c :: r ++ [58] ++ t /\ alpha c.

(** ** Dates and times *)
Lemma ascii_len s : is_ascii s = true -> len_bytes s = N.of_nat (List.length s).
Proof. induction s as [|c s IH]; [reflexivity|]. cbn [is_ascii forallb len_bytes List.length]. intros H. apply andb_true_iff in H. destruct H as [H1 H2]. rewrite IH by exact H2. unfold len_utf8. replace (c <? 128) with true by (symmetry; exact H1). lia. Qed.
Lemma parse_digits_ok s : forall acc v, parse_digits acc s = Some v <-> Forall (fun c => 48 <= c <= 57) s /\ v = acc * 10 ^ N.of_nat (List.length s) + positional 10 s.
Proof.
  induction s as [|c s IH]; intros acc v; cbn [parse_digits].
  - cbn. rewrite N.mul_1_r, N.add_0_r. split; [intros H; injection H as <-; split; [constructor|reflexivity]|intros [_ ->]; reflexivity].
  - destruct (is_ascii_digit c) eqn:E.
    + apply is_digit_iff in E. rewrite IH. split; intros [H1 H2].
      * split; [constructor; assumption|]. rewrite positional_cons by assumption. cbn [List.length]. rewrite Nat2N.inj_succ, N.pow_succ_r'. lia.
      * inversion H1; subst. split; [assumption|]. rewrite positional_cons by assumption. cbn [List.length]. rewrite Nat2N.inj_succ, N.pow_succ_r'. lia.
    + split; [discriminate|]. intros [H _]. inversion H; subst. apply is_digit_iff in H2. congruence.
Qed.
Lemma parse_u32_digits n v w : digits_are (S n) v w -> parse_u32 w = Some v.
Proof.
  intros (HL & HF & ->). destruct w as [|c w]; [discriminate|]. unfold parse_u32. inversion HF; subst. replace (N.eqb c 43) with false by lia. apply parse_digits_ok. split; [exact HF|reflexivity].
Qed.
Lemma parse_u32_strict w v : parse_u32 w = Some v -> ~ In 43 w -> digits_are (List.length w) v w.
Proof.
  destruct w as [|c w]; [discriminate|]. unfold parse_u32. intros H HN. destruct (N.eqb_spec c 43) as [-> |]; [exfalso; apply HN; left; reflexivity|]. apply parse_digits_ok in H. destruct H as [H1 H2]. split; [reflexivity|]. split; [exact H1|exact H2].
Qed.
Lemma at_is_iff i c s : at_is i c s = true <-> nth_error s i = Some c.
Proof. unfold at_is. destruct (nth_error s i) as [x|]; [|split; discriminate]. rewrite N.eqb_eq. split; congruence. Qed.
Lemma digits_ascii n v w : digits_are n v w -> is_ascii w = true.
Proof. intros (_ & H & _). unfold is_ascii. apply forallb_forall. intros c Hc. rewrite Forall_forall in H. specialize (H c Hc). cbn in H. lia. Qed.
Lemma ascii_app a b : is_ascii (a ++ b) = is_ascii a && is_ascii b. Proof. apply forallb_app. Qed.
Definition max_day (year month : N) : N :=
  if existsb (N.eqb month) [1; 3; 5; 7; 8; 10; 12] then 31
  else if existsb (N.eqb month) [4; 6; 9; 11] then 30
  else if N.eqb (year mod 4) 0 && (negb (N.eqb (year mod 100) 0) || N.eqb (year mod 400) 0) then 29 else 28.
Lemma max_day_eq y m : 1 <= m <= 12 -> max_day y m = max_days_in_month y m.
Proof.
  intros H. unfold max_day, max_days_in_month, is_leap_year. destruct (N.eqb_spec m 2) as [-> |Hne].
  - cbn [existsb N.eqb Pos.eqb orb]. destruct (y mod 4 =? 0) eqn:E4, (y mod 100 =? 0) eqn:E1, (y mod 400 =? 0) eqn:E5; cbn; try reflexivity; lia.
  - assert (HM : m = 1 \/ m = 3 \/ m = 4 \/ m = 5 \/ m = 6 \/ m = 7 \/ m = 8 \/ m = 9 \/ m = 10 \/ m = 11 \/ m = 12) by lia. repeat (destruct HM as [-> |HM]; [reflexivity|]). subst. reflexivity.
Qed.
Lemma format_date_unfold a b c d e f g h i j :
  format_date [a; b; c; d; e; f; g; h; i; j] = is_ascii [a; b; c; d; e; f; g; h; i; j] && N.eqb e 45 && N.eqb h 45
  && match parse_u32 [a; b; c; d], parse_u32 [f; g], parse_u32 [i; j] with
     | Some y, Some m, Some d => (1 <=? m) && (m <=? 12) && ((1 <=? d) && (d <=? max_day y m)) | _, _, _ => false end.
Proof.
  unfold format_date. destruct (is_ascii [a; b; c; d; e; f; g; h; i; j]) eqn:EA.
  - rewrite (ascii_len _ EA). cbn [List.length N.of_nat Pos.of_succ_nat Pos.succ N.eqb Pos.eqb negb orb andb]. cbn [at_is nth_error slice firstn skipn Nat.sub]. destruct (e =? 45), (h =? 45); cbn [negb orb andb]; try reflexivity.
    destruct (parse_u32 [a; b; c; d]), (parse_u32 [f; g]), (parse_u32 [i; j]); try reflexivity. fold (max_day n n0). destruct ((1 <=? n0) && (n0 <=? 12)); reflexivity.
  - rewrite orb_true_r. reflexivity.
Qed.
Lemma format_date_len s : format_date s = true -> List.length s = 10%nat.
Proof.
  unfold format_date. destruct (is_ascii s) eqn:EA; [|rewrite orb_true_r; discriminate]. rewrite (ascii_len _ EA). destruct (N.eqb_spec (N.of_nat (List.length s)) 10) as [H|]; [intros _; lia|discriminate].
Qed.
Lemma ten (s : str) : List.length s = 10%nat -> exists a b c d e f g h i j, s = [a; b; c; d; e; f; g; h; i; j].
Proof. intros H. do 10 (destruct s as [|? s]; [discriminate|]). destruct s; [|discriminate]. repeat eexists. Qed.
Lemma valid_date_iff y m d : y <= 9999 -> (valid_date (MkDate y m d) <-> 1 <= m <= 12 /\ 1 <= d /\ d <= max_day y m).
Proof.
  intros HY. unfold valid_date. cbn [year month day]. split.
  - intros (_ & H1 & n & H2 & H3). assert (HM := days_in_month _ _ _ H2). split; [exact HM|]. split; [exact H1|]. rewrite max_day_eq by exact HM. apply max_days_iff; eauto.
  - intros (HM & H1 & H2). split; [exact HY|]. split; [exact H1|]. rewrite max_day_eq in H2 by exact HM. apply max_days_iff; assumption.
Qed.
Lemma date_complete s d : toml_local_date s d -> format_date s = true.
Proof.
  intros [(wy & wm & wd & -> & Hy & Hm & Hd) HV]. pose proof Hy as (L1 & _). pose proof Hm as (L2 & _). pose proof Hd as (L3 & _).
  destruct wy as [|c [|c0 [|c1 [|c2 [|]]]]]; try discriminate. destruct wm as [|c3 [|c4 [|]]]; try discriminate. destruct wd as [|c5 [|c6 [|]]]; try discriminate.
  cbn [app]. rewrite format_date_unfold. rewrite (parse_u32_digits 3 _ _ Hy), (parse_u32_digits 1 _ _ Hm), (parse_u32_digits 1 _ _ Hd). change [c; c0; c1; c2; 45; c3; c4; 45; c5; c6] with ([c; c0; c1; c2] ++ [45] ++ [c3; c4] ++ [45] ++ [c5; c6]).
  rewrite !ascii_app, (digits_ascii _ _ _ Hy), (digits_ascii _ _ _ Hm), (digits_ascii _ _ _ Hd). destruct d as [y m d]. cbn [year month day] in *. apply valid_date_iff in HV; [|apply HV]. cbn. lia.
Qed.
Lemma digits_4 v w : digits_are 4 v w -> v <= 9999.
Proof. intros (HL & HF & ->). pose proof (positional_bound10 w HF) as H. rewrite HL in H. change (10 ^ N.of_nat 4) with 10000 in H. lia. Qed.
Lemma date_sound s : format_date s = true -> ~ In 43 s -> exists d, toml_local_date s d.
Proof.
  intros H HN. destruct (ten s (format_date_len s H)) as (a & b & c & d & e & f & g & h & i & j & ->). rewrite format_date_unfold in H. apply andb_true_iff in H. destruct H as [H H4]. apply andb_true_iff in H. destruct H as [H H3]. apply andb_true_iff in H. destruct H as [H1 H2].
  apply N.eqb_eq in H2, H3. subst e h. destruct (parse_u32 [a; b; c; d]) as [y|] eqn:E1; [|discriminate]. destruct (parse_u32 [f; g]) as [m|] eqn:E2; [|discriminate]. destruct (parse_u32 [i; j]) as [dd|] eqn:E3; [|discriminate].
  apply parse_u32_strict in E1; [|intros HI; apply HN; cbn in *; tauto]. apply parse_u32_strict in E2; [|intros HI; apply HN; cbn in *; tauto]. apply parse_u32_strict in E3; [|intros HI; apply HN; cbn in *; tauto].
  exists (MkDate y m dd). split; [exists [a; b; c; d], [f; g], [i; j]; cbn [year month day]; auto|]. apply valid_date_iff; [exact (digits_4 _ _ E1)|]. lia.
Qed.
(** Every RFC 3339 date is accepted; without a plus sign nothing else is. *)
Theorem C39_date_partial : forall s, ((exists d, toml_local_date s d) -> format_date s = true) /\ (~ In 43 s -> format_date s = true -> exists d, toml_local_date s d).
Proof. intros s. split; [intros [d H]; exact (date_complete s d H)|intros HN H; exact (date_sound s H HN)]. Qed.
Print Assumptions C39_date_partial.
(** A plus sign is accepted in place of a first digit. *)
Theorem C39_date_refuted : format_date (lit "+999-+1-+2") = true /\ ~ exists d, toml_local_date (lit "+999-+1-+2") d.
Proof.
  split; [reflexivity|]. intros (d & (wy & wm & wd & HE & (L & HF & _) & _) & _). destruct wy as [|c wy]; [discriminate|]. injection HE as <- _. inversion HF as [|? ? HC _]; subst. cbn in HC. lia.
Qed.
Print Assumptions C39_date_refuted.

(** *** Times *)
Definition fraction (r : str) : option str :=
  match r with
  | c :: stripped =>
      if N.eqb c 46 then match take_while is_ascii_digit stripped with [] => None | _ => Some (drop_while is_ascii_digit stripped) end
      else Some (c :: stripped)
  | [] => Some []
  end.
Lemma components_unfold a b c d e f g h r :
  parse_time_components (a :: b :: c :: d :: e :: f :: g :: h :: r) =
  if is_ascii (a :: b :: c :: d :: e :: f :: g :: h :: r) && N.eqb c 58 && N.eqb f 58 then
    match parse_u32 [a; b], parse_u32 [d; e], parse_u32 [g; h] with
    | Some hh, Some mm, Some ss => if (hh <=? 23) && (mm <=? 59) && (ss <=? 60) then fraction r else None
    | _, _, _ => None end
  else None.
Proof.
  unfold parse_time_components. destruct (is_ascii (a :: b :: c :: d :: e :: f :: g :: h :: r)) eqn:EA.
  - rewrite (ascii_len _ EA). cbn [List.length]. replace (N.of_nat (S (S (S (S (S (S (S (S (List.length r))))))))) <? 8) with false by lia. cbn [negb orb andb]. cbn [at_is nth_error slice firstn skipn Nat.sub]. destruct (c =? 58), (f =? 58); cbn [negb orb andb]; try reflexivity.
    destruct (parse_u32 [a; b]) as [hh|], (parse_u32 [d; e]) as [mm|], (parse_u32 [g; h]) as [ss|]; try reflexivity.
    replace ((23 <? hh) || (59 <? mm) || (60 <? ss)) with (negb ((hh <=? 23) && (mm <=? 59) && (ss <=? 60))) by lia. destruct ((hh <=? 23) && (mm <=? 59) && (ss <=? 60)); reflexivity.
  - rewrite orb_true_r. reflexivity.
Qed.
Lemma components_len s rest : parse_time_components s = Some rest -> is_ascii s = true /\ exists a b c d e f g h r, s = a :: b :: c :: d :: e :: f :: g :: h :: r.
Proof.
  unfold parse_time_components. destruct (is_ascii s) eqn:EA; [|rewrite orb_true_r; discriminate]. rewrite (ascii_len _ EA). destruct (N.ltb_spec (N.of_nat (List.length s)) 8) as [H|H]; [discriminate|]. intros _. split; [reflexivity|].
  do 8 (destruct s as [|? s]; [cbn in H; lia|]). repeat eexists.
Qed.
(** the text before the rest is a time *)
Definition no_plus_time (s : str) : Prop := forall a b, s = a ++ [43] ++ b -> (8 <= List.length a)%nat.
Lemma no_plus_in s i n : no_plus_time s -> (i + n <= 8)%nat -> ~ In 43 (firstn n (skipn i s)).
Proof.
  intros H HL HI. apply in_split in HI. destruct HI as (l1 & l2 & HE). assert (HS : s = (firstn i s ++ l1) ++ [43] ++ (l2 ++ skipn n (skipn i s))).
  { rewrite <- (firstn_skipn i s) at 1. rewrite <- (firstn_skipn n (skipn i s)) at 1. rewrite HE. rewrite <- !app_assoc. reflexivity. }
  apply H in HS. rewrite app_length in HS. assert (List.length (l1 ++ 43%N :: l2) <= n)%nat by (rewrite <- HE; apply firstn_le_length). rewrite app_length in H0. cbn [List.length] in H0. pose proof (firstn_le_length i s). lia.
Qed.
Lemma time_sound s rest : parse_time_components s = Some rest -> no_plus_time s -> exists w t, s = w ++ rest /\ toml_local_time true w t.
Proof.
  intros H HN. destruct (components_len s rest H) as (HA & a & b & c & d & e & f & g & h & r & ->). rewrite components_unfold in H. rewrite HA in H. cbn [andb] in H.
  destruct (N.eqb_spec c 58) as [-> |]; [|discriminate]. destruct (N.eqb_spec f 58) as [-> |]; [|discriminate]. cbn [andb] in H.
  destruct (parse_u32 [a; b]) as [hh|] eqn:E1; [|discriminate]. destruct (parse_u32 [d; e]) as [mm|] eqn:E2; [|discriminate]. destruct (parse_u32 [g; h]) as [ss|] eqn:E3; [|discriminate].
  apply parse_u32_strict in E1; [|apply (no_plus_in _ 0 2 HN); lia]. apply parse_u32_strict in E2; [|apply (no_plus_in _ 3 2 HN); lia]. apply parse_u32_strict in E3; [|apply (no_plus_in _ 6 2 HN); lia].
  destruct ((hh <=? 23) && (mm <=? 59) && (ss <=? 60)) eqn:EB; [|discriminate].
  assert (WHOLE : rest = r -> exists w t, a :: b :: 58 :: d :: e :: 58 :: g :: h :: r = w ++ rest /\ toml_local_time true w t).
  { intros ->. exists (a :: b :: 58 :: d :: e :: 58 :: g :: h :: []), (MkTime hh mm ss 0). split; [reflexivity|]. split; [|unfold valid_time; cbn [hour minute second nanosecond]; lia].
    exists [a; b], [d; e], ([58] ++ [g; h]). split; [reflexivity|]. split; [exact E1|]. split; [exact E2|]. apply ST_whole. exact E3. }
  destruct r as [|x r]; cbn [fraction] in H; [injection H as <-; apply WHOLE; reflexivity|]. destruct (N.eqb_spec x 46) as [-> |]; [|injection H as <-; apply WHOLE; reflexivity].
  clear WHOLE. destruct (take_while is_ascii_digit r) as [|y q] eqn:ET; [discriminate|]. injection H as <-.
  assert (HD : digits_are (List.length (y :: q)) (positional 10 (y :: q)) (y :: q)).
  { split; [reflexivity|]. split; [|reflexivity]. rewrite <- ET. apply Forall_forall. intros z Hz. pose proof (take_while_all is_ascii_digit r) as HT. rewrite forallb_forall in HT. apply is_digit_iff. apply HT. exact Hz. }
  set (n := positional 10 (y :: q) * 1000000000 / 10 ^ N.of_nat (List.length (y :: q))).
  exists (a :: b :: 58 :: d :: e :: 58 :: g :: h :: 46 :: y :: q), (MkTime hh mm ss n). split; [rewrite <- ET; cbn [app]; rewrite take_drop_while; reflexivity|]. split.
  - exists [a; b], [d; e], ([58] ++ [g; h] ++ [46] ++ y :: q). split; [reflexivity|]. split; [exact E1|]. split; [exact E2|]. apply ST_fraction; [exact E3|discriminate|exact HD].
  - unfold valid_time. cbn [hour minute second nanosecond]. pose proof (positional_bound10 (y :: q) (proj1 (proj2 HD))) as HB. assert (n < 1000000000) by (unfold n; apply N.div_lt_upper_bound; [apply N.pow_nonzero; lia|nia]). lia.
Qed.
Lemma time_complete w t rest : toml_local_time true w t -> is_ascii rest = true -> (match rest with c :: _ => is_ascii_digit c = false /\ c <> 46 | [] => True end) -> parse_time_components (w ++ rest) = Some rest.
Proof.
  intros [(wh & wm & ws & -> & Hh & Hm & Hs) HV] HA HR. pose proof Hh as (L1 & _). pose proof Hm as (L2 & _). destruct wh as [|a [|b [|]]]; try discriminate. destruct wm as [|d [|e [|]]]; try discriminate.
  destruct HV as (V1 & V2 & V3 & V4).
  assert (CORE : forall g h r x, digits_are 2 (second t) [g; h] -> is_ascii r = true -> fraction r = Some x -> parse_time_components (a :: b :: 58 :: d :: e :: 58 :: g :: h :: r) = Some x).
  { intros g h r x Hg Hr Hx. rewrite components_unfold. rewrite (parse_u32_digits 1 _ _ Hh), (parse_u32_digits 1 _ _ Hm), (parse_u32_digits 1 _ _ Hg). change (a :: b :: 58 :: d :: e :: 58 :: g :: h :: r) with ([a; b] ++ [58] ++ [d; e] ++ [58] ++ [g; h] ++ r).
    rewrite !ascii_app, (digits_ascii _ _ _ Hh), (digits_ascii _ _ _ Hm), (digits_ascii _ _ _ Hg), Hr. cbn [andb N.eqb Pos.eqb is_ascii forallb]. replace ((58 <? 128) && true) with true by reflexivity. cbn [andb]. replace ((hour t <=? 23) && (minute t <=? 59) && (second t <=? 60)) with true by lia. exact Hx. }
  inversion Hs as [|ws' s' Hd|ws' s' wf f Hd Hne Hf]; subst.
  - pose proof Hd as (L3 & _). destruct ws' as [|g [|h [|]]]; try discriminate. cbn [app]. apply CORE; [exact Hd|exact HA|]. destruct rest as [|c rest]; [reflexivity|]. cbn [fraction]. destruct HR as [_ HR]. apply N.eqb_neq in HR. rewrite HR. reflexivity.
  - pose proof Hd as (L3 & _). destruct ws' as [|g [|h [|]]]; try discriminate. cbn [app]. apply CORE; [exact Hd| |].
    + cbn [is_ascii forallb]. fold (is_ascii (wf ++ rest)). rewrite ascii_app, (digits_ascii _ _ _ Hf), HA. reflexivity.
    + cbn [fraction N.eqb Pos.eqb]. destruct Hf as (_ & HF & _). assert (HFB : forallb is_ascii_digit wf = true) by (apply forallb_forall; intros z Hz; rewrite Forall_forall in HF; apply is_digit_iff; exact (HF z Hz)).
      assert (TD : take_while is_ascii_digit (wf ++ rest) = wf /\ drop_while is_ascii_digit (wf ++ rest) = rest).
      { clear - HFB HR. induction wf as [|z wf IH]; cbn [app take_while drop_while].
        - destruct rest as [|c rest]; [split; reflexivity|]. destruct HR as [HR _]. cbn [take_while drop_while]. rewrite HR. split; reflexivity.
        - cbn [forallb] in HFB. apply andb_true_iff in HFB. destruct HFB as [H1 H2]. rewrite H1. destruct (IH H2) as [A B]. rewrite A, B. split; reflexivity. }
      destruct TD as [-> ->]. destruct wf; [congruence|reflexivity].
Qed.
(** Every RFC 3339 partial time is accepted; without a plus sign nothing else is. *)
Theorem C39_local_time_partial : forall s, ((exists t, toml_local_time true s t) -> format_local_time s = true) /\ (~ In 43 s -> format_local_time s = true -> exists t, toml_local_time true s t).
Proof.
  intros s. unfold format_local_time. split.
  - intros [t H]. rewrite <- (app_nil_r s). rewrite (time_complete s t [] H eq_refl I). reflexivity.
  - intros HN. destruct (parse_time_components s) as [[|c r]|] eqn:E; try discriminate. intros _. destruct (time_sound s [] E) as (w & t & HE & HT); [intros a b ->; exfalso; apply HN; apply in_or_app; right; left; reflexivity|]. rewrite app_nil_r in HE. subst. exists t. exact HT.
Qed.
Print Assumptions C39_local_time_partial.
(** a plus sign may only be the sign of the offset, which has five more characters *)
Definition plus_is_sign (k : nat) (s : str) : Prop := forall a b, s = a ++ [43] ++ b -> (k <= List.length a)%nat /\ List.length b = 5%nat.
Lemma timezone_complete w o : offset_text w o -> validate_timezone w = true /\ is_ascii w = true /\ match w with c :: _ => is_ascii_digit c = false /\ c <> 46 | [] => True end.
Proof.
  assert (ZC : forall c wh wm h m, digits_are 2 h wh -> digits_are 2 m wm -> h <= 23 -> m <= 59 -> (c = 43 \/ c = 45) -> validate_timezone ([c] ++ wh ++ [58] ++ wm) = true /\ is_ascii ([c] ++ wh ++ [58] ++ wm) = true /\ (is_ascii_digit c = false /\ c <> 46)).
  { intros c wh wm h m Hh Hm H1 H2 Hc. pose proof Hh as (L1 & _). pose proof Hm as (L2 & _). destruct wh as [|a [|b [|]]]; try discriminate. destruct wm as [|d [|e [|]]]; try discriminate.
    assert (HA : is_ascii ([c] ++ [a; b] ++ [58] ++ [d; e]) = true). { rewrite !ascii_app, (digits_ascii _ _ _ Hh), (digits_ascii _ _ _ Hm). destruct Hc as [-> | ->]; reflexivity. }
    split; [|split; [exact HA|destruct Hc as [-> | ->]; (split; [reflexivity|lia])]].
    unfold validate_timezone. rewrite HA. cbn [negb]. rewrite (ascii_len _ HA). cbn [app List.length N.of_nat Pos.of_succ_nat Pos.succ N.eqb Pos.eqb at_is nth_error slice firstn skipn Nat.sub]. rewrite (parse_u32_digits 1 _ _ Hh), (parse_u32_digits 1 _ _ Hm).
    cbn [str_eqb]. rewrite !andb_false_r. cbn [orb]. destruct Hc as [-> | ->]; cbn [N.eqb Pos.eqb orb andb]; lia. }
  intros H. inversion H as [| |wh wm h m A B C D|wh wm h m A B C D]; subst; [split; [reflexivity|]; split; [reflexivity|]; split; [reflexivity|lia]|split; [reflexivity|]; split; [reflexivity|]; split; [reflexivity|lia]| |].
  - exact (ZC 43 wh wm h m A B C D (or_introl eq_refl)).
  - exact (ZC 45 wh wm h m A B C D (or_intror eq_refl)).
Qed.
Lemma timezone_sound w : validate_timezone w = true -> plus_is_sign 0 w -> exists o, offset_text w o.
Proof.
  intros H HN. unfold validate_timezone in H. destruct (is_ascii w) eqn:HA; [|discriminate]. cbn [negb] in H. destruct (str_eqb w [90]) eqn:E1; [apply str_eqb_eq in E1; subst; exists OffZ; constructor|]. destruct (str_eqb w [122]) eqn:E2; [apply str_eqb_eq in E2; subst; exists OffZ; constructor|]. cbn [orb] in H.
  destruct w as [|c tz]; [discriminate|]. rewrite (ascii_len _ HA) in H. apply andb_true_iff in H. destruct H as [H H5]. apply andb_true_iff in H. destruct H as [H H4]. apply andb_true_iff in H. destruct H as [H H3]. apply andb_true_iff in H. destruct H as [H1 H2]. apply N.eqb_eq in H2. cbn [List.length] in H2.
  destruct tz as [|a [|b [|x [|d [|e [|]]]]]]; cbn [List.length] in H2; try lia. cbn [at_is nth_error] in H3. apply N.eqb_eq in H3. subst x. cbn [slice firstn skipn Nat.sub] in H4, H5.
  destruct (parse_u32 [a; b]) as [h|] eqn:E3; [|discriminate]. destruct (parse_u32 [d; e]) as [m|] eqn:E4; [|discriminate].
  assert (HP : ~ In 43 [a; b; 58; d; e]). { intros HI. apply in_split in HI. destruct HI as (l1 & l2 & HE). destruct (HN (c :: l1) l2) as [_ HL]; [cbn [app]; rewrite HE; reflexivity|]. assert (HLL : List.length [a; b; 58; d; e] = List.length (l1 ++ 43 :: l2)) by (rewrite HE; reflexivity). rewrite app_length in HLL. cbn [List.length] in HLL. lia. }
  apply parse_u32_strict in E3; [|intros HI; apply HP; cbn in *; tauto]. apply parse_u32_strict in E4; [|intros HI; apply HP; cbn in *; tauto].
  apply orb_true_iff in H1. destruct H1 as [H1|H1]; apply N.eqb_eq in H1; subst c.
  - exists (OffCustom (Z.of_N (h * 60 + m))). apply (OT_plus [a; b] [d; e]); [exact E3|exact E4|lia|lia].
  - exists (OffCustom (- Z.of_N (h * 60 + m))). apply (OT_minus [a; b] [d; e]); [exact E3|exact E4|lia|lia].
Qed.
Theorem C39_time_partial : forall s, (full_time s -> format_time s = true) /\ (plus_is_sign 8 s -> format_time s = true -> full_time s).
Proof.
  intros s. unfold format_time. split.
  - intros (w1 & wo & t & o & -> & HT & HO). destruct (timezone_complete wo o HO) as (A & B & C). rewrite (time_complete w1 t wo HT B C). exact A.
  - intros HN H. destruct (parse_time_components s) as [rest|] eqn:E; [|discriminate]. destruct (time_sound s rest E) as (w & t & -> & HT); [intros a b HE; exact (proj1 (HN a b HE))|].
    destruct (timezone_sound rest H) as [o HO]; [intros a b ->; split; [lia|]; apply (HN (w ++ a) b); rewrite <- app_assoc; reflexivity|]. exists w, rest, t, o. auto.
Qed.
Print Assumptions C39_time_partial.
Lemma not_full_time s : (forall a, In a (firstn 8 s) -> a <> 43) \/ ~ full_time s.
Proof.
  destruct (in_dec N.eq_dec 43 (firstn 8 s)) as [HI|HN]; [right|left; intros a Ha ->; exact (HN Ha)].
  intros (w1 & wo & t & o & -> & [(wh & wm & ws & -> & (L1 & F1 & _) & (L2 & F2 & _) & Hs) _] & _). destruct wh as [|a [|b [|]]]; try discriminate. destruct wm as [|d [|e [|]]]; try discriminate.
  inversion Hs as [|ws' s' (L3 & F3 & _)|ws' s' wf f (L3 & F3 & _) Hne Hf]; subst; (destruct ws' as [|g [|h [|]]]; try discriminate); cbn [app firstn] in HI; rewrite !Forall_forall in *; pose proof (F1 a) as K1; pose proof (F1 b) as K2; pose proof (F2 d) as K3; pose proof (F2 e) as K4; pose proof (F3 g) as K5; pose proof (F3 h) as K6; cbn in *;
  (destruct HI as [HI|[HI|[HI|[HI|[HI|[HI|[HI|[HI|[]]]]]]]]]; [assert (48 <= a) by tauto; lia|assert (48 <= b) by tauto; lia|discriminate HI|assert (48 <= d) by tauto; lia|assert (48 <= e) by tauto; lia|discriminate HI|assert (48 <= g) by tauto; lia|assert (48 <= h) by tauto; lia]).
Qed.
Theorem C39_time_refuted : format_time (lit "12:00:+5Z") = true /\ ~ full_time (lit "12:00:+5Z").
Proof. split; [reflexivity|]. destruct (not_full_time (lit "12:00:+5Z")) as [H|H]; [|exact H]. exfalso. apply (H 43); [cbn; tauto|reflexivity]. Qed.
Print Assumptions C39_time_refuted.
Lemma plus_once k s1 s2 : ~ In 43 s1 -> ~ In 43 s2 -> (k <= List.length s1)%nat -> List.length s2 = 5%nat -> plus_is_sign k (s1 ++ [43] ++ s2).
Proof.
  intros H1 H2 HK HL a b HE. assert (EA : a = s1 /\ b = s2).
  { clear HK HL. revert a HE. induction s1 as [|c s1 IH]; intros a HE; destruct a as [|x a]; cbn [app] in HE.
    - injection HE as HE. auto.
    - injection HE as _ HE. exfalso. apply H2. rewrite HE. apply in_or_app. right. left. reflexivity.
    - injection HE as HE _. exfalso. apply H1. left. exact HE.
    - injection HE as HX HE. destruct (IH (fun HI => H1 (or_intror HI)) a HE) as [-> ->]. subst. auto. }
  destruct EA as [-> ->]. auto.
Qed.
Example C39_time_example : format_time (lit "23:59:60.25+05:30") = true /\ plus_is_sign 8 (lit "23:59:60.25+05:30") /\ format_time (lit "24:00:00Z") = false /\ format_time (lit "12:00:00++1:00") = true.
Proof.
  split; [reflexivity|]. split; [|split; reflexivity]. apply (plus_once 8 (lit "23:59:60.25") (lit "05:30")); [intros HI; cbn in HI; lia|intros HI; cbn in HI; lia|cbn; lia|reflexivity].
Qed.

(** *** Dates with times *)
Lemma date_no_sep w d : toml_local_date w d -> forallb not_sep w = true.
Proof.
  intros [(wy & wm & wd & -> & (_ & F1 & _) & (_ & F2 & _) & (_ & F3 & _)) _]. apply forallb_forall. intros c Hc. rewrite !Forall_forall in *. unfold not_sep. repeat (apply in_app_or in Hc; destruct Hc as [Hc|Hc]).
  - specialize (F1 c Hc). cbn in F1. lia.
  - destruct Hc as [<-|[]]. reflexivity.
  - specialize (F2 c Hc). cbn in F2. lia.
  - destruct Hc as [<-|[]]. reflexivity.
  - specialize (F3 c Hc). cbn in F3. lia.
Qed.
Lemma split_sep w c r : forallb not_sep w = true -> not_sep c = false -> take_while not_sep (w ++ c :: r) = w /\ drop_while not_sep (w ++ c :: r) = c :: r.
Proof. intros H HC. induction w as [|x w IH]; cbn [app take_while drop_while]; [rewrite HC; auto|]. cbn [forallb] in H. apply andb_true_iff in H. destruct H as [H1 H2]. rewrite H1. destruct (IH H2) as [-> ->]. auto. Qed.
Lemma sep_iff c : not_sep c = false <-> delim c.
Proof. unfold not_sep, delim. split; [intros H; apply negb_false_iff in H; lia|intros H; apply negb_false_iff; lia]. Qed.
Lemma split_date_time_complete time wd d c wt : toml_local_date wd d -> delim c -> time wt = true -> split_date_time time (wd ++ [c] ++ wt) = true.
Proof. intros HD HC HT. unfold split_date_time. apply sep_iff in HC. destruct (split_sep wd c wt (date_no_sep wd d HD) HC) as [A B]. cbn [app]. rewrite A, B, HT, (date_complete wd d HD). reflexivity. Qed.
Lemma split_date_time_sound time s : split_date_time time s = true -> exists wd c wt, s = wd ++ [c] ++ wt /\ delim c /\ format_date wd = true /\ List.length wd = 10%nat /\ time wt = true.
Proof.
  unfold split_date_time. intros H. destruct (drop_while not_sep s) as [|c wt] eqn:ED; [discriminate|]. apply andb_true_iff in H. destruct H as [H1 H2]. exists (take_while not_sep s), c, wt. split; [cbn [app]; rewrite <- ED; symmetry; apply take_drop_while|]. split; [|split; [exact H1|split; [exact (format_date_len _ H1)|exact H2]]].
  apply sep_iff. pose proof (drop_while_head not_sep s) as HH. rewrite ED in HH. exact HH.
Qed.
Theorem C39_local_date_time_partial : forall s, ((exists v, toml_local_date_time true s v) -> format_local_date_time s = true) /\ (~ In 43 s -> format_local_date_time s = true -> exists v, toml_local_date_time true s v).
Proof.
  intros s. split.
  - intros ([d t] & wd & c & wt & -> & HC & HD & HT). apply (split_date_time_complete _ wd d c wt HD HC). apply C39_local_time_partial. exists t. exact HT.
  - intros HN H. apply split_date_time_sound in H. destruct H as (wd & c & wt & -> & HC & HD & _ & HT). destruct (date_sound wd HD) as [d Hd]; [intros HI; apply HN; apply in_or_app; left; exact HI|].
    apply C39_local_time_partial in HT; [|intros HI; apply HN; apply in_or_app; right; right; exact HI]. destruct HT as [t Ht]. exists (d, t), wd, c, wt. auto.
Qed.
Print Assumptions C39_local_date_time_partial.
Theorem C39_date_time_partial : forall s, ((exists v, toml_offset_date_time true s v) -> format_date_time s = true) /\ (plus_is_sign 19 s -> format_date_time s = true -> exists v, toml_offset_date_time true s v).
Proof.
  intros s. split.
  - intros ([[d t] o] & w1 & wo & -> & (wd & c & wt & -> & HC & HD & HT) & HO). rewrite <- !app_assoc. apply (split_date_time_complete _ wd d c (wt ++ wo) HD HC). apply C39_time_partial. exists wt, wo, t, o. auto.
  - intros HN H. apply split_date_time_sound in H. destruct H as (wd & c & wt & -> & HC & HD & HL & HT). destruct (date_sound wd HD) as [d Hd].
    { intros HI. apply in_split in HI. destruct HI as (l1 & l2 & ->). destruct (HN l1 (l2 ++ [c] ++ wt)) as [HK _]; [rewrite <- app_assoc; reflexivity|]. rewrite app_length in HL. cbn [List.length] in HL. lia. }
    apply C39_time_partial in HT; [destruct HT as (w1 & wo & t & o & -> & Ht & Ho); exists ((d, t), o), (wd ++ [c] ++ w1), wo; split; [rewrite <- !app_assoc; reflexivity|]; split; [exists wd, c, w1; auto|exact Ho]|].
    intros a b ->. destruct (HN (wd ++ [c] ++ a) b) as [HK HB]; [rewrite <- !app_assoc; reflexivity|]. rewrite !app_length, HL in HK. cbn [List.length] in HK. split; [lia|exact HB].
Qed.
Print Assumptions C39_date_time_partial.

(** ** JSON pointers *)
Lemma pointer_loop_ok : forall n s, (List.length s <= n)%nat -> (pointer_loop s = true <-> exists t l, Forall reference_token (t :: l) /\ s = t ++ concat (map (fun t => 47 :: t) l)).
Proof.
  induction n as [|n IH]; intros s HL.
  - destruct s; [|cbn in HL; lia]. split; [intros _; exists [], []; split; [repeat constructor|reflexivity]|reflexivity].
  - destruct s as [|c s]; [split; [intros _; exists [], []; split; [repeat constructor|reflexivity]|reflexivity]|]. cbn [pointer_loop]. cbn [List.length] in HL. destruct (N.eqb_spec c 126) as [-> |HC].
    + destruct s as [|d s].
      * split; [discriminate|]. intros (t & l & HF & HE). inversion HF as [|? ? HT HF']; subst. inversion HT as [|x r A B C|r A|r A]; subst; cbn [app] in HE; [destruct l as [|x l]; cbn in HE; [discriminate|injection HE as HE _; discriminate]|injection HE as HE _; congruence|discriminate|discriminate].
      * cbn [List.length] in HL. rewrite andb_true_iff, orb_true_iff, !N.eqb_eq, (IH s) by lia. split.
        -- intros [[-> | ->] (t & l & HF & ->)]; inversion HF as [|? ? HT HF']; subst; [exists (126 :: 48 :: t), l|exists (126 :: 49 :: t), l]; (split; [constructor; [constructor; exact HT|exact HF']|reflexivity]).
        -- intros (t & l & HF & HE). inversion HF as [|? ? HT HF']; subst. inversion HT as [|x r A B C|r A|r A]; subst; cbn [app] in HE.
           ++ destruct l as [|x l]; cbn in HE; [discriminate|injection HE as HE _; discriminate].
           ++ injection HE as HE _. congruence.
           ++ injection HE as -> ->. split; [auto|]. exists r, l. split; [constructor; assumption|reflexivity].
           ++ injection HE as -> ->. split; [auto|]. exists r, l. split; [constructor; assumption|reflexivity].
    + rewrite (IH s) by lia. split.
      * intros (t & l & HF & ->). inversion HF as [|? ? HT HF']; subst. destruct (N.eq_dec c 47) as [-> |H47].
        -- exists [], (t :: l). split; [constructor; [constructor|exact HF]|reflexivity].
        -- exists (c :: t), l. split; [constructor; [constructor; assumption|exact HF']|reflexivity].
      * intros (t & l & HF & HE). inversion HF as [|? ? HT HF']; subst. inversion HT as [|x r A B C|r A|r A]; subst; cbn [app] in HE.
        -- destruct l as [|x l]; cbn in HE; [discriminate|]. injection HE as _ ->. exists x, l. auto.
        -- injection HE as -> ->. exists r, l. split; [constructor; assumption|reflexivity].
        -- injection HE as -> _. congruence.
        -- injection HE as -> _. congruence.
Qed.
(** Exactly the JSON pointers are accepted. *)
Theorem C39_json_pointer : forall s, format_json_pointer s = true <-> json_pointer s.
Proof.
  intros [|c s]; cbn [format_json_pointer].
  - split; [intros _; exists []; split; [constructor|reflexivity]|reflexivity].
  - rewrite andb_true_iff, N.eqb_eq, (pointer_loop_ok (List.length s) s (le_n _)). split.
    + intros (-> & t & l & HF & ->). exists (t :: l). auto.
    + intros ([|t l] & HF & HE); cbn in HE; [discriminate|]. injection HE as -> ->. split; [reflexivity|]. exists t, l. auto.
Qed.
Print Assumptions C39_json_pointer.
Example C39_json_pointer_example : format_json_pointer (lit "/a~1b//m~0n") = true /\ format_json_pointer (lit "/a~2") = false /\ format_json_pointer (lit "a") = false.
Proof. repeat split. Qed.

(** ** URI references *)
Lemma hex_iff c : is_hex c = true <-> hexdig c. Proof. unfold is_hex, hexdig, digit_c, in_range. lia. Qed.
Lemma uri_char_iff c : is_alnum c || existsb (N.eqb c) uri_punctuation = true <-> unreserved c \/ sub_delim c \/ In c (lit ":@/").
Proof.
  unfold is_alnum, in_range, unreserved, sub_delim, alpha, digit_c. cbn. split; intros H.
  - repeat (rewrite ?orb_true_iff, ?andb_true_iff, ?N.leb_le, ?N.eqb_eq in H). intuition (subst; lia).
  - repeat (rewrite ?orb_true_iff, ?andb_true_iff, ?N.leb_le, ?N.eqb_eq). intuition (subst; lia).
Qed.
Lemma uri_component_iff : forall n s, (List.length s <= n)%nat -> (uri_component s = true <-> pchars (lit ":@/") s).
Proof.
  assert (NP : ~ (unreserved 37 \/ sub_delim 37 \/ In 37 (lit ":@/"))) by (unfold unreserved, sub_delim, alpha, digit_c; cbn; lia).
  induction n as [|n IH]; intros s HL; (destruct s as [|c s]; [split; [intros _; constructor|reflexivity]|]); [cbn in HL; lia|]. cbn [uri_component]. cbn [List.length] in HL. destruct (N.eqb_spec c 37) as [-> |HC].
  - destruct s as [|h1 [|h2 s]]; try (split; [discriminate|]; intros H; inversion H; subst; contradiction). cbn [List.length] in HL. rewrite !andb_true_iff, !hex_iff, (IH s) by lia. split.
    + intros [[A B] C]. constructor; assumption.
    + intros H. inversion H; subst; [contradiction|]. auto.
  - rewrite andb_true_iff, uri_char_iff, (IH s) by lia. split; [intros [A B]; constructor; assumption|]. intros H. inversion H; subst; [auto|congruence].
Qed.
Lemma pchars_app e a b : pchars e a -> pchars e b -> pchars e (a ++ b).
Proof. intros Ha Hb. induction Ha; [exact Hb|constructor; assumption|apply PC_octet; assumption]. Qed.
Lemma pchars_mono e1 e2 s : (forall c, In c e1 -> In c e2) -> pchars e1 s -> pchars e2 s.
Proof. intros H Hs. induction Hs as [|c r HC _ IH|h1 h2 r A B _ IH]; [constructor|constructor; [intuition|exact IH]|apply PC_octet; assumption]. Qed.
Lemma pchars_chars e s : pchars e s -> Forall (fun c => c = 37 \/ unreserved c \/ sub_delim c \/ In c e) s.
Proof.
  intros H. induction H as [|c r HC _ IH|h1 h2 r A B _ IH]; [constructor|constructor; [right; exact HC|exact IH]|]. assert (HX : forall h, hexdig h -> unreserved h) by (intros h; unfold hexdig, unreserved, alpha, digit_c; lia). constructor; [left; reflexivity|]. constructor; [right; left; exact (HX _ A)|]. constructor; [right; left; exact (HX _ B)|exact IH].
Qed.
Lemma split_once_eq sep s : let (a, b) := split_once sep s in ~ In sep a /\ s = a ++ match b with Some b => sep :: b | None => [] end.
Proof.
  unfold split_once. assert (HT : ~ In sep (take_while (fun c => negb (N.eqb c sep)) s)). { intros HI. pose proof (take_while_all (fun c => negb (N.eqb c sep)) s) as H. rewrite forallb_forall in H. specialize (H sep HI). rewrite N.eqb_refl in H. discriminate. }
  pose proof (take_drop_while (fun c => negb (N.eqb c sep)) s) as HE. destruct (drop_while (fun c => negb (N.eqb c sep)) s) as [|c r] eqn:ED.
  - rewrite app_nil_r in *. rewrite HE in HT. split; [exact HT|reflexivity].
  - split; [exact HT|]. pose proof (drop_while_head (fun c => negb (N.eqb c sep)) s) as HH. rewrite ED in HH. apply negb_false_iff in HH. apply N.eqb_eq in HH. subst c. symmetry. exact HE.
Qed.
Lemma split_once_uniq sep a b : ~ In sep a -> split_once sep (a ++ match b with Some b => sep :: b | None => [] end) = (a, b).
Proof.
  intros HN. unfold split_once. assert (HTD : take_while (fun c => negb (N.eqb c sep)) (a ++ match b with Some b => sep :: b | None => [] end) = a /\ drop_while (fun c => negb (N.eqb c sep)) (a ++ match b with Some b => sep :: b | None => [] end) = match b with Some b => sep :: b | None => [] end).
  { induction a as [|x a IH]; cbn [app take_while drop_while]; [destruct b; cbn [take_while drop_while]; [rewrite N.eqb_refl; auto|auto]|]. destruct (N.eqb_spec x sep) as [-> |]; [exfalso; apply HN; left; reflexivity|]. cbn [negb]. destruct IH as [-> ->]; [intros HI; apply HN; right; exact HI|auto]. }
  destruct HTD as [-> ->]. destruct b; [reflexivity|rewrite app_nil_r; reflexivity].
Qed.
(** What is accepted as a relative reference, exactly: a path, a query and a fragment that each consist of path characters and slashes. *)
Theorem C39_relative_exact : forall s, is_relative_reference s = true <-> exists p q f, s = p ++ q ++ f /\ pchars (lit ":@/") p /\ optional 63 (pchars (lit ":@/")) q /\ optional 35 (pchars (lit ":@/")) f.
Proof.
  assert (NC : forall s c, pchars (lit ":@/") s -> c = 63 \/ c = 35 -> ~ In c s).
  { intros s c H HC HI. apply pchars_chars in H. rewrite Forall_forall in H. specialize (H c HI). unfold unreserved, sub_delim, alpha, digit_c in H. cbn in H. lia. }
  intros s. transitivity ((let (wf, f) := split_once 35 s in let (p, q) := split_once 63 wf in uri_component p && match q with Some q => uri_component q | None => true end && match f with Some f => uri_component f | None => true end) = true); [destruct s; [cbn; tauto|reflexivity]|].
  split.
  - pose proof (split_once_eq 35 s) as H1. destruct (split_once 35 s) as [wf f]. destruct H1 as [_ ->]. pose proof (split_once_eq 63 wf) as H2. destruct (split_once 63 wf) as [p q]. destruct H2 as [_ ->]. intros H. rewrite !andb_true_iff in H. destruct H as [[A B] C].
    exists p, (match q with Some b => 63 :: b | None => [] end), (match f with Some b => 35 :: b | None => [] end). split; [rewrite <- app_assoc; reflexivity|]. split; [apply (uri_component_iff _ _ (le_n _)); exact A|].
    split; [destruct q; [right; eexists; split; [reflexivity|apply (uri_component_iff _ _ (le_n _)); exact B]|left; reflexivity]|destruct f; [right; eexists; split; [reflexivity|apply (uri_component_iff _ _ (le_n _)); exact C]|left; reflexivity]].
  - intros (p & q & f & -> & Hp & Hq & Hf).
    assert (FQ : exists oq, q = match oq with Some b => 63 :: b | None => [] end /\ match oq with Some b => pchars (lit ":@/") b | None => True end) by (destruct Hq as [-> |(r & -> & Hr)]; [exists None|exists (Some r)]; auto).
    assert (FF : exists o, f = match o with Some b => 35 :: b | None => [] end /\ match o with Some b => pchars (lit ":@/") b | None => True end) by (destruct Hf as [-> |(r & -> & Hr)]; [exists None|exists (Some r)]; auto).
    destruct FQ as (oq & -> & Hoq). destruct FF as (o & -> & Ho). rewrite app_assoc. rewrite split_once_uniq; [|intros HI; apply in_app_or in HI; destruct HI as [HI|HI]; [exact (NC p 35 Hp (or_intror eq_refl) HI)|destruct oq; [|exact HI]; destruct HI as [HI|HI]; [discriminate|exact (NC _ 35 Hoq (or_intror eq_refl) HI)]]].
    rewrite split_once_uniq; [|intros HI; exact (NC p 63 Hp (or_introl eq_refl) HI)]. rewrite !andb_true_iff. split; [split; [apply (uri_component_iff _ _ (le_n _)); exact Hp|destruct oq; [apply (uri_component_iff _ _ (le_n _)); exact Hoq|reflexivity]]|destruct o; [apply (uri_component_iff _ _ (le_n _)); exact Ho|reflexivity]].
Qed.
Print Assumptions C39_relative_exact.
Lemma segments s : pchars (lit ":@/") s -> exists t l, Forall segment (t :: l) /\ s = t ++ concat (map (fun t => 47 :: t) l).
Proof.
  intros H. induction H as [|c r HC _ (t & l & HF & ->)|h1 h2 r A B _ (t & l & HF & ->)].
  - exists [], []. split; [repeat constructor|reflexivity].
  - inversion HF as [|? ? HT HF']; subst. destruct (N.eq_dec c 47) as [-> | H47].
    + exists [], (t :: l). split; [constructor; [constructor|exact HF]|reflexivity].
    + exists (c :: t), l. split; [constructor; [|exact HF']|reflexivity]. constructor; [|exact HT]. destruct HC as [HC|[HC|HC]]; auto. right. right. cbn in HC |- *. intuition congruence.
  - inversion HF as [|? ? HT HF']; subst. exists (37 :: h1 :: h2 :: t), l. split; [constructor; [apply PC_octet; assumption|exact HF']|reflexivity].
Qed.
Lemma pchars_strict e s : pchars e s -> ~ In 58 s -> (forall c, In c e -> c = 58 \/ c = 64) -> pchars (lit "@") s.
Proof.
  intros H HN HE. induction H as [|c r HC _ IH|h1 h2 r A B _ IH]; [constructor| |].
  - constructor; [|apply IH; intros HI; apply HN; right; exact HI]. destruct HC as [HC|[HC|HC]]; auto. right. right. destruct (HE c HC) as [-> | ->]; [exfalso; apply HN; left; reflexivity|left; reflexivity].
  - apply PC_octet; [assumption|assumption|apply IH; intros HI; apply HN; right; right; right; exact HI].
Qed.
Lemma pchars_no e s c : pchars e s -> c = 63 \/ c = 35 \/ c = 47 -> ~ In c e -> ~ In c s.
Proof. intros H HC HE HI. apply pchars_chars in H. rewrite Forall_forall in H. specialize (H c HI). destruct H as [H|[H|[H|H]]]; [lia| | |exact (HE H)]; unfold unreserved, sub_delim, alpha, digit_c in H; cbn in H; lia. Qed.
(** no colon in the first segment *)
Definition no_colon_first (s : str) : Prop := forall a b, s = a ++ [58] ++ b -> In 47 a \/ In 63 a \/ In 35 a.
Lemma path_relative p : pchars (lit ":@/") p -> no_colon_first p -> relative_part p.
Proof.
  intros HP HN. destruct (segments p HP) as (t & l & HF & ->). pose proof (Forall_inv HF) as HT. pose proof (Forall_inv_tail HF) as HF'. destruct t as [|c t].
  - destruct l as [|s l]; [apply RP_empty|]. pose proof (Forall_inv HF') as HS. pose proof (Forall_inv_tail HF') as HF''. destruct s as [|x s].
    + destruct l as [|s2 l]; [apply RP_root|]. pose proof (Forall_inv HF'') as HS2. pose proof (Forall_inv_tail HF'') as HF3. cbn [map concat app]. apply (RP_network s2); [|exists l; auto]. apply Forall_forall. intros z Hz. repeat split; intros ->.
      * apply (pchars_no _ _ 47 HS2) in Hz; auto. cbn. lia.
      * apply (pchars_no _ _ 63 HS2) in Hz; auto. cbn. lia.
      * apply (pchars_no _ _ 35 HS2) in Hz; auto. cbn. lia.
    + cbn [map concat app]. apply (RP_absolute (x :: s)); [split; [exact HS|discriminate]|exists l; auto].
  - apply RP_noscheme; [|exists l; auto]. split; [|discriminate]. apply (pchars_strict (lit ":@")); [exact HT| |cbn; intuition lia]. intros HI. apply in_split in HI. destruct HI as (a & b & HE).
    assert (HI : In 47 a \/ In 63 a \/ In 35 a) by (apply (HN a (b ++ concat (map (fun t => 47 :: t) l))); rewrite HE, <- app_assoc; reflexivity).
    assert (HS : forall z, In z a -> In z (c :: t)) by (intros z Hz; rewrite HE; apply in_or_app; left; exact Hz). destruct HI as [HI|[HI|HI]]; apply HS in HI; revert HI; (apply (pchars_no _ _ _ HT); [auto|cbn; lia]).
Qed.
Lemma relative_pchars p : relative_part p -> (forall a q, authority a -> path_abempty q -> p = [47; 47] ++ a ++ q -> pchars (lit ":@") a) -> pchars (lit ":@/") p.
Proof.
  assert (AB : forall q, path_abempty q -> pchars (lit ":@/") q).
  { intros q (l & HF & ->). induction HF as [|s l HS _ IH]; [constructor|]. cbn [map concat]. cbn [app]. constructor; [right; right; cbn; auto|]. apply pchars_app; [|exact IH]. apply (pchars_mono (lit ":@")); [cbn; intuition|exact HS]. }
  assert (SL : forall q, pchars (lit ":@/") q -> pchars (lit ":@/") (47 :: q)) by (intros q Hq; constructor; [right; right; cbn; auto|exact Hq]).
  intros H HA. inversion H as [a q Ha Hq|s q [Hs _] Hq| |s q [Hs _] Hq|]; subst; cbn [app].
  - apply SL, SL, pchars_app; [|exact (AB q Hq)]. apply (pchars_mono (lit ":@")); [cbn; intuition|]. exact (HA a q Ha Hq eq_refl).
  - apply SL, pchars_app; [|exact (AB q Hq)]. apply (pchars_mono (lit ":@")); [cbn; intuition|exact Hs].
  - apply SL. constructor.
  - apply pchars_app; [|exact (AB q Hq)]. apply (pchars_mono (lit "@")); [cbn; intuition|exact Hs].
  - constructor.
Qed.
(** Every URI is accepted. A relative reference is accepted unless a question mark is in its query or fragment or other characters than
    those of a path are in its authority. What is accepted is a URI or a relative reference, unless there is a colon in its first segment. *)
Theorem C39_uri_reference_partial : forall uri s,
  (uri s = true -> format_uri_reference uri s = true)
  /\ (forall p q f, s = p ++ q ++ f -> relative_part p -> optional 63 (pchars (lit ":@/")) q -> optional 35 (pchars (lit ":@/")) f ->
      (forall a r, authority a -> path_abempty r -> p = [47; 47] ++ a ++ r -> pchars (lit ":@") a) -> format_uri_reference uri s = true)
  /\ (format_uri_reference uri s = true -> no_colon_first s -> uri s = true \/ relative_ref s).
Proof.
  intros uri s. unfold format_uri_reference. split; [intros ->; reflexivity|]. split.
  - intros p q f -> HP HQ HF HA. apply orb_true_iff. right. apply C39_relative_exact. exists p, q, f. split; [reflexivity|]. split; [exact (relative_pchars p HP HA)|auto].
  - intros H HN. apply orb_true_iff in H. destruct H as [H|H]; [left; exact H|right]. apply C39_relative_exact in H. destruct H as (p & q & f & -> & HP & HQ & HF).
    assert (MO : forall c w, optional c (pchars (lit ":@/")) w -> optional c query_text w). { intros c w [-> |(r & -> & Hr)]; [left; reflexivity|right]. exists r. split; [reflexivity|]. apply (pchars_mono (lit ":@/")); [cbn; intuition|exact Hr]. }
    exists p, q, f. split; [reflexivity|]. split; [|auto]. apply path_relative; [exact HP|]. intros a b ->. apply (HN a (b ++ q ++ f)). rewrite <- !app_assoc. reflexivity.
Qed.
Print Assumptions C39_uri_reference_partial.
Lemma pchars_ab : segment (lit "a") /\ segment_nz_nc (lit "a") /\ query_text (lit "b?c").
Proof. repeat split; try discriminate; repeat (constructor; [unfold unreserved, sub_delim, alpha, digit_c; cbn; lia|]); constructor. Qed.
(** [a?b?c] is a relative reference and is rejected by any parser of URIs that wants a colon; [1:b] is neither a URI (it has no scheme)
    nor a relative reference and is accepted. *)
Theorem C39_uri_reference_refuted : forall uri, (forall s, uri s = true -> In 58 s) ->
  (relative_ref (lit "a?b?c") /\ format_uri_reference uri (lit "a?b?c") = false)
  /\ (format_uri_reference uri (lit "1:b") = true /\ ~ has_scheme (lit "1:b") /\ ~ relative_ref (lit "1:b")).
Proof.
  intros uri HU. split.
  - split.
    + exists (lit "a"), (63 :: lit "b?c"), []. split; [reflexivity|]. split; [|split; [right; exists (lit "b?c"); split; [reflexivity|apply pchars_ab]|left; reflexivity]].
      rewrite <- (app_nil_r (lit "a")). apply RP_noscheme; [apply pchars_ab|exists []; split; [constructor|reflexivity]].
    + unfold format_uri_reference. destruct (uri (lit "a?b?c")) eqn:E; [|reflexivity]. apply HU in E. cbn in E. lia.
  - split; [unfold format_uri_reference; apply orb_true_iff; right; reflexivity|]. split.
    + intros (c & r & t & HE & HA). cbn in HE. injection HE as <- _. unfold alpha in HA. lia.
    + intros (p & q & f & HE & HP & HQ & HF). change (lit "1:b") with [49; 58; 98] in HE.
      assert (NS : forall c, In c [49; 58; 98] -> c <> 63 /\ c <> 35 /\ c <> 47) by (intros c Hc; cbn in Hc; lia).
      assert (Q0 : q = []). { destruct HQ as [-> |(r & -> & _)]; [reflexivity|]. exfalso. destruct (NS 63) as (K & _); [rewrite HE; apply in_or_app; right; left; reflexivity|exact (K eq_refl)]. }
      assert (F0 : f = []). { destruct HF as [-> |(r & -> & _)]; [reflexivity|]. exfalso. destruct (NS 35) as (_ & K & _); [rewrite HE; apply in_or_app; right; apply in_or_app; right; left; reflexivity|exact (K eq_refl)]. }
      subst. rewrite !app_nil_r in HE. subst p. inversion HP as [a r _ _ E1|s r _ _ E1|E1|s r [Hs Hne] Hr E1|E1]; subst.
      destruct Hr as ([|x l] & _ & ->).
      * cbn in E1. rewrite app_nil_r in E1. subst s. inversion Hs as [|c r HC HR| ]; subst. inversion HR as [|c r' HC' HR'| ]; subst. unfold unreserved, sub_delim, alpha, digit_c in HC'. cbn in HC'. lia.
      * destruct (NS 47) as (_ & _ & K); [rewrite <- E1; apply in_or_app; right; left; reflexivity|exact (K eq_refl)].
Qed.
Print Assumptions C39_uri_reference_refuted.
Example C39_uri_reference_example : format_uri_reference (fun _ => false) (lit "../a%20b/c:d?x=1#frag") = true /\ no_colon_first (lit "../a:b") /\ format_uri_reference (fun _ => false) (lit "a b") = false /\ format_uri_reference (fun _ => false) (lit "a%2") = false.
Proof.
  split; [reflexivity|]. split; [|split; reflexivity]. intros a b HE. left. change (lit "../a:b") with [46; 46; 47; 97; 58; 98] in HE. do 3 (destruct a as [|? a]; [discriminate|]; injection HE as <- HE). right. right. left. reflexivity.
Qed.
Example C39_date_time_example :
  format_date_time (lit "2024-02-29T23:59:60Z") = true /\ format_date_time (lit "2023-02-29T00:00:00Z") = false
  /\ format_date (lit "2000-12-31") = true /\ format_local_time (lit "12:30:00.5") = true /\ format_local_date_time (lit "2024-01-01 00:00:00") = true /\ format_local_date_time (lit "2024-01-01T00:00:00Z") = false.
Proof. repeat split. Qed.
