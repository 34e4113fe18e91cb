(** Date-time tokens: their conversion and their formatting. *)
From Coq Require Import String Ascii List NArith ZArith Bool Arith Lia ZifyBool.
From Verif Require Import Base SyntaxKind TextModel Regex LexerModel LexerSpec LexerProofs TomlGrammar LexScalars LexSound LexNumbers
  TomlTextModel DateTimeModel NumberSpec DateTimeSpec DateTimeProofs.
Import ListNotations.
Open Scope N_scope.
Open Scope list_scope.

Definition ascii (w : str) : Prop := Forall (fun c => c < 128) w.
Lemma ascii_len w : ascii w -> len_bytes w = N.of_nat (length w).
Proof. induction 1 as [|c w Hc Hw IH]; [reflexivity|]. cbn [len_bytes length]. unfold len_utf8. replace (c <? 128) with true by lia. rewrite IH. lia. Qed.

(** * The seconds that may be missing *)
Definition norm_delim (c : char) : char := if N.eqb c 84 || N.eqb c 116 then 32 else c.

Lemma loop_copy v : forall s i, 16 < i -> datetime_str_loop v i s = Some s.
Proof.
  induction s as [|c s IH]; intros i Hi; [reflexivity|]. cbn [datetime_str_loop]. rewrite IH by (unfold len_utf8; repeat destruct (_ <? _); lia).
  replace (N.eqb i 10) with false by lia. replace (N.eqb i 16) with false by lia. reflexivity.
Qed.
Lemma loop_prefix v : forall a b i, ascii a -> (forall j, i <= j < i + N.of_nat (length a) -> j <> 10 /\ j <> 16) ->
  datetime_str_loop v i (a ++ b) = option_map (app a) (datetime_str_loop v (i + N.of_nat (length a)) b).
Proof.
  induction a as [|c a IH]; intros b i HA HI.
  - cbn [app length]. replace (i + N.of_nat 0) with i by lia. destruct (datetime_str_loop v i b); reflexivity.
  - inversion HA as [|? ? H1 H2]; subst. cbn [app datetime_str_loop]. unfold len_utf8. replace (c <? 128) with true by lia.
    destruct (HI i) as [K1 K2]; [cbn [length]; lia|]. replace (N.eqb i 10) with false by lia. replace (N.eqb i 16) with false by lia. cbn [andb].
    rewrite IH; auto.
    + replace (i + 1 + N.of_nat (length a)) with (i + N.of_nat (length (c :: a))) by (cbn [length]; lia).
      destruct (datetime_str_loop v _ b); reflexivity.
    + intros j Hj. apply HI. cbn [length]. lia.
Qed.
Definition starts_colon (s : str) : bool := match s with c :: _ => N.eqb c 58 | [] => false end.
Lemma make_datetime_str_spec v d10 c t5 rest : ascii d10 -> ascii t5 -> c < 128 -> length d10 = 10%nat -> length t5 = 5%nat ->
  make_datetime_str v (d10 ++ [c] ++ t5 ++ rest) =
  if starts_colon rest then Some (d10 ++ [norm_delim c] ++ t5 ++ rest)
  else if is_v1_0_0 v then None else Some (d10 ++ [norm_delim c] ++ t5 ++ lit ":00" ++ rest).
Proof.
  intros Hd Ht Hc Ld Lt. unfold make_datetime_str. rewrite loop_prefix by (auto; intros; lia). rewrite Ld. change (0 + N.of_nat 10) with 10.
  cbn [app datetime_str_loop]. replace (len_utf8 c) with 1 by (unfold len_utf8; replace (c <? 128) with true by lia; reflexivity). change (10 + 1) with 11.
  rewrite loop_prefix by (auto; intros; lia). rewrite Lt. change (11 + N.of_nat 5) with 16.
  change (N.eqb 10 10) with true. change (N.eqb 10 16) with false. cbn [andb].
  assert (HN : forall r, (if N.eqb c 84 || N.eqb c 116 then option_map (cons 32) r else option_map (cons c) r) = option_map (cons (norm_delim c)) r).
  { intros r. unfold norm_delim. destruct (N.eqb c 84 || N.eqb c 116); reflexivity. }
  rewrite HN.
  assert (HND : norm_delim c < 128) by (unfold norm_delim; destruct (N.eqb c 84 || N.eqb c 116); lia).
  assert (L16 : len_bytes (d10 ++ norm_delim c :: t5) = 16).
  { rewrite ascii_len; [rewrite app_length; cbn [length]; lia|]. apply Forall_app. split; auto. }
  destruct rest as [|x rest].
  - cbn [datetime_str_loop option_map starts_colon]. rewrite app_nil_r, L16. change (N.eqb 16 16) with true. destruct (is_v1_0_0 v); [reflexivity|].
    rewrite app_nil_r. rewrite <- app_assoc. reflexivity.
  - cbn [datetime_str_loop starts_colon]. rewrite loop_copy by (unfold len_utf8; repeat destruct (_ <? _); lia).
    change (N.eqb 16 10) with false. change (N.eqb 16 16) with true. cbn [andb].
    assert (HX : forall z, N.eqb (len_bytes (d10 ++ norm_delim c :: t5 ++ x :: z)) 16 = false).
    { intros z. replace (d10 ++ norm_delim c :: t5 ++ x :: z) with ((d10 ++ norm_delim c :: t5) ++ x :: z) by (rewrite <- app_assoc; reflexivity).
      rewrite len_bytes_app, L16. cbn [len_bytes]. assert (1 <= len_utf8 x) by (unfold len_utf8; repeat destruct (_ <? _); lia). lia. }
    destruct (N.eqb_spec x 58) as [->|Hx]; cbn [negb].
    + cbn [option_map]. rewrite HX. reflexivity.
    + destruct (is_v1_0_0 v); [reflexivity|]. cbn [option_map].
      assert (HY : N.eqb (len_bytes (d10 ++ norm_delim c :: t5 ++ lit ":00" ++ x :: rest)) 16 = false).
      { replace (d10 ++ norm_delim c :: t5 ++ lit ":00" ++ x :: rest) with ((d10 ++ norm_delim c :: t5) ++ lit ":00" ++ x :: rest) by (rewrite <- app_assoc; reflexivity).
        rewrite len_bytes_app, L16, len_bytes_app. change (len_bytes (lit ":00")) with 3. lia. }
      cbn [app] in *. rewrite HY. reflexivity.
Qed.

(** * The shape of date-time tokens *)
Lemma rep_length k n w : lang (RRep n (RCls k)) w -> length w = n /\ Forall (fun c => k c = true) w.
Proof.
  revert w; induction n as [|n IH]; intros w H; cbn [RRep] in H.
  - inversion H; subst. auto.
  - apply nonempty_seq_cls in H as (x & u & -> & Hx & Hu). destruct (IH _ Hu) as [<- HF]. split; auto.
Qed.
Lemma digit_ascii w : Forall (fun c => k_digit c = true) w -> ascii w.
Proof. intros H. eapply Forall_impl; [|exact H]. unfold k_digit, in_range. cbn. intros. lia. Qed.

Lemma date_shape w : lang r_date w -> length w = 10%nat /\ ascii w.
Proof.
  unfold r_date. intros H. apply lang_seq_inv in H as (a & w1 & -> & Ha & H). apply nonempty_seq_chr in H as (w2 & -> & H).
  apply lang_seq_inv in H as (b & w3 & -> & Hb & H). apply nonempty_seq_chr in H as (d & -> & Hd).
  apply rep_length in Ha as [La Fa]. apply rep_length in Hb as [Lb Fb]. apply rep_length in Hd as [Ld Fd].
  split; [rewrite app_length; cbn [length]; rewrite app_length; cbn [length]; lia|].
  apply Forall_app; split; [apply digit_ascii; auto|]. constructor; [lia|]. apply Forall_app; split; [apply digit_ascii; auto|]. constructor; [lia|]. apply digit_ascii; auto.
Qed.
Lemma time_shape w : lang r_time w -> exists t5 r, w = t5 ++ r /\ length t5 = 5%nat /\ ascii t5.
Proof.
  unfold r_time. intros H. apply lang_seq_inv in H as (a & w1 & -> & Ha & H). apply nonempty_seq_chr in H as (w2 & -> & H).
  apply lang_seq_inv in H as (b & w3 & -> & Hb & H). apply rep_length in Ha as [La Fa]. apply rep_length in Hb as [Lb Fb].
  exists (a ++ 58 :: b), w3. split; [rewrite <- app_assoc; reflexivity|]. split; [rewrite app_length; cbn [length]; lia|].
  apply Forall_app; split; [apply digit_ascii; auto|]. constructor; [lia|]. apply digit_ascii; auto.
Qed.
Definition dt_kind (k : kind) : Prop := k = OFFSET_DATE_TIME \/ k = LOCAL_DATE_TIME.
Lemma dt_shape k w : dt_kind k -> text_ok k w -> exists d10 c t5 rest, w = d10 ++ [c] ++ t5 ++ rest /\
  length d10 = 10%nat /\ length t5 = 5%nat /\ ascii d10 /\ ascii t5 /\ delim c.
Proof.
  intros HK H.
  assert (K : exists d c t, w = d ++ [c] ++ t /\ lang r_date d /\ k_t_space c = true /\ exists t1 t2, t = t1 ++ t2 /\ lang r_time t1).
  { destruct HK as [->| ->]; cbn [text_ok] in H.
    - apply lang_seq_inv in H as (d & w1 & -> & Hd & H). apply nonempty_seq_cls in H as (c & w2 & -> & Hc & H).
      apply lang_seq_inv in H as (t & o & -> & Ht & Ho). exists d, c, (t ++ o). repeat split; eauto.
    - apply lang_seq_inv in H as (d & w1 & -> & Hd & H). apply nonempty_seq_cls in H as (c & w2 & -> & Hc & H). exists d, c, w2. repeat split; auto. exists w2, []. rewrite app_nil_r. auto. }
  destruct K as (d & c & t & -> & Hd & Hc & t1 & t2 & -> & Ht). apply date_shape in Hd as [Ld Ad]. apply time_shape in Ht as (t5 & r & -> & Lt & At).
  exists d, c, t5, (r ++ t2). rewrite <- !app_assoc. repeat split; auto. unfold k_t_space in Hc. unfold delim. lia.
Qed.

(** * Conversion *)
Lemma digits_ascii n v w : digits_are n v w -> ascii w.
Proof. intros (_ & H & _). eapply Forall_impl; [|exact H]. cbn. intros. lia. Qed.
Lemma toml_date_len w d : toml_local_date w d -> length w = 10%nat /\ ascii w.
Proof.
  intros [(a & b & c & -> & H1 & H2 & H3) _]. split.
  - destruct H1 as (L1 & _), H2 as (L2 & _), H3 as (L3 & _). rewrite !app_length. cbn [length]. lia.
  - apply Forall_app. split; [eapply digits_ascii; eauto|]. constructor; [lia|]. apply Forall_app. split; [eapply digits_ascii; eauto|]. constructor; [lia|eapply digits_ascii; eauto].
Qed.
Lemma app_len_inj {A} (a b : list A) r s : a ++ r = b ++ s -> length a = length b -> a = b /\ r = s.
Proof.
  revert b; induction a as [|x a IH]; intros [|y b] E HL; try discriminate; auto. simpl in *. inversion E; subst. destruct (IH b H1); [lia|]. subst; auto.
Qed.
Lemma time_head b w t : time_text b w t -> exists t5 ws, w = t5 ++ ws /\ length t5 = 5%nat /\ ascii t5 /\ seconds_text b ws (second t) (nanosecond t) /\
  forall b' ws' s' n', seconds_text b' ws' s' n' -> time_text b' (t5 ++ ws') (MkTime (hour t) (minute t) s' n').
Proof.
  intros (wh & wm & ws & -> & Hh & Hm & Hs). exists (wh ++ [58] ++ wm), ws. split; [rewrite <- !app_assoc; reflexivity|].
  split; [destruct Hh as (L1 & _), Hm as (L2 & _); rewrite !app_length; cbn [length]; lia|].
  split; [apply Forall_app; split; [eapply digits_ascii; eauto|]; constructor; [lia|eapply digits_ascii; eauto]|]. split; auto.
  intros b' ws' s' n' H. exists wh, wm, ws'. cbn [hour minute second nanosecond]. split; [rewrite <- !app_assoc; reflexivity|]. auto.
Qed.
Lemma seconds_starts b ws s n r : seconds_text b ws s n -> time_stop r -> starts_colon (ws ++ r) = b.
Proof.
  intros H HR. destruct H; cbn [app starts_colon]; try reflexivity. destruct r as [|c r]; [reflexivity|]. destruct HR as (HR & _). cbn. lia.
Qed.
Lemma zeros_seconds : seconds_text true (lit ":00") 0 0.
Proof. apply (ST_whole [48; 48]). split; auto. split; [repeat constructor; lia|reflexivity]. Qed.

(** [tail] is the offset, or nothing. *)
Lemma make_of_toml v sec wd c t5 ws s n tail : ascii wd -> length wd = 10%nat -> delim c -> ascii t5 -> length t5 = 5%nat ->
  seconds_text sec ws s n -> time_stop tail -> (is_v1_0_0 v = true -> sec = true) ->
  make_datetime_str v (wd ++ [c] ++ (t5 ++ ws) ++ tail) =
    Some (wd ++ [32] ++ (t5 ++ (if sec then ws else lit ":00")) ++ tail).
Proof.
  intros A1 L1 HC A2 L2 HS HT HV. rewrite <- !app_assoc. rewrite make_datetime_str_spec; auto; [|destruct HC as [->|[->| ->]]; lia].
  rewrite (seconds_starts _ _ _ _ _ HS HT). replace (norm_delim c) with 32 by (destruct HC as [->|[->| ->]]; reflexivity).
  destruct sec; [reflexivity|]. destruct (is_v1_0_0 v); [specialize (HV eq_refl); discriminate|]. inversion HS; subst. reflexivity.
Qed.

Lemma local_dt_complete v sec w x : toml_local_date_time sec w x -> (is_v1_0_0 v = true -> sec = true) -> try_new_local_date_time v w = TROk x.
Proof.
  intros (wd & c & wt & -> & HC & HD & HT & HV) HS. destruct (time_head _ _ _ HT) as (t5 & ws & -> & L5 & A5 & Hs & Hre).
  destruct (toml_date_len _ _ HD) as [L10 A10]. unfold try_new_local_date_time.
  pose proof (make_of_toml v sec wd c t5 ws _ _ [] A10 L10 HC A5 L5 Hs I HS) as E. rewrite !app_nil_r in E. rewrite E. clear E.
  assert (K : local_date_time_from_str (wd ++ [32] ++ t5 ++ (if sec then ws else lit ":00")) = DTOk x); [|rewrite K; reflexivity].
  apply local_date_time_iff. exists true. exists wd, 32. eexists. split; [reflexivity|]. split; [right; right; reflexivity|]. split; auto. split; auto.
  destruct x as [d t]. cbn [fst snd] in *. destruct sec.
  - replace t with (MkTime (hour t) (minute t) (second t) (nanosecond t)) by (destruct t; reflexivity). apply Hre. exact Hs.
  - inversion Hs. replace t with (MkTime (hour t) (minute t) 0 0) by (destruct t; cbn in *; congruence). apply Hre. apply zeros_seconds.
Qed.
Lemma offset_dt_complete v sec w x : toml_offset_date_time sec w x -> (is_v1_0_0 v = true -> sec = true) -> try_new_offset_date_time v w = TROk x.
Proof.
  intros (w1 & wo & -> & (wd & c & wt & -> & HC & HD & HT & HV) & HO) HS. destruct (time_head _ _ _ HT) as (t5 & ws & -> & L5 & A5 & Hs & Hre).
  destruct (toml_date_len _ _ HD) as [L10 A10]. unfold try_new_offset_date_time.
  pose proof (make_of_toml v sec wd c t5 ws _ _ wo A10 L10 HC A5 L5 Hs (offset_stop _ _ HO) HS) as E. rewrite <- !app_assoc in *. rewrite E. clear E.
  assert (K : offset_date_time_from_str (wd ++ [32] ++ t5 ++ (if sec then ws else lit ":00") ++ wo) = DTOk x); [|rewrite K; reflexivity].
  apply offset_date_time_iff. exists true. exists (wd ++ [32] ++ t5 ++ (if sec then ws else lit ":00")), wo. split; [rewrite <- !app_assoc; reflexivity|]. split; auto.
  exists wd, 32. eexists. split; [reflexivity|]. split; [right; right; reflexivity|]. split; auto. split; auto.
  destruct x as [[d t] o]. cbn [fst snd] in *. destruct sec.
  - replace t with (MkTime (hour t) (minute t) (second t) (nanosecond t)) by (destruct t; reflexivity). apply Hre. exact Hs.
  - inversion Hs. replace t with (MkTime (hour t) (minute t) 0 0) by (destruct t; cbn in *; congruence). apply Hre. apply zeros_seconds.
Qed.

(** A fraction of a second without seconds: not TOML, but accepted by the conversion from v1.1.0 on. *)
Definition fraction_without_seconds (w : str) : Prop := exists p q, w = p ++ [46] ++ q /\ length p = 16%nat.

(** Undoing the insertion of [:00]. *)
Lemma drop_zeros b ws s n rest tail : seconds_text b ws s n -> time_stop tail -> ws ++ tail = lit ":00" ++ rest ->
  (ws = lit ":00" /\ tail = rest /\ s = 0 /\ n = 0) \/ (exists q, rest = 46 :: q).
Proof.
  intros H HT E. destruct H as [|w2 s Hs|w2 s wf f Hs Hne Hf].
  - exfalso. cbn [app] in E. subst tail. destruct HT as (HT & _). apply HT. reflexivity.
  - left. destruct Hs as (L & HF & ->). destruct w2 as [|a [|b [|]]]; try discriminate. inversion E; subst. auto.
  - right. destruct Hs as (L & HF & ->). destruct w2 as [|a [|b [|]]]; try discriminate. inversion E; subst. eexists. reflexivity.
Qed.

Lemma local_dt_sound v w x : text_ok LOCAL_DATE_TIME w -> try_new_local_date_time v w = TROk x ->
  (exists sec, toml_local_date_time sec w x /\ (is_v1_0_0 v = true -> sec = true)) \/ (is_v1_0_0 v = false /\ fraction_without_seconds w).
Proof.
  intros HT H. destruct (dt_shape LOCAL_DATE_TIME w (or_intror eq_refl) HT) as (d10 & c & t5 & rest & -> & L10 & L5 & A10 & A5 & HC).
  assert (HC' : c < 128) by (destruct HC as [->|[->| ->]]; lia).
  unfold try_new_local_date_time in H. rewrite (make_datetime_str_spec v d10 c t5 rest A10 A5 HC' L10 L5) in H.
  assert (HN : norm_delim c = 32) by (destruct HC as [->|[->| ->]]; reflexivity). rewrite HN in H.
  assert (HP : forall rest', (match local_date_time_from_str (d10 ++ [32] ++ t5 ++ rest') with DTOk a => TROk a | DTErr e => TRErr (DateTimeError e) end) = TROk x ->
     exists b wt, t5 ++ rest' = wt /\ toml_local_date d10 (fst x) /\ toml_local_time b wt (snd x)).
  { intros rest' K. destruct (local_date_time_from_str _) as [a|] eqn:E; [|discriminate]. inversion K; subst a. apply local_date_time_iff in E as (b & wd & c' & wt & E & HC2 & HD & HTm).
    destruct (toml_date_len _ _ HD) as [L _]. destruct (app_len_inj d10 wd _ _ E) as [-> E2]; [lia|]. inversion E2; subst. eauto. }
  destruct (starts_colon rest) eqn:ES.
  - apply HP in H as (b & wt & <- & HD & HTm). left. exists b. split; [exists d10, c, (t5 ++ rest); auto|].
    intros _. destruct HTm as [HTt _]. destruct (time_head _ _ _ HTt) as (t5' & ws & E & L5' & _ & Hs & _). destruct (app_len_inj t5 t5' _ _ E) as [-> ->]; [lia|].
    inversion Hs; subst; auto.
  - destruct (is_v1_0_0 v) eqn:EV; [discriminate|]. apply HP in H as (b & wt & <- & HD & HTm & HV).
    destruct (time_head _ _ _ HTm) as (t5' & ws & E & L5' & _ & Hs & Hre). destruct (app_len_inj t5 t5' _ _ E) as [-> E2]; [lia|].
    assert (E3 : ws ++ [] = lit ":00" ++ rest) by (rewrite app_nil_r; auto).
    destruct (drop_zeros _ _ _ _ rest [] Hs I E3) as [(E4 & <- & Z1 & Z2)|(q & ->)].
    + left. exists false. split; [|discriminate]. exists d10, c, (t5' ++ []). repeat split; auto; try apply HD; try apply HV.
      destruct x as [d t]. cbn [fst snd] in *. replace t with (MkTime (hour t) (minute t) 0 0) by (destruct t; cbn in *; congruence). apply Hre. constructor.
    + right. split; auto. exists (d10 ++ [c] ++ t5'), q. split; [rewrite <- !app_assoc; reflexivity|]. rewrite !app_length. cbn [length]. lia.
Qed.
Lemma offset_dt_sound v w x : text_ok OFFSET_DATE_TIME w -> try_new_offset_date_time v w = TROk x ->
  (exists sec, toml_offset_date_time sec w x /\ (is_v1_0_0 v = true -> sec = true)) \/ (is_v1_0_0 v = false /\ fraction_without_seconds w).
Proof.
  intros HT H. destruct (dt_shape OFFSET_DATE_TIME w (or_introl eq_refl) HT) as (d10 & c & t5 & rest & -> & L10 & L5 & A10 & A5 & HC).
  assert (HC' : c < 128) by (destruct HC as [->|[->| ->]]; lia).
  unfold try_new_offset_date_time in H. rewrite (make_datetime_str_spec v d10 c t5 rest A10 A5 HC' L10 L5) in H.
  assert (HN : norm_delim c = 32) by (destruct HC as [->|[->| ->]]; reflexivity). rewrite HN in H.
  assert (HP : forall rest', (match offset_date_time_from_str (d10 ++ [32] ++ t5 ++ rest') with DTOk a => TROk a | DTErr e => TRErr (DateTimeError e) end) = TROk x ->
     exists b wt wo, t5 ++ rest' = wt ++ wo /\ toml_local_date d10 (fst (fst x)) /\ toml_local_time b wt (snd (fst x)) /\ offset_text wo (snd x)).
  { intros rest' K. destruct (offset_date_time_from_str _) as [a|] eqn:E; [|discriminate]. inversion K; subst a. apply offset_date_time_iff in E as (b & w1 & wo & E & (wd & c' & wt & -> & HC2 & HD & HTm) & HO).
    rewrite <- !app_assoc in E.
    destruct (toml_date_len _ _ HD) as [L _]. destruct (app_len_inj d10 wd _ _ E) as [-> E2]; [lia|]. inversion E2; subst. exists b, wt, wo. auto. }
  destruct (starts_colon rest) eqn:ES.
  - apply HP in H as (b & wt & wo & E & HD & HTm & HO). left. exists b. split; [exists (d10 ++ [c] ++ wt), wo; split; [rewrite <- !app_assoc, E; reflexivity|]; split; auto; exists d10, c, wt; auto|].
    intros _. destruct HTm as [HTt _]. destruct (time_head _ _ _ HTt) as (t5' & ws & -> & L5' & _ & Hs & _). rewrite <- app_assoc in E.
    destruct (app_len_inj t5 t5' _ _ E) as [-> ->]; [lia|]. rewrite (seconds_starts _ _ _ _ _ Hs (offset_stop _ _ HO)) in ES. exact ES.
  - destruct (is_v1_0_0 v) eqn:EV; [discriminate|]. apply HP in H as (b & wt & wo & E & HD & (HTm & HV) & HO).
    destruct (time_head _ _ _ HTm) as (t5' & ws & -> & L5' & _ & Hs & Hre). rewrite <- app_assoc in E. destruct (app_len_inj t5 t5' _ _ E) as [-> E2]; [lia|].
    destruct (drop_zeros _ _ _ _ rest wo Hs (offset_stop _ _ HO) (eq_sym E2)) as [(E4 & <- & Z1 & Z2)|(q & ->)].
    + left. exists false. split; [|discriminate]. exists (d10 ++ [c] ++ t5' ++ []), wo. split; [rewrite <- !app_assoc; reflexivity|]. split; auto.
      exists d10, c, (t5' ++ []). repeat split; auto; try apply HD; try apply HV.
      destruct x as [[d t] o]. cbn [fst snd] in *. replace t with (MkTime (hour t) (minute t) 0 0) by (destruct t; cbn in *; congruence). apply Hre. constructor.
    + right. split; auto. exists (d10 ++ [c] ++ t5'), q. split; [rewrite <- !app_assoc; reflexivity|]. rewrite !app_length. cbn [length]. lia.
Qed.

Lemma nth5_colon s : nth_error s 5 = Some 58 -> forall (A : Type) (x y : A), match nth_error s 5 with Some 58 => x | _ => y end = x.
Proof. intros ->. reflexivity. Qed.
Lemma nth5_other s : nth_error s 5 <> Some 58 -> forall (A : Type) (x y : A), match nth_error s 5 with Some 58 => x | _ => y end = y.
Proof.
  intros H A x y. destruct (nth_error s 5) as [c|]; auto.
  assert (Hc : c <> 58) by congruence. destruct c as [|p]; auto. do 6 (destruct p as [p|p|]; try reflexivity). exfalso. apply Hc. reflexivity.
Qed.
Lemma time_nth5 b w t : time_text b w t -> (nth_error w 5 = Some 58 <-> b = true).
Proof.
  intros H. destruct (time_head _ _ _ H) as (t5 & ws & -> & L & _ & Hs & _). rewrite nth_error_app2 by lia. rewrite L. cbn [Nat.sub].
  destruct Hs; cbn; split; congruence.
Qed.
Lemma local_time_token v w t : try_new_local_time v w = TROk t <-> exists sec, toml_local_time sec w t /\ (is_v1_0_0 v = true -> sec = true).
Proof.
  unfold try_new_local_time.
  assert (HL : lift (local_time_from_str w) = TROk t <-> exists b, toml_local_time b w t).
  { rewrite <- local_time_iff. destruct (local_time_from_str w); simpl; split; congruence. }
  assert (K : nth_error w 5 = Some 58 \/ nth_error w 5 <> Some 58) by (destruct (nth_error w 5) as [c|]; [destruct (N.eq_dec c 58); [left|right]; congruence|right; discriminate]).
  destruct K as [K|K].
  - rewrite (nth5_colon w K), HL. split.
    + intros (b & H). exists b. split; auto. intros _. apply (time_nth5 b w t); auto. apply H.
    + intros (b & H & _). eauto.
  - rewrite (nth5_other w K). destruct (is_v1_0_0 v).
    + split; [discriminate|]. intros (b & H & Hb). exfalso. apply K. apply (time_nth5 b w t); auto. apply H.
    + rewrite HL. split; intros (b & H); [exists b; split; auto; discriminate|destruct H; eauto].
Qed.

(** * Formatting *)
Lemma take_bytes_ascii a r : take_bytes (len_bytes a) (a ++ r) = Some a.
Proof.
  pose proof (slice_app [] a r) as H. cbn [app] in H. unfold slice in H. cbn [sstart send] in H. 
  change (len_bytes []) with 0 in H. replace (len_bytes a - 0) with (len_bytes a) in H by lia.
  destruct (a ++ r); exact H.
Qed.
Lemma replace_range_spec d10 c r t : ascii d10 -> length d10 = 10%nat -> c < 128 -> replace_range_10_11 (d10 ++ [c] ++ r) t = Some (d10 ++ t ++ r).
Proof.
  intros A L HC. unfold replace_range_10_11.
  assert (E10 : len_bytes d10 = 10) by (rewrite ascii_len, L; auto).
  assert (E11 : len_bytes (d10 ++ [c]) = 11).
  { rewrite ascii_len; [rewrite app_length, L; reflexivity|]. apply Forall_app; split; auto. }
  assert (S1 : slice (d10 ++ [c] ++ r) (MkSpan 0 10) = Some d10).
  { pose proof (slice_app [] d10 ([c] ++ r)) as H. cbn [app] in H. rewrite E10 in H. exact H. }
  assert (S2 : slice (d10 ++ [c] ++ r) (MkSpan 10 11) = Some [c]).
  { pose proof (slice_app d10 [c] r) as H. rewrite E10, E11 in H. exact H. }
  assert (S3 : drop_bytes 11 (d10 ++ [c] ++ r) = Some r).
  { rewrite app_assoc, <- E11. apply drop_bytes_len_app. }
  rewrite S1, S2, S3. reflexivity.
Qed.

Lemma delim_lt c : delim c -> c < 128.
Proof. intros [->|[->| ->]]; lia. Qed.
Lemma delim_norm c : delim c -> norm_delim c = 32.
Proof. intros [->|[->| ->]]; reflexivity. Qed.
Lemma formatted_shape k w d : dt_kind k -> text_ok k w -> exists d10 c c' r, w = d10 ++ [c] ++ r /\ format_date_time d w = Some (d10 ++ [c'] ++ r) /\
  length d10 = 10%nat /\ ascii d10 /\ delim c /\ delim c' /\ (d = DelimPreserve -> c' = c) /\ (delimiter_text d = Some [c'] \/ d = DelimPreserve).
Proof.
  intros HK HT. destruct (dt_shape _ _ HK HT) as (d10 & c & t5 & rest & -> & L10 & L5 & A10 & A5 & HC).
  exists d10, c, (match d with DelimT => 84 | DelimSpace => 32 | DelimPreserve => c end), (t5 ++ rest). split; auto. split.
  - unfold format_date_time. destruct d; cbn [delimiter_text]; [apply replace_range_spec; auto using delim_lt|apply replace_range_spec; auto using delim_lt|reflexivity].
  - repeat split; auto; destruct d; unfold delim; auto; discriminate.
Qed.
Lemma make_same v d10 c c' r : length d10 = 10%nat -> ascii d10 -> delim c -> delim c' -> (exists t5 rest, r = t5 ++ rest /\ length t5 = 5%nat /\ ascii t5) ->
  make_datetime_str v (d10 ++ [c] ++ r) = make_datetime_str v (d10 ++ [c'] ++ r).
Proof.
  intros L A HC HC' (t5 & rest & -> & L5 & A5). rewrite !make_datetime_str_spec by auto using delim_lt. rewrite !delim_norm by auto. reflexivity.
Qed.
Lemma shape_tail k d10 c r : dt_kind k -> text_ok k (d10 ++ [c] ++ r) -> length d10 = 10%nat -> exists t5 rest, r = t5 ++ rest /\ length t5 = 5%nat /\ ascii t5.
Proof.
  intros HK HT L. destruct (dt_shape _ _ HK HT) as (d & c' & t5 & rest & E & L10 & L5 & A10 & A5 & HC).
  destruct (app_len_inj _ _ _ _ E) as [-> E2]; [lia|]. inversion E2; subst. eauto.
Qed.
(** Replacing the delimiter of a date-time of the grammar. *)
Lemma date_split w1 r1 d10 r : lang r_date w1 -> w1 ++ r1 = d10 ++ r -> length d10 = 10%nat -> w1 = d10 /\ r1 = r.
Proof. intros H E L. apply date_shape in H as [L1 _]. apply app_len_inj; auto. lia. Qed.
Lemma delim_k c : delim c -> k_t_space c = true.
Proof. intros [->|[->| ->]]; reflexivity. Qed.
Lemma redelim d10 c c' r g : length d10 = 10%nat -> delim c' -> lang (RSeq r_date (RSeq (RCls k_t_space) g)) (d10 ++ [c] ++ r) ->
  lang (RSeq r_date (RSeq (RCls k_t_space) g)) (d10 ++ [c'] ++ r).
Proof.
  intros L HC H. apply lang_seq_inv in H as (w1 & r1 & E & Hd & H). symmetry in E. destruct (date_split _ _ _ _ Hd E L) as [-> ->].
  apply nonempty_seq_cls in H as (x & u & E2 & Hx & Hu). inversion E2; subst.
  apply lang_seq_inv. exists d10, ([c'] ++ u). split; auto. split; auto. apply lang_seq_inv. exists [c'], u. split; auto. split; auto. apply lang_cls_inv. exists c'. split; auto. apply delim_k; auto.
Qed.
Lemma text_redelim k d10 c c' r : dt_kind k -> length d10 = 10%nat -> delim c' -> text_ok k (d10 ++ [c] ++ r) -> text_ok k (d10 ++ [c'] ++ r).
Proof. intros [->| ->] L HC H; cbn [text_ok] in *; eapply redelim; eauto. Qed.
Lemma scalar_redelim k d10 c c' r : dt_kind k -> length d10 = 10%nat -> delim c' -> scalar k (d10 ++ [c] ++ r) -> scalar k (d10 ++ [c'] ++ r).
Proof.
  intros [->| ->] L HC H; inversion H as [| | | | | | |? K|? K| | ]; subst.
  - apply S_odt. exact (redelim d10 c c' r (RSeq g_partial_time g_offset) L HC K).
  - apply S_ldt. exact (redelim d10 c c' r g_partial_time L HC K).
Qed.
