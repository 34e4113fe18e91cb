(** Final theorems about dates and times (C10, C15, C37). *)
From Coq Require Import String Ascii List NArith ZArith Bool Arith Lia.
From Verif Require Import Base SyntaxKind TextModel Regex LexerModel LexerSpec LexerProofs TomlGrammar LexScalars LexSound LexNumbers LexerProps
  TomlTextModel TomlTextProofs TomlTextProps DateTimeModel NumberSpec DateTimeSpec DateTimeProofs DateTimeTokens.
Import ListNotations.
Open Scope N_scope.
Open Scope list_scope.

(** * C10 *)
Lemma print_parse_date d : valid_date d -> local_date_from_str (print_date d) = DTOk d.
Proof. intros H. apply local_date_iff. split; auto. apply print_date_text; auto. Qed.
Lemma print_parse_time t : valid_time t -> local_time_from_str (print_time t) = DTOk t.
Proof. intros H. apply local_time_iff. exists true. split; auto. apply print_time_text; auto. Qed.
Lemma print_local_toml x : valid_date (fst x) -> valid_time (snd x) -> toml_local_date_time true (print_local_date_time x) x.
Proof.
  destruct x as [d t]. intros H1 H2. exists (print_date d), 84, (print_time t). split; [reflexivity|]. split; [left; reflexivity|].
  split; split; auto; [apply print_date_text|apply print_time_text]; auto.
Qed.
Lemma print_parse_local x : valid_date (fst x) -> valid_time (snd x) -> local_date_time_from_str (print_local_date_time x) = DTOk x.
Proof. intros H1 H2. apply local_date_time_iff. exists true. apply print_local_toml; auto. Qed.
Lemma print_offset_toml x : valid_date (fst (fst x)) -> valid_time (snd (fst x)) -> valid_offset (snd x) -> toml_offset_date_time true (print_offset_date_time x) x.
Proof.
  destruct x as [[d t] o]. intros H1 H2 H3. exists (print_local_date_time (d, t)), (print_offset o). split; [|split].
  - unfold print_offset_date_time, print_local_date_time. rewrite <- ?app_assoc. reflexivity.
  - apply print_local_toml; auto.
  - apply print_offset_text; auto.
Qed.
Lemma print_parse_offset x : valid_date (fst (fst x)) -> valid_time (snd (fst x)) -> valid_offset (snd x) ->
  offset_date_time_from_str (print_offset_date_time x) = DTOk x.
Proof. intros H1 H2 H3. apply offset_date_time_iff. exists true. apply print_offset_toml; auto. Qed.

(** Every valid value, printed and parsed again, is the same value. *)
Theorem C10_print_parse :
  (forall d, valid_date d -> local_date_from_str (print_date d) = DTOk d) /\
  (forall t, valid_time t -> local_time_from_str (print_time t) = DTOk t) /\
  (forall d t, valid_date d -> valid_time t -> local_date_time_from_str (print_local_date_time (d, t)) = DTOk (d, t)) /\
  (forall d t o, valid_date d -> valid_time t -> valid_offset o ->
     offset_date_time_from_str (print_offset_date_time (d, t, o)) = DTOk (d, t, o)).
Proof.
  exact (conj print_parse_date (conj print_parse_time (conj (fun d t => print_parse_local (d, t)) (fun d t o => print_parse_offset (d, t, o))))).
Qed.
Print Assumptions C10_print_parse.

(** Whatever parses is a TOML date-time with the parsed value, calendar-valid, and conversely. *)
Theorem C10_parse_exact : forall s,
  (forall d, local_date_from_str s = DTOk d <-> toml_local_date s d) /\
  (forall t, local_time_from_str s = DTOk t <-> exists sec, toml_local_time sec s t) /\
  (forall x, local_date_time_from_str s = DTOk x <-> exists sec, toml_local_date_time sec s x) /\
  (forall x, offset_date_time_from_str s = DTOk x <-> exists sec, toml_offset_date_time sec s x).
Proof. exact (fun s => conj (local_date_iff s) (conj (local_time_iff s) (conj (local_date_time_iff s) (offset_date_time_iff s)))). Qed.
Print Assumptions C10_parse_exact.

Lemma parse_valid_proof s :
  (forall d, local_date_from_str s = DTOk d -> valid_date d) /\
  (forall t, local_time_from_str s = DTOk t -> valid_time t) /\
  (forall d t, local_date_time_from_str s = DTOk (d, t) -> valid_date d /\ valid_time t) /\
  (forall d t o, offset_date_time_from_str s = DTOk (d, t, o) -> valid_date d /\ valid_time t /\ valid_offset o).
Proof.
  split; [|split; [|split]].
  - intros d H. apply local_date_iff in H. apply H.
  - intros t H. apply local_time_iff in H as (b & H). apply H.
  - intros d t H. apply local_date_time_iff in H as (b & wd & c & wt & _ & _ & H1 & H2). split; [apply H1|apply H2].
  - intros d t o H. apply offset_date_time_iff in H as (b & w1 & wo & _ & (wd & c & wt & _ & _ & H1 & H2) & HO). split; [apply H1|]. split; [apply H2|].
    cbn [snd] in HO. destruct HO; cbn [valid_offset]; try exact I; lia.
Qed.
Theorem C10_parse_valid : forall s,
  (forall d, local_date_from_str s = DTOk d -> valid_date d) /\
  (forall t, local_time_from_str s = DTOk t -> valid_time t) /\
  (forall d t, local_date_time_from_str s = DTOk (d, t) -> valid_date d /\ valid_time t) /\
  (forall d t o, offset_date_time_from_str s = DTOk (d, t, o) -> valid_date d /\ valid_time t /\ valid_offset o).
Proof. exact parse_valid_proof. Qed.
Print Assumptions C10_parse_valid.

Example C10_example :
  valid_date (MkDate 2024 2 29) /\ valid_time (MkTime 23 59 60 120000000) /\ valid_offset (OffCustom (-90)) /\
  print_offset_date_time (MkDate 2024 2 29, MkTime 23 59 60 120000000, OffCustom (-90)) = lit "2024-02-29T23:59:60.12-01:30" /\
  (forall d, local_date_from_str (lit "2023-02-29") <> DTOk d).
Proof.
  split.
  { split; [cbn; lia|]. split; [cbn; lia|]. exists 29. split; [|cbn; lia]. apply DI29. left. split; [reflexivity|discriminate]. }
  split; [repeat split; cbn; lia|]. split; [cbn; lia|]. split; [vm_compute; reflexivity|]. intros d H. vm_compute in H. discriminate.
Qed.

(** * C37 *)
(** FULL STATEMENT (false): without the disjunct [fraction_without_seconds]; see [C37_tokens_refuted]. *)
Definition dt_text seg source t w := exists l, lex seg source = Some l /\ In t (tokens l) /\ slice source (tspan t) = Some w.
Lemma dt_text_ok seg source t w : dt_text seg source t w -> tkind t <> EOF -> tkind t <> INVALID_TOKEN -> text_ok (tkind t) w.
Proof. intros (l & HL & Hin & HS) K1 K2. destruct (lex_token_text seg source l t HL Hin K1 K2) as (w' & E & HT). congruence. Qed.

(** [sec] tells whether the seconds are written; v1.0.0 requires them. *)
Definition seconds_rule (v : toml_version) (sec : bool) : Prop := v = V1_0_0 -> sec = true.
Lemma rule_iff v sec : seconds_rule v sec <-> (is_v1_0_0 v = true -> sec = true).
Proof. unfold seconds_rule. destruct v; simpl; split; intros; auto; try discriminate; apply H; auto; discriminate. Qed.

Lemma tokens_partial_proof v seg source t w : dt_text seg source t w ->
  (tkind t = OFFSET_DATE_TIME -> forall x, try_new_offset_date_time v w = TROk x ->
     (exists sec, toml_offset_date_time sec w x /\ seconds_rule v sec) \/ (v <> V1_0_0 /\ fraction_without_seconds w)) /\
  (tkind t = LOCAL_DATE_TIME -> forall x, try_new_local_date_time v w = TROk x ->
     (exists sec, toml_local_date_time sec w x /\ seconds_rule v sec) \/ (v <> V1_0_0 /\ fraction_without_seconds w)).
Proof.
  intros H. split; intros HK x E.
  - assert (HT : text_ok (tkind t) w) by (apply (dt_text_ok _ _ _ _ H); rewrite HK; discriminate). rewrite HK in HT.
    destruct (offset_dt_sound v w x HT E) as [(sec & H1 & H2)|[H1 H2]]; [left; exists sec; rewrite rule_iff; auto|right; split; auto; destruct v; discriminate].
  - assert (HT : text_ok (tkind t) w) by (apply (dt_text_ok _ _ _ _ H); rewrite HK; discriminate). rewrite HK in HT.
    destruct (local_dt_sound v w x HT E) as [(sec & H1 & H2)|[H1 H2]]; [left; exists sec; rewrite rule_iff; auto|right; split; auto; destruct v; discriminate].
Qed.
Theorem C37_tokens_partial : forall v seg source t w, dt_text seg source t w ->
  (tkind t = OFFSET_DATE_TIME -> forall x, try_new_offset_date_time v w = TROk x ->
     (exists sec, toml_offset_date_time sec w x /\ seconds_rule v sec) \/ (v <> V1_0_0 /\ fraction_without_seconds w)) /\
  (tkind t = LOCAL_DATE_TIME -> forall x, try_new_local_date_time v w = TROk x ->
     (exists sec, toml_local_date_time sec w x /\ seconds_rule v sec) \/ (v <> V1_0_0 /\ fraction_without_seconds w)).
Proof. exact tokens_partial_proof. Qed.
Print Assumptions C37_tokens_partial.

(** [2024-01-01T00:00.5] is lexed as one token and converted under v1.1.0, although TOML has no fraction
    without seconds. *)
Theorem C37_tokens_refuted : exists source t x, dt_text seg1 source t source /\ tkind t = LOCAL_DATE_TIME /\
  try_new_local_date_time V1_1_0 source = TROk x /\ forall sec y, ~ toml_local_date_time sec source y.
Proof.
  exists (lit "2024-01-01T00:00.5"). eexists; eexists. split; [eexists; split; [vm_compute; reflexivity|]; split; [left; reflexivity|vm_compute; reflexivity]|].
  split; [reflexivity|]. split; [vm_compute; reflexivity|]. intros sec y H.
  assert (K : local_date_time_from_str (lit "2024-01-01T00:00.5") = DTOk y) by (apply local_date_time_iff; eauto). vm_compute in K. discriminate.
Qed.
Print Assumptions C37_tokens_refuted.

(** Conversely every date-time of TOML converts to its value. *)
Theorem C37_toml_converts : forall v sec w, seconds_rule v sec ->
  (forall x, toml_offset_date_time sec w x -> try_new_offset_date_time v w = TROk x) /\
  (forall x, toml_local_date_time sec w x -> try_new_local_date_time v w = TROk x).
Proof.
  intros v sec w H. pose proof (proj1 (rule_iff v sec) H) as H0. clear H; rename H0 into H. split; intros x K; [exact (offset_dt_complete v sec w x K H)|exact (local_dt_complete v sec w x K H)].
Qed.
Print Assumptions C37_toml_converts.

(** Local dates and local times: exact. *)
Theorem C37_dates_and_times : forall v w,
  (forall d, try_new_local_date v w = TROk d <-> toml_local_date w d) /\
  (forall t, try_new_local_time v w = TROk t <-> exists sec, toml_local_time sec w t /\ seconds_rule v sec).
Proof.
  intros v w. split.
  - intros d. unfold try_new_local_date. rewrite <- local_date_iff. destruct (local_date_from_str w); simpl; split; congruence.
  - intros t. rewrite local_time_token. split; intros (sec & H & K); exists sec; rewrite ?rule_iff in *; auto.
Qed.
Print Assumptions C37_dates_and_times.

Example C37_example : exists t, dt_text seg1 (lit "2024-02-29t23:59Z") t (lit "2024-02-29t23:59Z") /\ tkind t = OFFSET_DATE_TIME /\
  try_new_offset_date_time V1_1_0 (lit "2024-02-29t23:59Z") = TROk (MkDate 2024 2 29, MkTime 23 59 0 0, OffZ) /\
  try_new_offset_date_time V1_0_0 (lit "2024-02-29t23:59Z") = TRErr OptionalSeconds.
Proof.
  eexists. split; [eexists; split; [vm_compute; reflexivity|]; split; [left; reflexivity|vm_compute; reflexivity]|].
  repeat split; vm_compute; reflexivity.
Qed.

(** * C15 *)
(** The value of a date-time literal, if it has one. *)
Lemma delimiter_proof v d seg source t w : dt_text seg source t w -> dt_kind (tkind t) ->
  exists w', format_date_time d w = Some w' /\
    (tkind t = OFFSET_DATE_TIME -> try_new_offset_date_time v w' = try_new_offset_date_time v w) /\
    (tkind t = LOCAL_DATE_TIME -> try_new_local_date_time v w' = try_new_local_date_time v w) /\
    format_date_time d w' = Some w' /\
    (scalar (tkind t) w -> scalar (tkind t) w') /\
    (forall p c, delimiter_text d = Some p -> nth_error p 0 = Some c -> nth_error w' 10 = Some c) /\
    length w' = length w /\ (forall i, i <> 10%nat -> nth_error w' i = nth_error w i).
Proof.
  intros H HK. assert (HT : text_ok (tkind t) w) by (apply (dt_text_ok _ _ _ _ H); destruct HK as [-> | ->]; discriminate).
  destruct (formatted_shape (tkind t) w d HK HT) as (d10 & c & c' & r & -> & HF & L & A & HC & HC' & HP & HD).
  destruct (shape_tail _ _ _ _ HK HT L) as (t5 & rest & -> & L5 & A5).
  assert (HM : make_datetime_str v (d10 ++ [c'] ++ t5 ++ rest) = make_datetime_str v (d10 ++ [c] ++ t5 ++ rest)) by (apply make_same; eauto).
  exists (d10 ++ [c'] ++ t5 ++ rest). split; auto. split; [intros _; unfold try_new_offset_date_time; rewrite HM; reflexivity|].
  split; [intros _; unfold try_new_local_date_time; rewrite HM; reflexivity|]. split.
  { unfold format_date_time in *. destruct (delimiter_text d) as [p|] eqn:E; auto. 
    destruct HD as [HD| ->]; [|discriminate]. inversion HD; subst p. apply replace_range_spec; auto using delim_lt. }
  split; [apply scalar_redelim; auto|]. split.
  { intros p x E1 E2. destruct HD as [HD| ->]; [|discriminate]. rewrite HD in E1. inversion E1; subst p. inversion E2; subst x.
    rewrite nth_error_app2 by lia. rewrite L. reflexivity. }
  split; [rewrite !app_length; reflexivity|]. intros i Hi. destruct (Nat.lt_ge_cases i 10).
  - rewrite !nth_error_app1 by lia. reflexivity.
  - rewrite (nth_error_app2 d10), (nth_error_app2 d10) by lia. rewrite L. destruct (i - 10)%nat as [|j] eqn:E; [lia|]. reflexivity.
Qed.
(** The formatted literal differs at most in the delimiter, keeps its value (or its error), stays a literal of the
    grammar, and formatting it again changes nothing. *)
Theorem C15_delimiter : forall v d seg source t w, dt_text seg source t w -> dt_kind (tkind t) ->
  exists w', format_date_time d w = Some w' /\
    (tkind t = OFFSET_DATE_TIME -> try_new_offset_date_time v w' = try_new_offset_date_time v w) /\
    (tkind t = LOCAL_DATE_TIME -> try_new_local_date_time v w' = try_new_local_date_time v w) /\
    format_date_time d w' = Some w' /\
    (scalar (tkind t) w -> scalar (tkind t) w') /\
    (forall p c, delimiter_text d = Some p -> nth_error p 0 = Some c -> nth_error w' 10 = Some c) /\
    length w' = length w /\ (forall i, i <> 10%nat -> nth_error w' i = nth_error w i).
Proof. exact delimiter_proof. Qed.
Print Assumptions C15_delimiter.

Lemma relexed_proof d seg source t w w' after : dt_text seg source t w -> dt_kind (tkind t) -> scalar (tkind t) w ->
  format_date_time d w = Some w' -> ends_value after ->
  one_token (tkind t) w' after /\ one_token_anywhere (tkind t) w' after.
Proof.
  intros H HK HS HF HE. destruct (delimiter_proof V1_0_0 d _ _ _ _ H HK) as (w'' & E & _ & _ & _ & H5 & _).
  assert (w'' = w') by congruence. subst w''. specialize (H5 HS).
  assert (HN : not_continued (tkind t) after) by (destruct HK as [->| ->]; exact I). split.
  - intros seg' l HL. eapply lex_scalar_first; eauto.
  - intros seg' p l t' HL Hin K1 K2. eapply lex_scalar_at; eauto.
Qed.
(** The formatted literal is read again as one literal of the same kind. *)
Theorem C15_relexed : forall d seg source t w w' after, dt_text seg source t w -> dt_kind (tkind t) -> scalar (tkind t) w ->
  format_date_time d w = Some w' -> ends_value after ->
  one_token (tkind t) w' after /\ one_token_anywhere (tkind t) w' after.
Proof. exact relexed_proof. Qed.
Print Assumptions C15_relexed.

Example C15_example : exists t, dt_text seg1 (lit "2024-02-29t23:59Z") t (lit "2024-02-29t23:59Z") /\ dt_kind (tkind t) /\
  scalar (tkind t) (lit "2024-02-29t23:59Z") /\
  format_date_time DelimSpace (lit "2024-02-29t23:59Z") = Some (lit "2024-02-29 23:59Z").
Proof.
  eexists. split; [eexists; split; [vm_compute; reflexivity|]; split; [left; reflexivity|vm_compute; reflexivity]|].
  split; [left; reflexivity|]. split; [apply S_odt; apply full_match_spec; vm_compute; reflexivity|vm_compute; reflexivity].
Qed.
