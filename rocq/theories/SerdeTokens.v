(** The texts of scalars and keys that the serializer writes are tokens of TOML with the values they are written for. *)
From Coq Require Import String Ascii List NArith ZArith Bool Arith Lia.
From Verif Require Import Base SyntaxKind TextModel Regex LexerModel LexerSpec LexerProofs TomlGrammar TomlStringGrammar LexScalars LexSound TomlTextModel TomlTextProofs NumberModel NumberSpec NumberProofs NumberProps
  DateTimeModel DateTimeSpec DateTimeProofs DateTimeProps FormatterModel FormatterLayout FormatterSpec LexLocal FormatterRelex TextTreeModel SerdeModel SerdeSpec.
From Verif Require JsonProps.
Import ListNotations.
Open Scope N_scope.
Open Scope list_scope.

(** * Digits *)
Lemma in_digit c : 48 <= c <= 57 -> in_range 48 57 c = true.
Proof. unfold in_range. lia. Qed.
Lemma rep_digits w : Forall (fun c => 48 <= c <= 57) w -> lang (RRep (length w) g_digit) w.
Proof. induction 1 as [|c w H HF IH]; [constructor|]. cbn [length RRep]. apply (LSeq _ _ [c] w); [constructor; apply in_digit; exact H|exact IH]. Qed.
Lemma digits_rep n v w : digits_are n v w -> lang (RRep n g_digit) w.
Proof. intros (<- & HF & _). apply rep_digits. exact HF. Qed.
Lemma star_digits w : Forall (fun c => 48 <= c <= 57) w -> lang (RStar (RAlt g_digit (RSeq g_us g_digit))) w.
Proof. induction 1 as [|c w H HF IH]; [constructor|]. apply (LStarS _ [c] w); [apply LAltL; constructor; apply in_digit; exact H|exact IH]. Qed.
Lemma star_digits' w : Forall (fun c => 48 <= c <= 57) w -> lang (RStar g_digit) w.
Proof. induction 1 as [|c w H HF IH]; [constructor|]. apply (LStarS _ [c] w); [constructor; apply in_digit; exact H|exact IH]. Qed.
Lemma chr_lang c : lang (RChr c) [c].
Proof. apply LCls. apply N.eqb_refl. Qed.
Lemma decimal_lang n : lang g_unsigned_dec_int (decimal n) /\ positional 10 (decimal n) = n.
Proof.
  destruct (decimal_spec n) as (w & -> & HN & HF & HP & HL). split; [|exact HP]. rewrite <- HP in HL. destruct w as [|c w]; [contradiction|].
  inversion HF as [|c0 w0 HC HW]; subst. destruct w as [|d w]; [apply LAltL; constructor; apply in_digit; exact HC|]. apply LAltR. apply (LSeq _ _ [c] (d :: w)).
  - constructor. unfold in_range. assert (c <> 48); [|lia]. intros ->. pose proof (JsonProps.positional_hd _ HF HN HL eq_refl) as E. discriminate E.
  - inversion HW as [|d0 w1 HD HW']; subst. apply (LSeq _ _ [d] w); [apply LAltL; constructor; apply in_digit; exact HD|apply star_digits; exact HW'].
Qed.
Lemma print_integer_literal z : int_literal INTEGER_DEC (print_integer z) z.
Proof.
  unfold print_integer. destruct (decimal_lang (Z.abs_N z)) as [HL HP]. destruct (Z.ltb_spec z 0) as [H|H].
  - replace z with (- Z.of_N (positional 10 (decimal (Z.abs_N z))))%Z at 2 by (rewrite HP; lia). apply IL_minus. exact HL.
  - replace z with (Z.of_N (positional 10 (decimal (Z.abs_N z)))) at 2 by (rewrite HP; lia). apply IL_dec. exact HL.
Qed.

(** * Dates and times *)
Lemma date_lang w d : date_text w d -> lang g_full_date w.
Proof.
  intros (wy & wm & wd & -> & Hy & Hm & Hd). apply LSeq; [eapply digits_rep; exact Hy|]. apply (LSeq _ _ [45]); [apply chr_lang|]. apply LSeq; [eapply digits_rep; exact Hm|].
  apply (LSeq _ _ [45]); [apply chr_lang|]. eapply digits_rep; exact Hd.
Qed.
Lemma opt_some a w : lang a w -> lang (ROpt a) w.
Proof. intros H. unfold ROpt. first [apply LAltL; exact H|apply LAltR; exact H]. Qed.
Lemma opt_none a : lang (ROpt a) [].
Proof. unfold ROpt. first [apply LAltR; constructor|apply LAltL; constructor]. Qed.
Lemma time_lang sec w t : time_text sec w t -> lang g_partial_time w.
Proof.
  intros (wh & wm & ws & -> & Hh & Hm & Hs). apply LSeq; [eapply digits_rep; exact Hh|]. apply (LSeq _ _ [58]); [apply chr_lang|]. apply LSeq; [eapply digits_rep; exact Hm|].
  inversion Hs as [|ws' s H|ws' s wf f H HN HF]; subst; [apply opt_none| |]; apply opt_some; apply (LSeq _ _ [58]); try apply chr_lang.
  - rewrite <- (app_nil_r ws'). apply LSeq; [eapply digits_rep; exact H|apply opt_none].
  - apply LSeq; [eapply digits_rep; exact H|]. apply opt_some. apply (LSeq _ _ [46]); [apply chr_lang|]. destruct HF as (_ & HF & _). destruct wf as [|c wf]; [contradiction|]. inversion HF as [|c0 w0 HC HW]; subst.
    apply (LSeq _ _ [c]); [constructor; apply in_digit; exact HC|apply star_digits'; exact HW].
Qed.
Lemma offset_lang w o : offset_text w o -> lang g_offset w.
Proof.
  intros H. inversion H; subst.
  - apply LAltL. apply LCls. reflexivity.
  - apply LAltL. apply LCls. reflexivity.
  - apply LAltR. apply (LSeq _ _ [43]); [apply LCls; reflexivity|]. apply LSeq; [eapply digits_rep; eassumption|]. apply (LSeq _ _ [58]); [apply chr_lang|]. eapply digits_rep; eassumption.
  - apply LAltR. apply (LSeq _ _ [45]); [apply LCls; reflexivity|]. apply LSeq; [eapply digits_rep; eassumption|]. apply (LSeq _ _ [58]); [apply chr_lang|]. eapply digits_rep; eassumption.
Qed.

(** * Scalars *)
Definition scalar_kind (s : TextTreeModel.scalar) : kind :=
  match s with
  | VString _ => BASIC_STRING | VInteger _ => INTEGER_DEC | VFloat _ => FLOAT | VBoolean _ => BOOLEAN
  | VOffsetDateTime _ => OFFSET_DATE_TIME | VLocalDateTime _ => LOCAL_DATE_TIME | VLocalDate _ => LOCAL_DATE | VLocalTime _ => LOCAL_TIME
  end.
Definition key_token (k : dkey) : fkey := (match k_kind k with KBare => BARE_KEY | KBasic => BASIC_STRING | KLiteral => LITERAL_STRING end, key_text k).
Lemma plain_body v11 s : plain_string s -> basic_body v11 s s.
Proof. induction 1 as [|c s H HF IH]; constructor; assumption. Qed.
Lemma plain_value s : plain_string s -> value_text BASIC_STRING ([34] ++ s ++ [34]).
Proof.
  intros H. apply value_lexable; [reflexivity|]. exists (cursor_new ([34] ++ s ++ [34])), []. split; [cbn [cursor_new rest]; rewrite app_nil_r; reflexivity|].
  apply (always_basic false s s); [apply plain_body; exact H|exact I|]. cbn [cursor_new rest]. rewrite app_nil_r. reflexivity.
Qed.
Lemma grammar_value k w : TomlGrammar.scalar k w -> value_text k w.
Proof.
  intros H. apply value_lexable; [destruct H; reflexivity|]. exists (cursor_new w), []. split; [cbn [cursor_new rest]; rewrite app_nil_r; reflexivity|].
  apply scalar_lexed with (w := w); [exact H|exact I|destruct k; exact I|]. cbn [cursor_new rest]. rewrite app_nil_r. reflexivity.
Qed.
Lemma bare_name_key w : bare_name w -> toml_key w.
Proof.
  intros [HN HF]. split; [exact HN|]. apply forallb_forall. rewrite Forall_forall in HF. intros c Hc. specialize (HF c Hc). unfold bare_char, in_range.
  destruct HF as [H|[H|[H|[-> | ->]]]]; try reflexivity; rewrite ?orb_true_iff, ?andb_true_iff, ?N.leb_le; lia.
Qed.
Lemma key_content k : key_ok k -> content_ok (key_token k) /\ key_kind (fst (key_token k)) = true.
Proof.
  destruct k as [kk w]. unfold key_ok, key_token, key_text, content_ok. cbn [k_kind k_value fst snd]. destruct kk; intros H; [|split; [apply plain_value; exact H|reflexivity]|contradiction].
  split; [|reflexivity]. destruct H as [H1 H2]. split; [apply bare_name_key; exact H1|]. intros (d & r & -> & HD). rewrite (H2 d r eq_refl), app_nil_r; [exact HD|]. apply date_inv. exact HD.
Qed.
Lemma key_reads v k : key_ok k -> key_value v (key_token k) = Some (k_value k).
Proof.
  destruct k as [kk w]. unfold key_ok, key_token, key_text, key_value. cbn [k_kind k_value fst snd]. destruct kk; intros H; [|rewrite (try_basic v w w (plain_body _ _ H)); reflexivity|contradiction].
  destruct H as [[_ HF] _]. rewrite Forall_forall in HF. unfold try_from_bare_key.
  replace (existsb (fun c => N.eqb c 43) w) with false. 2:{ symmetry. apply not_true_is_false. intros H. apply existsb_exists in H as (c & Hc & E). apply N.eqb_eq in E. subst c. specialize (HF _ Hc). lia. }
  replace (forallb is_bare_key_char w) with true; [reflexivity|]. symmetry. apply forallb_forall. intros c Hc. specialize (HF c Hc). unfold is_bare_key_char, in_range.
  destruct HF as [H|[H|[H|[-> | ->]]]]; try reflexivity; rewrite ?orb_true_iff, ?andb_true_iff, ?N.leb_le; lia.
Qed.
Section Tokens.
Context (show : list N -> str) (fl : str -> option (list N)) (v : toml_version).
Notation ok := (scalar_ok show fl).
Lemma scalar_value_text s : ok s -> value_text (scalar_kind s) (scalar_text show s).
Proof.
  destruct s as [s|z|f|b|[[d t] o]|[d t]|d|t]; cbn [scalar_ok scalar_kind scalar_text]; intros H.
  - apply plain_value. exact H.
  - apply grammar_value. apply C12_every_integer_has_a_value; [left; reflexivity|]. exists z. apply print_integer_literal.
  - apply grammar_value. apply H.
  - apply grammar_value. apply S_bool. destruct b; [apply LAltL|apply LAltR]; apply g_str_inv; reflexivity.
  - destruct H as (H1 & H2 & H3). apply grammar_value. apply S_odt. unfold print_offset_date_time. apply LSeq; [eapply date_lang, print_date_text; exact H1|]. apply (LSeq _ _ [84]); [apply LCls; reflexivity|].
    apply LSeq; [eapply time_lang, print_time_text; exact H2|eapply offset_lang, print_offset_text; exact H3].
  - destruct H as (H1 & H2). apply grammar_value. apply S_ldt. unfold print_local_date_time. apply LSeq; [eapply date_lang, print_date_text; exact H1|]. apply (LSeq _ _ [84]); [apply LCls; reflexivity|]. eapply time_lang, print_time_text; exact H2.
  - apply grammar_value. apply S_ld. eapply date_lang, print_date_text; exact H.
  - apply grammar_value. apply S_lt. eapply time_lang, print_time_text; exact H.
Qed.
Lemma scalar_literal s : literal_kind (scalar_kind s) = true.
Proof. destruct s as [s|z|f|b|[[d t] o]|[d t]|d|t]; reflexivity. Qed.
Lemma scalar_content s : ok s -> content_ok (scalar_kind s, scalar_text show s).
Proof. intros H. apply scalar_value_text in H. unfold content_ok. cbn [fst snd]. destruct s as [s|z|f|b|[[d t] o]|[d t]|d|t]; exact H. Qed.
Lemma scalar_reads s : ok s -> literal_value fl v (scalar_kind s) (scalar_text show s) = Some s.
Proof.
  assert (HR : seconds_rule v true) by (destruct v; reflexivity || exact I || (unfold seconds_rule; auto)).
  destruct s as [s|z|f|b|[[d t] o]|[d t]|d|t]; cbn [scalar_ok scalar_kind scalar_text literal_value]; intros H.
  - unfold bracketed. rewrite (try_basic v s s (plain_body _ _ H)). reflexivity.
  - rewrite (proj1 (C12_integer_literals _ _ _ (print_integer_literal z)) H). reflexivity.
  - destruct H as [_ ->]. reflexivity.
  - destruct b; reflexivity.
  - destruct H as (H1 & H2 & H3). rewrite (proj1 (C37_toml_converts v true _ HR) _ (print_offset_toml (d, t, o) H1 H2 H3)). reflexivity.
  - destruct H as (H1 & H2). rewrite (proj2 (C37_toml_converts v true _ HR) _ (print_local_toml (d, t) H1 H2)). reflexivity.
  - rewrite (proj2 (proj1 (C37_dates_and_times v (print_date d)) d) (conj (print_date_text d H) H)). reflexivity.
  - rewrite (proj2 (proj2 (C37_dates_and_times v (print_time t)) t) (ex_intro _ true (conj (conj (print_time_text t H) H) HR))). reflexivity.
Qed.
End Tokens.
