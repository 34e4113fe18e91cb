(** Proofs about string decoding, encoding and lexing. *)
From Coq Require Import String Ascii List NArith Bool Arith Lia ZifyBool.
From Verif Require Import Base SyntaxKind TextModel Regex LexerModel LexerSpec LexerProofs TomlGrammar LexScalars LexSound LexNumbers
  TomlTextModel TomlStringGrammar.
Import ListNotations.
Open Scope N_scope.
Open Scope list_scope.

(** * Hexadecimal *)
Lemma hexdig_value c d : hexdig c d -> hex_value c = Some d.
Proof.
  intros [k H|k H|k H]; unfold hex_value, in_range.
  - replace ((48 <=? 48 + k) && (48 + k <=? 57)) with true by lia. f_equal; lia.
  - replace ((48 <=? 55 + k) && (55 + k <=? 57)) with false by lia.
    replace ((97 <=? 55 + k) && (55 + k <=? 102)) with false by lia.
    replace ((65 <=? 55 + k) && (55 + k <=? 70)) with true by lia. f_equal; lia.
  - replace ((48 <=? 87 + k) && (87 + k <=? 57)) with false by lia.
    replace ((97 <=? 87 + k) && (87 + k <=? 102)) with true by lia. f_equal; lia.
Qed.
Lemma hex_digits_app a s t : hex_digits a (s ++ t) = match hex_digits a s with Some n => hex_digits n t | None => None end.
Proof.
  revert a; induction s as [|c s IH]; intros a; simpl; [reflexivity|]. destruct (hex_value c); auto.
Qed.
Lemma hexnum_digits h n : hexnum h n -> hex_digits 0 h = Some n.
Proof.
  induction 1 as [|s n c d H IH Hd]; [reflexivity|]. rewrite hex_digits_app, IH. cbn [hex_digits].
  rewrite (hexdig_value _ _ Hd). f_equal. lia.
Qed.
Lemma hexdig_char c d : hexdig c d -> (48 <= c <= 57 \/ 65 <= c <= 70 \/ 97 <= c <= 102).
Proof. intros [k H|k H|k H]; lia. Qed.
Lemma hexnum_chars h n : hexnum h n -> Forall (fun c => 48 <= c <= 57 \/ 65 <= c <= 70 \/ 97 <= c <= 102) h.
Proof.
  induction 1 as [|s n c d H IH Hd]; [constructor|]. apply Forall_app. split; auto. constructor; auto.
  eapply hexdig_char; eauto.
Qed.
Lemma u32_hex h n : hexnum h n -> h <> [] -> u32_from_hex h = Some n.
Proof.
  intros H Hn. pose proof (hexnum_chars _ _ H) as HC. pose proof (hexnum_digits _ _ H) as HD.
  destruct h as [|c h]; [contradiction|]. inversion HC; subst.
  unfold u32_from_hex. destruct (N.eqb_spec c 43) as [->|Hne]; [lia|].
  destruct c as [|p]; auto. destruct p as [p|p|]; auto. destruct p as [p|p|]; auto. destruct p as [p|p|]; auto.
  destruct p as [p|p|]; auto. destruct p as [p|p|]; auto. destruct p as [p|p|]; auto. lia.
Qed.
Lemma scalar_from n : scalar_value n -> char_from_u32 n = Some n.
Proof. intros H. unfold char_from_u32, in_range. unfold scalar_value in H.
  replace ((n <=? 0x10FFFF) && negb ((0xD800 <=? n) && (n <=? 0xDFFF))) with true by lia. reflexivity.
Qed.
Lemma hexnum_bound h n : hexnum h n -> n < 16 ^ N.of_nat (length h).
Proof.
  induction 1 as [|s n c d H IH Hd]; [simpl; lia|].
  rewrite app_length. simpl length. replace (N.of_nat (length s + 1)) with (N.succ (N.of_nat (length s))) by lia.
  rewrite N.pow_succ_r'. assert (d <= 15) by (destruct Hd; lia). nia.
Qed.
Lemma code_point_ok h n : hexnum h n -> h <> [] -> scalar_value n -> code_point h = inl n.
Proof. intros H1 H2 H3. unfold code_point. rewrite (u32_hex _ _ H1 H2), (scalar_from _ H3). reflexivity. Qed.

(** * Decoding *)
Lemma parse_escape v ml e x r : escape (negb (is_v1_0_0 v)) e x ->
  parse_basic v ml None (92 :: e ++ r) = dcons x (parse_basic v ml None r).
Proof.
  intros H. destruct H as [| | | | | | |h n Hh Hl Hs|h n Hh Hl Hs|Hv|h n Hv Hh Hl]; try reflexivity.
  - assert (Hn : h <> []) by (intros ->; discriminate).
    pose proof (code_point_ok h n Hh Hn Hs) as HC.
    do 4 (destruct h as [|? h]; [discriminate|]). destruct h; [|discriminate].
    change (parse_basic v ml None (92 :: (117 :: [n0; n1; n2; n3]) ++ r))
      with (match code_point [n0; n1; n2; n3] with inl x => dcons x (parse_basic v ml None r) | inr e => DErr e end).
    rewrite HC. reflexivity.
  - assert (Hn : h <> []) by (intros ->; discriminate).
    pose proof (code_point_ok h n Hh Hn Hs) as HC.
    do 8 (destruct h as [|? h]; [discriminate|]). destruct h; [|discriminate].
    change (parse_basic v ml None (92 :: (85 :: [n0; n1; n2; n3; n4; n5; n6; n7]) ++ r))
      with (match code_point [n0; n1; n2; n3; n4; n5; n6; n7] with inl x => dcons x (parse_basic v ml None r) | inr e => DErr e end).
    rewrite HC. reflexivity.
  - destruct v; simpl in Hv; try discriminate; reflexivity.
  - assert (Hn : h <> []) by (intros ->; discriminate).
    assert (Hs : scalar_value n).
    { pose proof (hexnum_bound _ _ Hh) as HB. rewrite Hl in HB. simpl in HB. unfold scalar_value. lia. }
    pose proof (code_point_ok h n Hh Hn Hs) as HC.
    do 2 (destruct h as [|? h]; [discriminate|]). destruct h; [|discriminate].
    destruct v; simpl in Hv; try discriminate;
    match goal with |- parse_basic ?v _ _ _ = _ =>
      change (parse_basic v ml None (92 :: (120 :: [n0; n1]) ++ r))
        with (match code_point [n0; n1] with inl x => dcons x (parse_basic v ml None r) | inr e => DErr e end) end;
    rewrite HC; reflexivity.
Qed.

Lemma parse_plain v ml c r : c <> 92 -> is_forbidden_control c = false ->
  parse_basic v ml None (c :: r) = dcons c (parse_basic v ml None r).
Proof.
  intros H1 H2. cbn [parse_basic]. replace (N.eqb c 92) with false by lia.
  replace (ml && (N.eqb c 13 || N.eqb c 10)) with false.
  - rewrite H2. reflexivity.
  - unfold is_forbidden_control, in_range in H2. destruct ml; simpl; lia.
Qed.

Lemma unescaped_ok c : basic_unescaped c -> c <> 92 /\ c <> 34 /\ c <> 10 /\ c <> 13 /\ is_forbidden_control c = false.
Proof.
  unfold basic_unescaped, wschar, non_ascii, is_forbidden_control, in_range. intros H. repeat split; lia.
Qed.
Lemma literal_ok c : literal_char c -> c <> 39 /\ c <> 10 /\ c <> 13 /\ is_forbidden_control c = false.
Proof.
  unfold literal_char, non_ascii, is_forbidden_control, in_range. intros H. repeat split; lia.
Qed.

Lemma decode_basic v b s : basic_body (negb (is_v1_0_0 v)) b s -> parse_basic_string b v false = DOk s.
Proof.
  unfold parse_basic_string. induction 1 as [|c b s Hc H IH|e x b s He H IH].
  - reflexivity.
  - apply unescaped_ok in Hc as (H1 & _ & _ & _ & H2). rewrite parse_plain, IH by auto. reflexivity.
  - rewrite parse_escape with (x := x), IH by auto. reflexivity.
Qed.

Lemma parse_newline v nl r : newline nl ->
  parse_basic v true None (nl ++ r) = match parse_basic v true None r with DOk s => DOk (nl ++ s) | e => e end.
Proof.
  intros [->| ->]; cbn [app].
  - cbn [parse_basic]. simpl. destruct (parse_basic v true None r); reflexivity.
  - cbn [parse_basic]. simpl. destruct (parse_basic v true None r); reflexivity.
Qed.

Lemma skip_ws v ml hw t r : forallb is_unicode_whitespace t = true ->
  parse_basic v ml (Some hw) (t ++ r) = parse_basic v ml (Some (hw || existsb (fun c => N.eqb c 10) t)) r.
Proof.
  revert hw; induction t as [|c t IH]; intros hw H; cbn [app existsb].
  - rewrite orb_false_r. reflexivity.
  - simpl in H. apply andb_true_iff in H as [H1 H2]. cbn [parse_basic]. rewrite H1.
    rewrite IH by auto. rewrite orb_assoc. reflexivity.
Qed.
Lemma skip_end v ml r : (forall c r', r = c :: r' -> is_unicode_whitespace c = false) ->
  parse_basic v ml (Some true) r = parse_basic v ml None r.
Proof.
  intros H. destruct r as [|c r]; [reflexivity|]. cbn [parse_basic]. rewrite (H c r eq_refl). reflexivity.
Qed.

Definition ascii_space (c : char) : Prop := c = 9 \/ c = 10 \/ c = 13 \/ c = 32.
(** No character of White_Space other than tab, LF, CR and space. *)
Definition ascii_spaces_only (b : str) : Prop := Forall (fun c => is_unicode_whitespace c = true -> ascii_space c) b.

Lemma ws_unicode c : wschar c -> is_unicode_whitespace c = true.
Proof. intros [->| ->]; reflexivity. Qed.
Lemma nl_unicode n : newline n -> forallb is_unicode_whitespace n = true /\ existsb (fun c => N.eqb c 10) n = true.
Proof. intros [->| ->]; split; reflexivity. Qed.
Lemma trimmed_unicode t : trimmed t -> forallb is_unicode_whitespace t = true.
Proof.
  induction 1 as [|c s Hc H IH|n s Hn H IH]; auto.
  - cbn [forallb]. rewrite ws_unicode, IH; auto.
  - rewrite forallb_app, IH. apply nl_unicode in Hn as [-> _]. reflexivity.
Qed.
Lemma wss_unicode ws : Forall wschar ws -> forallb is_unicode_whitespace ws = true.
Proof. induction 1; auto. cbn [forallb]. rewrite ws_unicode; auto. Qed.

Lemma parse_trim v ml ws nl t b :
  Forall wschar ws -> newline nl -> trimmed t -> ~ starts_trimmable b -> ascii_spaces_only b ->
  parse_basic v ml None (92 :: ws ++ nl ++ t ++ b) = parse_basic v ml None b.
Proof.
  intros Hws Hnl Ht Hb Ha.
  assert (HU : forallb is_unicode_whitespace (ws ++ nl ++ t) = true).
  { rewrite !forallb_app, (wss_unicode ws Hws), (trimmed_unicode t Ht). apply nl_unicode in Hnl as [-> _]. reflexivity. }
  assert (HN : existsb (fun c => N.eqb c 10) (ws ++ nl ++ t) = true).
  { rewrite !existsb_app. apply nl_unicode in Hnl as [_ ->]. rewrite orb_true_r. reflexivity. }
  assert (HE : parse_basic v ml (Some true) b = parse_basic v ml None b).
  { apply skip_end. intros c r' ->. destruct (is_unicode_whitespace c) eqn:E; auto. exfalso. inversion Ha; subst.
    apply H1 in E. apply Hb. simpl. unfold ascii_space, wschar in *. tauto. }
  replace (92 :: ws ++ nl ++ t ++ b) with (92 :: (ws ++ nl ++ t) ++ b) by (rewrite <- !app_assoc; reflexivity).
  destruct (ws ++ nl ++ t) as [|x u] eqn:EU; [discriminate|].
  cbn [forallb existsb] in HU, HN. apply andb_true_iff in HU as [HU1 HU2].
  assert (HX : x = 9 \/ x = 32 \/ x = 10 \/ x = 13).
  { destruct ws as [|w ws].
    - destruct Hnl as [->| ->]; inversion EU; auto.
    - inversion EU; subst. inversion Hws; subst. destruct H1; auto. }
  assert (HS : parse_basic v ml None (92 :: (x :: u) ++ b) = parse_basic v ml (Some (N.eqb x 10)) (u ++ b)).
  { destruct HX as [->|[->|[->| ->]]]; reflexivity. }
  rewrite HS, skip_ws by auto. rewrite HN. exact HE.
Qed.

Lemma ascii_spaces_app a b : ascii_spaces_only (a ++ b) -> ascii_spaces_only b.
Proof. intros H. apply Forall_app in H. tauto. Qed.

Lemma decode_ml_basic v n b s : ml_basic_body (negb (is_v1_0_0 v)) n b s -> ascii_spaces_only b ->
  parse_basic_string b v true = DOk s.
Proof.
  unfold parse_basic_string.
  induction 1 as [n|n c b s Hc H IH|n e x b s He H IH|n nl b s Hn H IH|n b s Hn H IH|n ws nl t b s Hws Hnl Ht Hb H IH];
  intros Ha.
  - reflexivity.
  - apply unescaped_ok in Hc as (H1 & _ & _ & _ & H2). inversion Ha; subst. rewrite parse_plain, IH by auto. reflexivity.
  - rewrite parse_escape with (x := x) by auto. rewrite IH; auto.
    apply (ascii_spaces_app (92 :: e)). exact Ha.
  - rewrite parse_newline by auto. rewrite IH; auto. eapply ascii_spaces_app; eauto.
  - inversion Ha; subst. rewrite parse_plain, IH by (auto; discriminate). reflexivity.
  - assert (Hb' : ascii_spaces_only b).
    { apply (ascii_spaces_app (92 :: ws ++ nl ++ t)). cbn [app]. rewrite <- !app_assoc. exact Ha. }
    rewrite parse_trim by auto. auto.
Qed.

Lemma decode_literal b : literal_body b -> parse_literal_string b false = DOk b.
Proof.
  induction 1 as [|c b Hc H IH]; [reflexivity|]. cbn [parse_literal_string andb].
  apply literal_ok in Hc as (_ & _ & _ & ->). rewrite IH. reflexivity.
Qed.
Lemma decode_ml_literal n b : ml_literal_body n b -> parse_literal_string b true = DOk b.
Proof.
  induction 1 as [n|n c b Hc H IH|n nl b Hn H IH|n b Hn H IH].
  - reflexivity.
  - apply literal_ok in Hc as (_ & H1 & H2 & H3). cbn [parse_literal_string andb].
    replace (N.eqb c 13 || N.eqb c 10) with false by lia. rewrite H3, IH. reflexivity.
  - destruct Hn as [->| ->]; cbn [app parse_literal_string andb]; simpl; rewrite IH; reflexivity.
  - cbn [parse_literal_string andb]. simpl. rewrite IH. reflexivity.
Qed.

(** * Delimiters *)
Lemma strip_delims d b : strip (len_bytes d) (d ++ b ++ d) = Some b.
Proof.
  unfold strip. rewrite !len_bytes_app.
  replace (len_bytes d + (len_bytes b + len_bytes d) <? len_bytes d) with false by lia.
  replace (len_bytes d + (len_bytes b + len_bytes d) - len_bytes d) with (len_bytes (d ++ b)) by (rewrite len_bytes_app; lia).
  replace (len_bytes (d ++ b) <? len_bytes d) with false by (rewrite len_bytes_app; lia).
  apply slice_app.
Qed.

Lemma try_basic v b s : basic_body (negb (is_v1_0_0 v)) b s -> try_from_basic_string ([34] ++ b ++ [34]) v = DOk s.
Proof.
  intros H. unfold try_from_basic_string, on_strip. rewrite (strip_delims [34]). apply decode_basic; auto.
Qed.
Lemma try_literal b : literal_body b -> try_from_literal_string ([39] ++ b ++ [39]) = DOk b.
Proof.
  intros H. unfold try_from_literal_string, on_strip. rewrite (strip_delims [39]). apply decode_literal; auto.
Qed.

Definition simple_start (b0 b : str) : Prop :=
  (forall r, b0 <> 13 :: r) /\ (forall r, b <> 10 :: r).
Lemma skip_simple b0 b : after_delimiter b0 b -> simple_start b0 b -> skip_newlines b0 = b.
Proof.
  intros H [H1 H2]. unfold skip_newlines. destruct H as [n b [->| ->]|b Hb].
  - cbn [app drop_while]. simpl. destruct b as [|c b]; auto. cbn [drop_while].
    destruct (N.eqb_spec c 10) as [->|]; auto. exfalso. eapply H2; eauto.
  - exfalso. eapply H1. reflexivity.
  - destruct b as [|c b]; auto. cbn [drop_while].
    destruct (N.eqb_spec c 10) as [->|]; auto. exfalso. eapply H2; eauto.
Qed.

Lemma try_ml_basic v b0 b s : after_delimiter b0 b -> ml_basic_body (negb (is_v1_0_0 v)) 0 b s ->
  simple_start b0 b -> ascii_spaces_only b ->
  try_from_multi_line_basic_string ([34;34;34] ++ b0 ++ [34;34;34]) v = DOk s.
Proof.
  intros H1 H2 H3 H4. unfold try_from_multi_line_basic_string, on_strip.
  change 3 with (len_bytes [34;34;34]). rewrite strip_delims, (skip_simple b0 b) by auto. eapply decode_ml_basic; eauto.
Qed.
Lemma try_ml_literal b0 b : after_delimiter b0 b -> ml_literal_body 0 b -> simple_start b0 b ->
  try_from_multi_line_literal_string ([39;39;39] ++ b0 ++ [39;39;39]) = DOk b.
Proof.
  intros H1 H2 H3. unfold try_from_multi_line_literal_string, on_strip.
  change 3 with (len_bytes [39;39;39]). rewrite strip_delims, (skip_simple b0 b) by auto. eapply decode_ml_literal; eauto.
Qed.

(** * Lexing *)
Definition not_start (q : char) (s : str) : Prop := forall r, s <> q :: r.

Definition plain_in_string (c : char) : Prop := c <> 34 /\ c <> 92 /\ c <> 10 /\ c <> 13.
Inductive qf : str -> Prop :=
| qf_nil : qf []
| qf_ord c b : plain_in_string c -> qf b -> qf (c :: b)
| qf_esc y b : y = 34 \/ y = 92 -> qf b -> qf (92 :: y :: b)
| qf_bs y b : plain_in_string y -> qf (y :: b) -> qf (92 :: y :: b).

Lemma qf_plains l b : Forall plain_in_string l -> qf b -> qf (l ++ b).
Proof. induction 1; simpl; auto. intros. constructor; auto. Qed.

Lemma hex_plain c : 48 <= c <= 57 \/ 65 <= c <= 70 \/ 97 <= c <= 102 -> plain_in_string c.
Proof. unfold plain_in_string. lia. Qed.
Lemma hexnum_plain h n : hexnum h n -> Forall plain_in_string h.
Proof. intros H. eapply Forall_impl; [|eapply hexnum_chars; eauto]. intros a; apply hex_plain. Qed.

(** The text of an escape after the backslash: a quote or backslash, or plain characters. *)
Lemma escape_shape v11 e x : escape v11 e x ->
  e = [34] \/ e = [92] \/ (exists y l, e = y :: l /\ Forall plain_in_string (y :: l)).
Proof.
  assert (HP : forall c, c = 98 \/ c = 116 \/ c = 110 \/ c = 102 \/ c = 114 \/ c = 117 \/ c = 85 \/ c = 101 \/ c = 120 -> plain_in_string c)
    by (unfold plain_in_string; intros; lia).
  intros [| | | | | | |h n Hh _ _|h n Hh _ _|Hv|h n Hv Hh _]; auto;
  right; right; eexists _, _; (split; [reflexivity|]); constructor; try (apply HP; lia); eauto using hexnum_plain.
Qed.

Lemma qf_escape v11 e x b : escape v11 e x -> qf b -> qf (92 :: e ++ b).
Proof.
  intros H Hb. destruct (escape_shape _ _ _ H) as [->|[->|(y & l & -> & Hl)]]; cbn [app].
  - apply qf_esc; auto.
  - apply qf_esc; auto.
  - inversion Hl; subst. apply qf_bs; auto. change (y :: l ++ b) with ((y :: l) ++ b). apply qf_plains; auto.
Qed.
Lemma basic_qf v11 b s : basic_body v11 b s -> qf b.
Proof.
  induction 1 as [|c b s Hc H IH|e x b s He H IH]; [constructor| |eapply qf_escape; eauto].
  apply unescaped_ok in Hc. apply qf_ord; auto. unfold plain_in_string. tauto.
Qed.

Lemma qf_no_break b s : qf b -> is_line_break (nth 0 (b ++ 34 :: s) EOF_CHAR) = false.
Proof.
  intros H. destruct H as [|c b Hc _|y b _ _|y b _ _]; try reflexivity. simpl.
  unfold is_line_break, c_cr, c_nl. unfold plain_in_string in Hc. lia.
Qed.

Lemma basic_loop_lex b : qf b -> forall c s, rest c = b ++ 34 :: s -> yields c BASIC_STRING s (basic_string_loop (b ++ 34 :: s) c).
Proof.
  induction 1 as [|x b Hx H IH|y b Hy H IH|y b Hy H IH]; intros c s HR.
  - cbn [app basic_string_loop]. destruct (adv_bump_cons c _ _ HR) as (_ & HR1 & _).
    simpl. apply yields_ok. exact HR1.
  - cbn [app basic_string_loop] in *. destruct (adv_bump_cons c _ _ HR) as (_ & HR1 & _).
    destruct Hx as (N1 & N2 & N3 & N4). unfold c_dquote, c_backslash.
    replace (N.eqb x 34) with false by lia. replace (N.eqb x 92) with false by lia. cbn [andb].
    unfold peek at 1. rewrite HR1. cbn [Nat.sub]. rewrite (qf_no_break b s) by auto. 
    specialize (IH (bump c) s HR1). destruct IH as (t & K1 & K2 & K3). exists t. auto.
  - cbn [app basic_string_loop] in *. destruct (adv_bump_cons c _ _ HR) as (_ & HR1 & _).
    destruct (adv_bump_cons (bump c) _ _ HR1) as (_ & HR2 & _).
    unfold c_dquote, c_backslash, peek. rewrite HR1. cbn [Nat.sub nth].
    replace (N.eqb 92 34) with false by reflexivity. 
    replace (N.eqb 92 92 && (N.eqb y 34 || N.eqb y 92)) with true by lia.
    specialize (IH (bump (bump c)) s HR2). destruct IH as (t & K1 & K2 & K3). exists t. auto.
  - cbn [app] in *. destruct (adv_bump_cons c _ _ HR) as (_ & HR1 & _).
    specialize (IH (bump c) s HR1).
    assert (E : basic_string_loop (92 :: y :: b ++ 34 :: s) c = basic_string_loop (y :: b ++ 34 :: s) (bump c)).
    { destruct Hy as (N1 & N2 & N3 & N4). cbn [basic_string_loop]. unfold c_dquote at 1, c_backslash at 1.
      replace (N.eqb 92 34) with false by reflexivity.
      unfold peek at 1 2 3. rewrite HR1. cbn [Nat.sub nth].
      replace (N.eqb 92 92 && (N.eqb y c_dquote || N.eqb y c_backslash)) with false by (unfold c_dquote, c_backslash; lia).
      replace (is_line_break y) with false by (unfold is_line_break, c_cr, c_nl; lia). reflexivity. }
    rewrite E. destruct IH as (t & K1 & K2 & K3). exists t. auto.
Qed.

Lemma dispatch_dquote c r : rest c = 34 :: r ->
  advance_token c = Some (if matches_str [c_dquote; c_dquote; c_dquote] (bump c) then multi_line_basic_string (bump c) else basic_string (bump c)).
Proof.
  intros H. unfold advance_token. rewrite H. destruct (adv_bump_cons c _ _ H) as (_ & _ & HC). cbv zeta. rewrite HC. reflexivity.
Qed.
Lemma dispatch_squote c r : rest c = 39 :: r ->
  advance_token c = Some (if matches_str [c_squote; c_squote; c_squote] (bump c) then multi_line_literal_string (bump c) else literal_string (bump c)).
Proof.
  intros H. unfold advance_token. rewrite H. destruct (adv_bump_cons c _ _ H) as (_ & _ & HC). cbv zeta. rewrite HC. reflexivity.
Qed.

Lemma matches3_iff q c : matches_str [q; q; q] c = N.eqb (current c) q && N.eqb (nth 0 (rest c) EOF_CHAR) q && N.eqb (nth 1 (rest c) EOF_CHAR) q.
Proof.
  unfold matches_str, matches_from, peek. cbn [Nat.sub].
  destruct (N.eqb (current c) q); auto. destruct (N.eqb (nth 0 (rest c) EOF_CHAR) q); auto. 
  destruct (N.eqb (nth 1 (rest c) EOF_CHAR) q); auto.
Qed.

Lemma basic_lexed c b s : qf b -> not_start 34 s -> rest c = 34 :: b ++ 34 :: s -> lexed_as c BASIC_STRING s.
Proof.
  intros Hb Hs HR. destruct (adv_bump_cons c _ _ HR) as (_ & HR1 & HC).
  eapply yields_lexed with (c0 := bump c); [eapply dispatch_dquote; eauto|].
  assert (HM : matches_str [c_dquote; c_dquote; c_dquote] (bump c) = false).
  { rewrite matches3_iff, HC, HR1. destruct Hb as [|x b Hx Hb|y b Hy Hb|y b Hy Hb]; cbn [app nth].
    - destruct s as [|z s]; [reflexivity|]. cbn [nth]. unfold c_dquote. destruct (N.eqb_spec z 34) as [->|]; auto.
      exfalso. eapply Hs; eauto.
    - destruct Hx as [Hx _]. unfold c_dquote. replace (N.eqb x 34) with false by lia. reflexivity.
    - reflexivity.
    - reflexivity. }
  rewrite HM. unfold basic_string. rewrite HR1. apply basic_loop_lex; auto.
Qed.

Definition plain_in_literal (c : char) : Prop := c <> 39 /\ c <> 10 /\ c <> 13.
Lemma literal_loop_lex b : Forall plain_in_literal b -> forall c s, rest c = b ++ 39 :: s ->
  yields c LITERAL_STRING s (literal_string_loop (b ++ 39 :: s) c).
Proof.
  induction 1 as [|x b Hx H IH]; intros c s HR.
  - cbn [app literal_string_loop]. destruct (adv_bump_cons c _ _ HR) as (_ & HR1 & _).
    simpl. apply yields_ok. exact HR1.
  - cbn [app literal_string_loop] in *. destruct (adv_bump_cons c _ _ HR) as (_ & HR1 & _).
    destruct Hx as (N1 & N2 & N3). unfold c_squote.
    replace (N.eqb x 39) with false by lia.
    unfold peek at 1. rewrite HR1. cbn [Nat.sub].
    replace (is_line_break (nth 0 (b ++ 39 :: s) EOF_CHAR)) with false.
    + destruct (IH (bump c) s HR1) as (t & K1 & K2 & K3). exists t. auto.
    + symmetry. destruct H as [|y b (M1 & M2 & M3) _]; [reflexivity|]. simpl. unfold is_line_break, c_cr, c_nl. lia.
Qed.
Lemma literal_lexed c b s : Forall plain_in_literal b -> not_start 39 s -> rest c = 39 :: b ++ 39 :: s -> lexed_as c LITERAL_STRING s.
Proof.
  intros Hb Hs HR. destruct (adv_bump_cons c _ _ HR) as (_ & HR1 & HC).
  eapply yields_lexed with (c0 := bump c); [eapply dispatch_squote; eauto|].
  assert (HM : matches_str [c_squote; c_squote; c_squote] (bump c) = false).
  { rewrite matches3_iff, HC, HR1. destruct Hb as [|x b [Hx _] Hb]; cbn [app nth].
    - destruct s as [|z s]; [reflexivity|]. cbn [nth]. unfold c_squote. destruct (N.eqb_spec z 39) as [->|]; auto.
      exfalso. eapply Hs; eauto.
    - unfold c_squote. replace (N.eqb x 39) with false by lia. reflexivity. }
  rewrite HM. unfold literal_string. rewrite HR1. apply literal_loop_lex; auto.
Qed.
Lemma literal_body_plain b : literal_body b -> Forall plain_in_literal b.
Proof. apply Forall_impl. intros a H. apply literal_ok in H. unfold plain_in_literal. tauto. Qed.

(** ** Multi-line strings *)
Lemma take_quotes q s n : not_start q s -> take_while (fun y => N.eqb y q) (repeat q n ++ s) = repeat q n.
Proof.
  intros Hs. rewrite take_while_app.
  - destruct s as [|x s]; [apply app_nil_r|]. cbn [take_while]. destruct (N.eqb_spec x q) as [->|]; [exfalso; eapply Hs; eauto|apply app_nil_r].
  - induction n; cbn [repeat forallb]; auto. rewrite N.eqb_refl. auto.
Qed.
Lemma drop_quotes q s n : not_start q s -> drop_while (fun y => N.eqb y q) (repeat q n ++ s) = s.
Proof.
  intros Hs. rewrite drop_while_app.
  - destruct s as [|x s]; [reflexivity|]. cbn [drop_while]. destruct (N.eqb_spec x q) as [->|]; [exfalso; eapply Hs; eauto|reflexivity].
  - induction n; cbn [repeat forallb]; auto. rewrite N.eqb_refl. auto.
Qed.
Lemma len_repeat q n : q < 128 -> len_bytes (repeat q n) = N.of_nat n.
Proof.
  intros Hq. induction n; [reflexivity|]. cbn [repeat len_bytes]. rewrite IHn. unfold len_utf8.
  replace (q <? 128) with true by lia. lia.
Qed.

Lemma ml_literal_close c n s : (2 <= n <= 4)%nat -> not_start 39 s -> rest c = 39 :: repeat 39 n ++ s ->
  yields c MULTI_LINE_LITERAL_STRING s (multi_line_literal_string_loop (rest c) c).
Proof.
  intros Hn Hs HR. rewrite HR. cbn [multi_line_literal_string_loop].
  destruct (adv_bump_cons c _ _ HR) as (_ & HR1 & HC). rewrite HC.
  assert (HP : N.eqb (peek 1 (bump c)) c_squote = true /\ N.eqb (peek 2 (bump c)) c_squote = true).
  { unfold peek. rewrite HR1. destruct n as [|[|n]]; try lia. split; reflexivity. }
  destruct HP as [-> ->]. unfold c_squote at 1. cbn [N.eqb Pos.eqb andb].
  unfold peek_while. rewrite HR1. unfold c_squote. rewrite take_quotes by auto. rewrite len_repeat by lia.
  replace (4 <? N.of_nat n) with false by lia. apply yields_ok. rewrite eat_while_rest, HR1, drop_quotes; auto.
Qed.

Lemma ml_literal_step c x r s0 : rest c = x :: r ->
  (x =? 39) && (nth 0 r EOF_CHAR =? 39) && (nth 1 r EOF_CHAR =? 39) = false ->
  yields (bump c) MULTI_LINE_LITERAL_STRING s0 (multi_line_literal_string_loop (rest (bump c)) (bump c)) ->
  yields c MULTI_LINE_LITERAL_STRING s0 (multi_line_literal_string_loop (rest c) c).
Proof.
  intros HR HN IH. destruct (adv_bump_cons c _ _ HR) as (_ & HR1 & HC). rewrite HR. cbn [multi_line_literal_string_loop].
  rewrite HC. unfold peek at 1 2. rewrite HR1. cbn [Nat.sub]. unfold c_squote at 1 2 3. rewrite HN.
  rewrite HR1 in IH. destruct IH as (t & K1 & K2 & K3). exists t. auto.
Qed.

Lemma ml_literal_loop_lex n b : ml_literal_body n b -> forall c s, not_start 39 s -> rest c = b ++ [39;39;39] ++ s ->
  yields c MULTI_LINE_LITERAL_STRING s (multi_line_literal_string_loop (rest c) c).
Proof.
  induction 1 as [n|n x b Hx H IH|n nl b Hn H IH|n b Hn H IH]; intros c s Hs HR.
  - apply (ml_literal_close c 2); auto.
  - cbn [app] in HR. eapply ml_literal_step; [exact HR| |].
    + apply literal_ok in Hx as (N1 & _). replace (N.eqb x 39) with false by lia. reflexivity.
    + destruct (adv_bump_cons c _ _ HR) as (_ & HR1 & HC). apply IH; auto.
  - destruct Hn as [->| ->]; cbn [app] in HR.
    + destruct (adv_bump_cons c _ _ HR) as (_ & HR1 & HC). eapply ml_literal_step; [exact HR|reflexivity|]. apply IH; auto.
    + destruct (adv_bump_cons c _ _ HR) as (_ & HR1 & HC). destruct (adv_bump_cons (bump c) _ _ HR1) as (_ & HR2 & _).
      eapply ml_literal_step; [exact HR|reflexivity|]. eapply ml_literal_step; [exact HR1|reflexivity|]. apply IH; auto.
  - cbn [app] in HR. destruct (adv_bump_cons c _ _ HR) as (_ & HR1 & HC).
    inversion H as [n' E1 E2|n' x b' Hx H' E1 E2|n' nl b' Hnl H' E1 E2|n' b' Hn' H' E1 E2]; subst.
    + apply (ml_literal_close c 3); auto.
    + eapply ml_literal_step; [exact HR| |apply IH; auto]. apply literal_ok in Hx as (N1 & _). cbn [app nth].
      replace (N.eqb x 39) with false by lia. reflexivity.
    + eapply ml_literal_step; [exact HR| |apply IH; auto]. destruct Hnl as [->| ->]; reflexivity.
    + inversion H' as [n2 E1 E2|n2 x b2 Hx H2 E1 E2|n2 nl b2 Hnl H2 E1 E2|n2 b2 Hn2 H2 E1 E2]; subst.
      * apply (ml_literal_close c 4); auto.
      * eapply ml_literal_step; [exact HR| |apply IH; auto]. apply literal_ok in Hx as (N1 & _). cbn [app nth].
        replace (N.eqb x 39) with false by lia. rewrite andb_false_r. reflexivity.
      * eapply ml_literal_step; [exact HR| |apply IH; auto]. destruct Hnl as [->| ->]; reflexivity.
      * lia.
Qed.

Lemma ml_literal_lexed c b s : ml_literal_body 0 b -> not_start 39 s -> rest c = [39;39;39] ++ b ++ [39;39;39] ++ s ->
  lexed_as c MULTI_LINE_LITERAL_STRING s.
Proof.
  intros Hb Hs HR. cbn [app] in HR. destruct (adv_bump_cons c _ _ HR) as (_ & HR1 & HC).
  eapply yields_lexed with (c0 := bump c); [eapply dispatch_squote; eauto|].
  rewrite matches3_iff, HC, HR1. cbn [nth]. unfold c_squote. cbn [N.eqb Pos.eqb andb].
  unfold multi_line_literal_string.
  assert (HE : rest (eat_n 2 (bump c)) = b ++ [39;39;39] ++ s) by (rewrite eat_n_rest, HR1; reflexivity).
  destruct (ml_literal_loop_lex 0 b Hb (eat_n 2 (bump c)) s Hs HE) as (t & K1 & K2 & K3). exists t. auto.
Qed.

Lemma ml_basic_close c n s : (2 <= n <= 4)%nat -> not_start 34 s -> rest c = 34 :: repeat 34 n ++ s ->
  yields c MULTI_LINE_BASIC_STRING s (multi_line_basic_string_loop (rest c) false c).
Proof.
  intros Hn Hs HR. rewrite HR. cbn [multi_line_basic_string_loop negb andb].
  destruct (adv_bump_cons c _ _ HR) as (_ & HR1 & HC). rewrite HC.
  assert (HP : N.eqb (peek 1 (bump c)) c_dquote = true /\ N.eqb (peek 2 (bump c)) c_dquote = true).
  { unfold peek. rewrite HR1. destruct n as [|[|n]]; try lia. split; reflexivity. }
  destruct HP as [-> ->]. unfold c_dquote at 1. cbn [N.eqb Pos.eqb andb].
  unfold peek_while. rewrite HR1. unfold c_dquote. rewrite take_quotes by auto. rewrite len_repeat by lia.
  replace (4 <? N.of_nat n) with false by lia. apply yields_ok. rewrite eat_while_rest, HR1, drop_quotes; auto.
Qed.

Lemma ml_basic_step q c x r s0 : rest c = x :: r ->
  negb q && (x =? 34) && (nth 0 r EOF_CHAR =? 34) && (nth 1 r EOF_CHAR =? 34) = false ->
  yields (bump c) MULTI_LINE_BASIC_STRING s0 (multi_line_basic_string_loop (rest (bump c)) (N.eqb x 92) (bump c)) ->
  yields c MULTI_LINE_BASIC_STRING s0 (multi_line_basic_string_loop (rest c) q c).
Proof.
  intros HR HN IH. destruct (adv_bump_cons c _ _ HR) as (_ & HR1 & HC). rewrite HR. cbn [multi_line_basic_string_loop].
  rewrite HC. unfold peek at 1 2. rewrite HR1. cbn [Nat.sub]. unfold c_dquote at 1 2 3. rewrite HN.
  rewrite HR1 in IH. unfold c_backslash. destruct (N.eqb x 92); destruct IH as (t & K1 & K2 & K3); exists t; auto.
Qed.

Lemma ml_basic_plain q c x r s0 : rest c = x :: r -> x <> 34 -> x <> 92 ->
  yields (bump c) MULTI_LINE_BASIC_STRING s0 (multi_line_basic_string_loop (rest (bump c)) false (bump c)) ->
  yields c MULTI_LINE_BASIC_STRING s0 (multi_line_basic_string_loop (rest c) q c).
Proof.
  intros HR N1 N2 IH. eapply ml_basic_step; [exact HR| |].
  - replace (N.eqb x 34) with false by lia. rewrite andb_false_r. reflexivity.
  - replace (N.eqb x 92) with false by lia. exact IH.
Qed.

(** The body goes on after the characters [l], none of which is a quote or a backslash. *)
Lemma ml_basic_plains l : Forall (fun x => x <> 34 /\ x <> 92) l -> forall q c r s0, l <> [] -> rest c = l ++ r ->
  (forall c', rest c' = r -> yields c' MULTI_LINE_BASIC_STRING s0 (multi_line_basic_string_loop (rest c') false c')) ->
  yields c MULTI_LINE_BASIC_STRING s0 (multi_line_basic_string_loop (rest c) q c).
Proof.
  induction 1 as [|x l [N1 N2] Hl IH]; intros q c r s0 Hne HR K; [contradiction|].
  cbn [app] in HR. destruct (adv_bump_cons c _ _ HR) as (_ & HR1 & HC).
  eapply ml_basic_plain; eauto. destruct l as [|y l]; [apply K; exact HR1|].
  eapply IH; eauto. discriminate.
Qed.

Lemma newline_plain n : newline n -> Forall (fun x => x <> 34 /\ x <> 92) n /\ n <> [].
Proof. intros [->| ->]; split; try discriminate; repeat constructor; lia. Qed.
Lemma trimmed_plain t : trimmed t -> Forall (fun x => x <> 34 /\ x <> 92) t.
Proof.
  induction 1 as [|c s [->| ->] H IH|n s Hn H IH]; auto.
  - constructor; auto. lia.
  - constructor; auto. lia.
  - apply Forall_app. split; auto. apply newline_plain; auto.
Qed.

Definition last_is_backslash (b : str) : Prop := exists p, b = p ++ [92].

Lemma yields_any c c' k s res : yields c k s res -> yields c' k s res.
Proof. intros (t & H). exists t. exact H. Qed.

Lemma last_backslash_app a b : ~ last_is_backslash (a ++ b) -> ~ last_is_backslash b.
Proof. intros Hn (p & ->). apply Hn. exists (a ++ p). apply app_assoc. Qed.
Lemma ml_basic_loop_lex v11 n b val : ml_basic_body v11 n b val ->
  ~ last_is_backslash b -> forall q c s, (b = [] -> q = false) -> not_start 34 s -> rest c = b ++ [34;34;34] ++ s ->
  yields c MULTI_LINE_BASIC_STRING s (multi_line_basic_string_loop (rest c) q c).
Proof.
  induction 1 as [n|n x b val Hx H IH|n e x b val He H IH|n nl b val Hn H IH|n b val Hn H IH|n ws nl t b val Hws Hnl Ht Hb H IH];
  intros Hlast q c s Hq Hs HR.
  - rewrite Hq by auto. apply (ml_basic_close c 2); auto.
  - cbn [app] in HR. destruct (adv_bump_cons c _ _ HR) as (_ & HR1 & _). apply unescaped_ok in Hx as (N1 & N2 & _).
    eapply ml_basic_plain; eauto. apply IH; auto. apply (last_backslash_app [x]). exact Hlast.
  - cbn [app] in HR. destruct (adv_bump_cons c _ _ HR) as (_ & HR1 & _).
    eapply ml_basic_step; [exact HR|rewrite andb_false_r; reflexivity|]. change (N.eqb 92 92) with true. cbv beta.
    assert (Hb : ~ last_is_backslash b) by (apply (last_backslash_app (92 :: e)); exact Hlast).
    destruct (escape_shape _ _ _ He) as [->|[->|(y & l & -> & Hl)]].
    + cbn [app] in HR1. destruct (adv_bump_cons (bump c) _ _ HR1) as (_ & HR2 & _).
      eapply ml_basic_step; [exact HR1|reflexivity|]. apply IH; auto.
    + cbn [app] in HR1. destruct (adv_bump_cons (bump c) _ _ HR1) as (_ & HR2 & _).
      eapply ml_basic_step; [exact HR1|reflexivity|]. apply IH; auto.
      intros ->. exfalso. apply Hlast. exists [92]. reflexivity.
    + rewrite <- app_assoc in HR1. eapply ml_basic_plains with (l := y :: l); [|discriminate|exact HR1|].
      * eapply Forall_impl; [|exact Hl]. unfold plain_in_string. intros a Ha; tauto.
      * intros c' HR'. apply IH; auto.
  - rewrite <- app_assoc in HR. apply newline_plain in Hn as [Hn1 Hn2].
    eapply ml_basic_plains; [exact Hn1|exact Hn2|exact HR|]. intros c' HR'. apply IH; auto.
    eapply last_backslash_app; exact Hlast.
  - cbn [app] in HR. destruct (adv_bump_cons c _ _ HR) as (_ & HR1 & HC).
    assert (Hb : ~ last_is_backslash b) by (apply (last_backslash_app [34]); exact Hlast).
    assert (HI : yields (bump c) MULTI_LINE_BASIC_STRING s (multi_line_basic_string_loop (rest (bump c)) (N.eqb 34 92) (bump c)))
      by (apply IH; auto).
    destruct q; [eapply ml_basic_step; [exact HR|reflexivity|exact HI]|].
    inversion H as [n' E1 E2|n' x b' v' Hx H' E1 E2|n' e x b' v' He H' E1 E2|n' nl b' v' Hnl H' E1 E2|n' b' v' Hn' H' E1 E2|n' ws nl t b' v' Hws Hnl Ht Hb' H' E1 E2]; subst.
    + apply (ml_basic_close c 3); auto.
    + eapply ml_basic_step; [exact HR| |exact HI]. apply unescaped_ok in Hx as (_ & N1 & _). cbn [app nth].
      replace (N.eqb x 34) with false by lia. reflexivity.
    + eapply ml_basic_step; [exact HR| |exact HI]. reflexivity.
    + eapply ml_basic_step; [exact HR| |exact HI]. destruct Hnl as [->| ->]; reflexivity.
    + inversion H' as [n2 E1 E2|n2 x b2 v2 Hx H2 E1 E2|n2 e x b2 v2 He H2 E1 E2|n2 nl b2 v2 Hnl H2 E1 E2|n2 b2 v2 Hn2 H2 E1 E2|n2 ws nl t b2 v2 Hws Hnl Ht Hb2 H2 E1 E2]; subst.
      * apply (ml_basic_close c 4); auto.
      * eapply ml_basic_step; [exact HR| |exact HI]. apply unescaped_ok in Hx as (_ & N1 & _). cbn [app nth].
        replace (N.eqb x 34) with false by lia. rewrite andb_false_r. reflexivity.
      * eapply ml_basic_step; [exact HR| |exact HI]. reflexivity.
      * eapply ml_basic_step; [exact HR| |exact HI]. destruct Hnl as [->| ->]; reflexivity.
      * lia.
      * eapply ml_basic_step; [exact HR| |exact HI]. reflexivity.
    + eapply ml_basic_step; [exact HR| |exact HI]. reflexivity.
  - assert (HR' : rest c = [92] ++ (ws ++ nl ++ t) ++ b ++ [34;34;34] ++ s).
    { rewrite HR. cbn [app]. rewrite <- !app_assoc. reflexivity. }
    cbn [app] in HR'. destruct (adv_bump_cons c _ _ HR') as (_ & HR1 & _).
    eapply ml_basic_step; [exact HR'|rewrite andb_false_r; reflexivity|].
    eapply ml_basic_plains with (l := ws ++ nl ++ t); [| |exact HR1|].
    + apply Forall_app. split; [|apply Forall_app; split; [apply newline_plain; auto|apply trimmed_plain; auto]].
      eapply Forall_impl; [|exact Hws]. intros a [->| ->]; lia.
    + destruct Hnl as [->| ->]; intros E; apply app_eq_nil in E as [_ E]; discriminate.
    + intros c' HR''. apply IH; auto. apply (last_backslash_app (92 :: ws ++ nl ++ t)). cbn [app]. rewrite <- !app_assoc. exact Hlast.
Qed.

(** A body with the leading newline put back is still a body. *)
Lemma ml_basic_prefix v11 b0 b val : after_delimiter b0 b -> ml_basic_body v11 0 b val -> exists val0, ml_basic_body v11 0 b0 val0.
Proof.
  intros H Hb. destruct H as [n b Hn|b _]; [|eauto]. exists (n ++ val). apply mb_newline; auto.
Qed.
Lemma ml_literal_prefix b0 b : after_delimiter b0 b -> ml_literal_body 0 b -> ml_literal_body 0 b0.
Proof. intros H Hb. destruct H as [n b Hn|b _]; auto. apply ml_newline; auto. Qed.

Lemma ml_basic_lexed v11 c b val s : ml_basic_body v11 0 b val -> ~ last_is_backslash b -> not_start 34 s ->
  rest c = [34;34;34] ++ b ++ [34;34;34] ++ s -> lexed_as c MULTI_LINE_BASIC_STRING s.
Proof.
  intros Hb Hl Hs HR. cbn [app] in HR. destruct (adv_bump_cons c _ _ HR) as (_ & HR1 & HC).
  eapply yields_lexed with (c0 := bump c); [eapply dispatch_dquote; eauto|].
  rewrite matches3_iff, HC, HR1. cbn [nth]. unfold c_dquote. cbn [N.eqb Pos.eqb andb].
  unfold multi_line_basic_string.
  assert (HE : rest (eat_n 2 (bump c)) = b ++ [34;34;34] ++ s) by (rewrite eat_n_rest, HR1; reflexivity).
  eapply yields_any. eapply ml_basic_loop_lex; eauto.
Qed.

(** * Encoding *)
Definition decodable_by (v11 : bool) (c : char) : Prop :=
  c <> 0 /\ c <> 7 /\ c <> 11 /\ (v11 = false -> c <> 27).

Lemma hexdig_digit d : d < 16 -> hexdig (hex_digit_char d) d.
Proof.
  intros H. unfold hex_digit_char. destruct (N.ltb_spec d 10); [apply hex_09; lia|apply hex_af; lia].
Qed.
Lemma hex4_num n : n < 65536 -> hexnum (hex4 n) n.
Proof.
  intros H. unfold hex4.
  assert (HB : forall k, k mod 16 < 16) by (intros; apply N.mod_lt; lia).
  change [hex_digit_char (n / 4096 mod 16); hex_digit_char (n / 256 mod 16); hex_digit_char (n / 16 mod 16); hex_digit_char (n mod 16)]
    with (((([] ++ [hex_digit_char (n / 4096 mod 16)]) ++ [hex_digit_char (n / 256 mod 16)]) ++ [hex_digit_char (n / 16 mod 16)]) ++ [hex_digit_char (n mod 16)]).
  assert (E : n = 16 * (16 * (16 * (16 * 0 + n / 4096 mod 16) + n / 256 mod 16) + n / 16 mod 16) + n mod 16).
  { assert (E1 : n / 256 = n / 16 / 16) by (rewrite N.div_div by lia; reflexivity).
    assert (E2 : n / 4096 = n / 16 / 16 / 16) by (rewrite !N.div_div by lia; reflexivity).
    rewrite E1, E2.
    pose proof (N.div_mod' n 16). pose proof (N.div_mod' (n / 16) 16). pose proof (N.div_mod' (n / 16 / 16) 16).
    assert (n / 16 / 16 / 16 < 16).
    { rewrite !N.div_div by lia. apply N.div_lt_upper_bound; lia. }
    rewrite (N.mod_small (n / 16 / 16 / 16) 16) by auto. lia. }
  rewrite E at 5. repeat apply hexnum_snoc; try apply hexdig_digit; auto. constructor.
Qed.

Lemma escape_char_body v11 c : is_scalar c -> decodable_by v11 c ->
  (exists e, escape_char c = 92 :: e /\ escape v11 e c) \/ (escape_char c = [c] /\ basic_unescaped c).
Proof.
  intros HS (H0 & H7 & H11 & H27). unfold escape_char.
  destruct (N.eqb_spec c 34) as [->|]; [left; exists [34]; split; auto; constructor|].
  destruct (N.eqb_spec c 92) as [->|]; [left; exists [92]; split; auto; constructor|].
  destruct (N.eqb_spec c 0) as [->|]; [contradiction|].
  destruct (N.eqb_spec c 7) as [->|]; [contradiction|].
  destruct (N.eqb_spec c 8) as [->|]; [left; exists [98]; split; auto; constructor|].
  destruct (N.eqb_spec c 9) as [->|]; [left; exists [116]; split; auto; constructor|].
  destruct (N.eqb_spec c 10) as [->|]; [left; exists [110]; split; auto; constructor|].
  destruct (N.eqb_spec c 11) as [->|]; [contradiction|].
  destruct (N.eqb_spec c 12) as [->|]; [left; exists [102]; split; auto; constructor|].
  destruct (N.eqb_spec c 13) as [->|]; [left; exists [114]; split; auto; constructor|].
  destruct (N.eqb_spec c 27) as [->|].
  { left; exists [101]; split; auto. constructor. destruct v11; auto. exfalso; apply H27; auto. }
  destruct (is_unicode_control c) eqn:EC.
  - left. exists (117 :: hex4 c). split; [reflexivity|]. apply esc_u; [|reflexivity|].
    + apply hex4_num. unfold is_unicode_control, in_range in EC. lia.
    + unfold is_unicode_control, in_range in EC. unfold scalar_value. lia.
  - right. split; auto. unfold is_unicode_control, in_range in EC. unfold is_scalar in HS.
    unfold basic_unescaped, wschar, non_ascii. lia.
Qed.

Lemma to_basic_body v11 s : Forall is_scalar s -> Forall (decodable_by v11) s -> basic_body v11 (flat_map escape_char s) s.
Proof.
  induction 1 as [|c s Hc Hs IH]; intros HD; simpl; [constructor|]. inversion HD; subst.
  destruct (escape_char_body v11 c Hc H1) as [(e & -> & He)|[-> He]]; cbn [app].
  - apply bb_escape; auto.
  - apply bb_char; auto.
Qed.

(** * From one lexing step to the tokens of a document *)
Definition always_lexed (k : kind) (w s : str) : Prop := forall c, rest c = w ++ s -> lexed_as c k s.

Lemma lexed_at seg p k w s l t : always_lexed k w s ->
  lex seg (p ++ w ++ s) = Some l -> In t (tokens l) -> tkind t <> EOF -> sstart (tspan t) = len_bytes p ->
  tkind t = k /\ tspan t = MkSpan (len_bytes p) (len_bytes (p ++ w)).
Proof.
  intros HS HL Ht Hk Hst.
  destruct (lex_token_from _ _ _ _ HL Ht Hk) as (b & c1 & r & c2 & u & H1 & H2 & H3 & H4 & H5 & H6 & H7).
  rewrite H7 in Hst. simpl in Hst.
  assert (p = b) by (eapply len_bytes_prefix_inj; eauto). subst b. apply app_inv_head in H2.
  destruct (HS c1 (eq_sym H2)) as (t0 & c' & E & HK & HR).
  rewrite H3 in E. inversion E; subst. simpl. split; auto.
  rewrite H5 in H2. apply app_inv_tail in H2. subst u. simpl in H7. exact H7.
Qed.
Lemma lexed_first seg k w s l : always_lexed k w s -> lex seg (w ++ s) = Some l ->
  exists t ts, tokens l = t :: ts /\ tkind t = k /\ tspan t = MkSpan 0 (len_bytes w).
Proof.
  intros HS HL. pose proof HL as HL'. unfold lex in HL'.
  destruct (HS (cursor_new (w ++ s)) eq_refl) as (t0 & c' & E & HK & HR).
  destruct (tokenize _ _) as [[rs c]|] eqn:ET; [|discriminate].
  simpl in ET. rewrite E in ET. destruct (tokenize _ c') as [[rs' c2]|]; [|discriminate].
  inversion ET; subst rs c. destruct (drop_bytes _ _) as [tl|]; [|discriminate]. inversion HL'; subst l.
  simpl. rewrite (proj1 (push_fold rs' _)). simpl.
  eexists t0, _. split; [reflexivity|]. split; auto.
  apply (lexed_at seg [] k w s) with (t := t0) in HL; auto; try tauto.
  - simpl. rewrite (proj1 (push_fold rs' _)). simpl. left. reflexivity.
  - destruct (advance_token_lexes _ _ _ E) as (x & u & HX). destruct HX; simpl in *. tauto.
  - destruct (advance_token_lexes _ _ _ E) as (x & u & HX). destruct HX; cbn [fst snd result_span] in *.
    rewrite lx_span. reflexivity.
Qed.

Lemma ends_not_quote s q : ends_value s -> q = 34 \/ q = 39 -> not_start q s.
Proof.
  intros H Hq r ->. simpl in H. repeat (destruct H as [H|H]; [lia|]). exact H.
Qed.

Lemma always_basic v11 b val s : basic_body v11 b val -> ends_value s -> always_lexed BASIC_STRING ([34] ++ b ++ [34]) s.
Proof.
  intros H HE c HR. apply (basic_lexed c b s); [eapply basic_qf; eauto|apply ends_not_quote; auto|].
  rewrite HR. cbn [app]. rewrite <- app_assoc. reflexivity.
Qed.
Lemma always_literal b s : literal_body b -> ends_value s -> always_lexed LITERAL_STRING ([39] ++ b ++ [39]) s.
Proof.
  intros H HE c HR. apply (literal_lexed c b s); [apply literal_body_plain; auto|apply ends_not_quote; auto|].
  rewrite HR. cbn [app]. rewrite <- app_assoc. reflexivity.
Qed.
Lemma always_ml_literal b s : ml_literal_body 0 b -> ends_value s ->
  always_lexed MULTI_LINE_LITERAL_STRING ([39;39;39] ++ b ++ [39;39;39]) s.
Proof.
  intros H HE c HR. apply (ml_literal_lexed c b s); [auto|apply ends_not_quote; auto|].
  rewrite HR. rewrite <- !app_assoc. reflexivity.
Qed.
Lemma always_ml_basic v11 b val s : ml_basic_body v11 0 b val -> ~ last_is_backslash b -> ends_value s ->
  always_lexed MULTI_LINE_BASIC_STRING ([34;34;34] ++ b ++ [34;34;34]) s.
Proof.
  intros H HL HE c HR. eapply (ml_basic_lexed v11 c b val s); eauto; [apply ends_not_quote; auto|].
  rewrite HR. rewrite <- !app_assoc. reflexivity.
Qed.

(** * Only TOML basic and literal strings decode *)
Lemma dcons_ok c d s : dcons c d = DOk s -> exists s', d = DOk s' /\ s = c :: s'.
Proof. destruct d; simpl; intros H; inversion H; eauto. Qed.

Lemma hex_value_dig c d : hex_value c = Some d -> hexdig c d.
Proof.
  unfold hex_value, in_range. intros H.
  destruct ((48 <=? c) && (c <=? 57)) eqn:E1.
  { inversion H; subst. replace c with (48 + (c - 48)) at 1 by lia. apply hex_09. lia. }
  destruct ((97 <=? c) && (c <=? 102)) eqn:E2.
  { inversion H; subst. replace c with (87 + (c - 87)) at 1 by lia. apply hex_af. lia. }
  destruct ((65 <=? c) && (c <=? 70)) eqn:E3; [|discriminate].
  inversion H; subst. replace c with (55 + (c - 55)) at 1 by lia. apply hex_AF. lia.
Qed.
Lemma hex_digits_num pre acc h n : hexnum pre acc -> hex_digits acc h = Some n -> hexnum (pre ++ h) n.
Proof.
  revert pre acc; induction h as [|c h IH]; intros pre acc HP H; simpl in H.
  - inversion H; subst. rewrite app_nil_r. exact HP.
  - destruct (hex_value c) as [d|] eqn:E; [|discriminate]. apply hex_value_dig in E.
    replace (pre ++ c :: h) with ((pre ++ [c]) ++ h) by (rewrite <- app_assoc; reflexivity).
    apply IH with (acc := acc * 16 + d); auto. replace (acc * 16 + d) with (16 * acc + d) by lia. constructor; auto.
Qed.
Lemma code_point_inv h n : code_point h = inl n -> (forall r, h <> 43 :: r) -> hexnum h n /\ scalar_value n.
Proof.
  unfold code_point. intros H Hp. destruct (u32_from_hex h) as [m|] eqn:E; [|discriminate].
  destruct (char_from_u32 m) as [x|] eqn:EC; [|discriminate]. inversion H; subst x.
  unfold char_from_u32, in_range in EC. destruct ((m <=? 0x10FFFF) && negb ((0xD800 <=? m) && (m <=? 0xDFFF))) eqn:EB; [|discriminate].
  inversion EC; subst m. split; [|unfold scalar_value; lia].
  assert (EH : hex_digits 0 h = Some n).
  { destruct h as [|c h]; [discriminate|]. unfold u32_from_hex in E. destruct (N.eqb_spec c 43) as [->|Hne]; [exfalso; eapply Hp; eauto|].
    destruct c as [|p]; auto. destruct p as [p|p|]; auto. destruct p as [p|p|]; auto. destruct p as [p|p|]; auto.
    destruct p as [p|p|]; auto. destruct p as [p|p|]; auto. destruct p as [p|p|]; auto. contradiction. }
  apply (hex_digits_num [] 0); auto. constructor.
Qed.

(** The escapes [\u], [\U] and [\x] followed by a plus sign, which [from_str_radix] accepts. *)
Definition no_plus_escape (b : str) : Prop :=
  forall p c r, b = p ++ 92 :: c :: 43 :: r -> c <> 117 /\ c <> 85 /\ c <> 120.
Lemma no_plus_app a b : no_plus_escape (a ++ b) -> no_plus_escape b.
Proof. intros H p c r ->. apply (H (a ++ p) c r). rewrite <- app_assoc. reflexivity. Qed.

(** A basic string token has no line break where the decoder trims. *)
Lemma skip_no_lf v ml y b s : basic_inner (y :: b) -> y <> 34 -> y <> 92 -> parse_basic v ml (Some false) b <> DOk s.
Proof.
  revert y; induction b as [|c b IH]; intros y HI N1 N2 H.
  - discriminate.
  - inversion HI as [|x b' H1 H2 H3 H4 E| |]; subst; try contradiction.
    cbn [parse_basic] in H. destruct (is_unicode_whitespace c) eqn:EW; [|discriminate].
    simpl in H3. replace (N.eqb c 10) with false in H by (unfold is_line_break, c_cr, c_nl in H3; lia).
    eapply (IH c); eauto; intros ->; discriminate.
Qed.

Lemma plain_char_ok c : is_scalar c -> c <> 92 -> c <> 34 -> is_forbidden_control c = false -> basic_unescaped c.
Proof.
  unfold is_scalar, is_forbidden_control, in_range, basic_unescaped, wschar, non_ascii. intros. lia.
Qed.

(** After an escape that consumed [e], the rest is again the inside of a token. *)
Lemma inner_after y l b : basic_inner (92 :: y :: l ++ b) -> y <> 34 -> y <> 92 -> Forall (fun x => x <> 34 /\ x <> 92) l -> basic_inner b.
Proof.
  intros H N1 N2 Hl. inversion H as [| | y' b' [->| ->] H'|y' b' H1 H2 H3 H']; subst; try contradiction.
  clear H. revert y N1 N2 H1 H2 H3 H'. induction Hl as [|z l [M1 M2] Hl IH]; intros y N1 N2 H1 H2 H3 H'.
  - cbn [app] in H'. inversion H'; subst; try contradiction. auto.
  - inversion H'; subst; try contradiction. cbn [app] in *.
    eapply (IH z); auto.
Qed.

Lemma hexnum_noq h n : hexnum h n -> Forall (fun x => x <> 34 /\ x <> 92) h.
Proof. intros H. eapply Forall_impl; [|eapply hexnum_chars; eauto]. simpl. intros. lia. Qed.

Lemma escape_step v ml n r1 s : parse_basic v ml None (92 :: n :: r1) = DOk s -> no_plus_escape (92 :: n :: r1) ->
  (exists l r2 x s', n :: r1 = (n :: l) ++ r2 /\ escape (negb (is_v1_0_0 v)) (n :: l) x /\
     (n <> 34 -> n <> 92 -> Forall (fun x => x <> 34 /\ x <> 92) l) /\ (n = 34 \/ n = 92 -> l = []) /\
     s = x :: s' /\ parse_basic v ml None r2 = DOk s') \/
  (is_unicode_whitespace n = true /\ n <> 34 /\ n <> 92 /\ parse_basic v ml (Some (N.eqb n 10)) r1 = DOk s).
Proof.
  intros H HP. cbn [parse_basic] in H. change (N.eqb 92 92) with true in H. cbv iota in H.
  Ltac one v E H k :=
    destruct (N.eqb_spec v k) as [E|E];
    [subst v; left; apply dcons_ok in H as (s' & H & ->); eexists [], _, _, s';
     split; [reflexivity|]; split; [constructor; auto|]; split; [constructor|]; split; [reflexivity|]; split; [reflexivity|exact H] |].
  one n E0 H 98.
  destruct (N.eqb_spec n 101) as [E1|E1].
  { subst n. destruct (is_v1_0_0 v) eqn:EV; [discriminate|]. left. apply dcons_ok in H as (s' & H & ->). eexists [], _, _, s'.
    split; [reflexivity|]. split; [constructor; reflexivity|]. split; [constructor|]; split; [reflexivity|]; split; [reflexivity|exact H]. }
  one n E2 H 116. one n E3 H 110. one n E4 H 102. one n E5 H 114. one n E6 H 34. one n E7 H 92.
  destruct (N.eqb_spec n 117) as [E8|E8].
  { subst n. left. destruct r1 as [|a [|b [|c [|d r2]]]]; try discriminate.
    destruct (code_point [a; b; c; d]) as [x|e] eqn:EC; [|discriminate]. apply dcons_ok in H as (s' & H & ->).
    apply code_point_inv in EC as [HN HV]; [|intros r E; inversion E; subst; destruct (HP [] 117 ([b; c; d] ++ r2) eq_refl); contradiction].
    exists [a; b; c; d], r2, x, s'. split; [reflexivity|]. split; [apply esc_u; auto|].
    split; [intros _ _; eapply hexnum_noq; eauto|]. split; [lia|]. auto. }
  destruct (N.eqb_spec n 85) as [E9|E9].
  { subst n. left. destruct r1 as [|a [|b [|c [|d [|a2 [|b2 [|c2 [|d2 r2]]]]]]]]; try discriminate.
    destruct (code_point [a; b; c; d; a2; b2; c2; d2]) as [x|e] eqn:EC; [|discriminate]. apply dcons_ok in H as (s' & H & ->).
    apply code_point_inv in EC as [HN HV]; [|intros r E; inversion E; subst; destruct (HP [] 85 ([b; c; d; a2; b2; c2; d2] ++ r2) eq_refl) as (_ & K & _); contradiction].
    exists [a; b; c; d; a2; b2; c2; d2], r2, x, s'. split; [reflexivity|]. split; [apply esc_U; auto|].
    split; [intros _ _; eapply hexnum_noq; eauto|]. split; [lia|]. auto. }
  destruct (N.eqb_spec n 120) as [E10|E10].
  { subst n. destruct (is_v1_0_0 v) eqn:EV; [discriminate|]. left. destruct r1 as [|a [|b r2]]; try discriminate.
    destruct (code_point [a; b]) as [x|e] eqn:EC; [|discriminate]. apply dcons_ok in H as (s' & H & ->).
    apply code_point_inv in EC as [HN HV]; [|intros r E; inversion E; subst; destruct (HP [] 120 ([b] ++ r2) eq_refl) as (_ & _ & K); contradiction].
    exists [a; b], r2, x, s'. split; [reflexivity|]. split; [apply esc_x; auto|].
    split; [intros _ _; eapply hexnum_noq; eauto|]. split; [lia|]. auto. }
  destruct (is_unicode_whitespace n) eqn:EW; [|discriminate]. right. auto.
Qed.

Lemma parse_basic_sound v : forall n b s, (length b <= n)%nat -> Forall is_scalar b -> no_plus_escape b -> basic_inner b ->
  parse_basic v false None b = DOk s -> basic_body (negb (is_v1_0_0 v)) b s.
Proof.
  induction n as [|n IH]; intros b s Hn HS HP HI H.
  - destruct b; [|simpl in Hn; lia]. simpl in H. inversion H; subst. constructor.
  - destruct b as [|c r]; [simpl in H; inversion H; constructor|].
    destruct (N.eqb_spec c 92) as [->|N1].
    + destruct r as [|y r]; [discriminate|].
      destruct (escape_step _ _ _ _ _ H HP) as [(l & r2 & x & s' & E & HE & Hl1 & Hl2 & -> & H')|(HW & N2 & N3 & H')].
      * rewrite E in *. apply bb_escape; auto. cbn [app] in E. inversion E; subst r.
        apply IH; auto.
        -- cbn [length] in Hn. rewrite app_length in Hn. simpl in Hn. lia.
        -- apply (Forall_app is_scalar (92 :: y :: l) r2). exact HS.
        -- apply (no_plus_app (92 :: y :: l)). exact HP.
        -- destruct (N.eq_dec y 34) as [->|N2]; [rewrite Hl2 in HI by auto; inversion HI; subst; try contradiction; auto|].
           destruct (N.eq_dec y 92) as [->|N3]; [rewrite Hl2 in HI by auto; inversion HI; subst; try contradiction; auto|].
           eapply inner_after; eauto.
      * exfalso. inversion HI as [| |y' b' [->| ->] K|y' b' K1 K2 K3 K]; subst; try contradiction.
        replace (N.eqb y 10) with false in H' by (unfold is_line_break, c_cr, c_nl in K3; lia).
        eapply skip_no_lf; eauto.
    + assert (N2 : c <> 34) by (inversion HI; auto).
      inversion HS as [|? ? HS1 HS2]; subst.
      cbn [parse_basic andb] in H. replace (N.eqb c 92) with false in H by lia.
      destruct (is_forbidden_control c) eqn:EF; [discriminate|]. apply dcons_ok in H as (s' & H & ->).
      apply bb_char; [apply plain_char_ok; auto|]. apply IH; auto.
      * simpl in Hn. lia.
      * apply (no_plus_app [c]). exact HP.
      * inversion HI; subst; auto; contradiction.
Qed.

Lemma parse_literal_sound b s : Forall is_scalar b -> ~ In 39 b -> parse_literal_string b false = DOk s -> literal_body b /\ s = b.
Proof.
  revert s; induction b as [|c b IH]; intros s HS HN H.
  - simpl in H. inversion H. split; auto. constructor.
  - cbn [parse_literal_string andb] in H. destruct (is_forbidden_control c) eqn:EF; [discriminate|].
    apply dcons_ok in H as (s' & H & ->). inversion HS; subst.
    destruct (IH s' H3) as [K ->]; [intros Hin; apply HN; right; auto|exact H|]. split; auto.
    constructor; auto.
    assert (c <> 39) by (intros ->; apply HN; left; reflexivity).
    unfold is_scalar, is_forbidden_control, in_range, literal_char, non_ascii in *. lia.
Qed.

Lemma basic_token_sound seg source l t v w s : Forall is_scalar source ->
  lex seg source = Some l -> In t (tokens l) -> tkind t = BASIC_STRING -> slice source (tspan t) = Some w ->
  try_from_basic_string w v = DOk s -> no_plus_escape w ->
  exists b, w = [34] ++ b ++ [34] /\ basic_body (negb (is_v1_0_0 v)) b s.
Proof.
  intros HS HL Ht Hk Hw HD HP.
  destruct (lex_token_text _ _ _ _ HL Ht) as (w' & E & HT); [rewrite Hk; discriminate|rewrite Hk; discriminate|].
  rewrite Hw in E. inversion E; subst w'. rewrite Hk in HT. destruct HT as (b & -> & HI).
  exists b. split; auto. unfold try_from_basic_string, on_strip in HD. rewrite (strip_delims [34]) in HD.
  assert (HSb : Forall is_scalar b).
  { destruct (lex_token_from _ _ _ _ HL Ht) as (p & c1 & r & c2 & u & H1 & H2 & H3 & H4 & H5 & H6 & H7); [rewrite Hk; discriminate|].
    rewrite H7, H2, H5, slice_app in Hw. inversion Hw; subst u.
    rewrite H2, H5 in HS. apply Forall_app in HS as [_ HS]. apply Forall_app in HS as [HS _].
    apply Forall_inv_tail in HS. apply Forall_app in HS. tauto. }
  apply (parse_basic_sound v (length b)); auto.
  intros p c r ->. apply (HP (34 :: p) c (r ++ [34])). cbn [app]. rewrite <- !app_assoc. reflexivity.
Qed.

Lemma literal_token_sound seg source l t w s : Forall is_scalar source ->
  lex seg source = Some l -> In t (tokens l) -> tkind t = LITERAL_STRING -> slice source (tspan t) = Some w ->
  try_from_literal_string w = DOk s -> w = [39] ++ s ++ [39] /\ literal_body s.
Proof.
  intros HS HL Ht Hk Hw HD.
  destruct (lex_token_text _ _ _ _ HL Ht) as (w' & E & HT); [rewrite Hk; discriminate|rewrite Hk; discriminate|].
  rewrite Hw in E. inversion E; subst w'. rewrite Hk in HT. destruct HT as (b & -> & HI & _).
  unfold try_from_literal_string, on_strip in HD. rewrite (strip_delims [39]) in HD.
  assert (HSb : Forall is_scalar b).
  { destruct (lex_token_from _ _ _ _ HL Ht) as (p & c1 & r & c2 & u & H1 & H2 & H3 & H4 & H5 & H6 & H7); [rewrite Hk; discriminate|].
    rewrite H7, H2, H5, slice_app in Hw. inversion Hw; subst u.
    rewrite H2, H5 in HS. apply Forall_app in HS as [_ HS]. apply Forall_app in HS as [HS _].
    apply Forall_inv_tail in HS. apply Forall_app in HS. tauto. }
  destruct (parse_literal_sound b s HSb HI HD) as [K ->]. auto.
Qed.

(** * Keys *)
Lemma bare_key_value k : try_from_bare_key k = DOk k \/ exists e, try_from_bare_key k = DErr e.
Proof. unfold try_from_bare_key. destruct (existsb _ k); eauto. destruct (forallb _ k); eauto. Qed.

Lemma escape_undecodable v c r : is_scalar c -> ~ decodable_by (negb (is_v1_0_0 v)) c ->
  forall s, parse_basic v false None (escape_char c ++ r) <> DOk s.
Proof.
  intros HS HD s H.
  assert (HC : c = 0 \/ c = 7 \/ c = 11 \/ (c = 27 /\ is_v1_0_0 v = true)).
  { unfold decodable_by in HD. destruct (N.eq_dec c 0); auto. destruct (N.eq_dec c 7); auto. destruct (N.eq_dec c 11); auto.
    destruct (N.eq_dec c 27) as [->|]; [|exfalso; apply HD; auto].
    right. right. right. split; auto. destruct (is_v1_0_0 v); auto. exfalso. apply HD. repeat split; auto. simpl. discriminate. }
  destruct HC as [->|[->|[->|[-> Hv]]]]; try discriminate.
  destruct v; discriminate.
Qed.

Lemma to_basic_decodable v s t : Forall is_scalar s -> parse_basic v false None (flat_map escape_char s) = DOk t ->
  Forall (decodable_by (negb (is_v1_0_0 v))) s.
Proof.
  intros HS. revert t. induction HS as [|c s Hc HS IH]; intros t H; [constructor|].
  cbn [flat_map] in H.
  assert (HD : decodable_by (negb (is_v1_0_0 v)) c).
  { destruct (N.eq_dec c 0) as [->|N0]; [discriminate|]. destruct (N.eq_dec c 7) as [->|N7]; [discriminate|].
    destruct (N.eq_dec c 11) as [->|N11]; [discriminate|]. repeat split; auto. intros EV ->. destruct v; discriminate. }
  constructor; auto.
  destruct (escape_char_body _ c Hc HD) as [(e & E & He)|[E He]]; rewrite E in H; cbn [app] in H.
  - rewrite (parse_escape _ _ _ _ _ He) in H. apply dcons_ok in H as (s' & H & _). eauto.
  - apply unescaped_ok in He as (N1 & _ & _ & _ & N2). rewrite parse_plain in H by auto. apply dcons_ok in H as (s' & H & _). eauto.
Qed.

Lemma basic_round_trip v s : Forall is_scalar s ->
  (try_from_basic_string (to_basic_string s) v = DOk s <-> Forall (decodable_by (negb (is_v1_0_0 v))) s).
Proof.
  intros HS. split.
  - unfold try_from_basic_string, to_basic_string, on_strip. rewrite (strip_delims [34]). apply to_basic_decodable; auto.
  - intros HD. apply try_basic. apply to_basic_body; auto.
Qed.

(** The decoder the document tree picks for a key text: a quoted key starts with a quotation mark. *)
Definition decode_key (w : str) (v : toml_version) : decoded :=
  match w with
  | 34 :: _ => try_from_basic_string w v
  | 39 :: _ => try_from_literal_string w
  | _ => try_from_bare_key w
  end.

Lemma decode_key_bare w v : (forall r, w <> 34 :: r) -> (forall r, w <> 39 :: r) -> decode_key w v = try_from_bare_key w.
Proof.
  intros H1 H2. unfold decode_key. destruct w as [|c r]; [reflexivity|].
  destruct (N.eq_dec c 34) as [->|]; [exfalso; eapply H1; eauto|]. destruct (N.eq_dec c 39) as [->|]; [exfalso; eapply H2; eauto|].
  repeat (destruct c as [|c]; try reflexivity; try contradiction;
          repeat (destruct c as [c|c|]; try reflexivity; try contradiction)).
Qed.

Definition placeholder (s : str) : Prop := exists u, s = [36; 123] ++ u /\ exists p, s = p ++ [125].

Lemma str_eqb_eq a b : str_eqb a b = true <-> a = b.
Proof.
  revert b; induction a as [|x a IH]; intros [|y b]; simpl; split; intros H; try congruence; try discriminate.
  - apply andb_true_iff in H as [H1 H2]. apply N.eqb_eq in H1. apply IH in H2. congruence.
  - inversion H; subst. rewrite N.eqb_refl. apply IH. reflexivity.
Qed.
Lemma starts_with_app p s : starts_with p s = true <-> exists u, s = p ++ u.
Proof.
  unfold starts_with. rewrite str_eqb_eq. split.
  - intros H. exists (skipn (length p) s). rewrite <- H at 1. symmetry. apply firstn_skipn.
  - intros (u & ->). rewrite firstn_app, Nat.sub_diag, firstn_all. simpl. apply app_nil_r.
Qed.
Lemma ends_with_app p s : ends_with p s = true <-> exists u, s = u ++ p.
Proof.
  unfold ends_with. rewrite starts_with_app. split.
  - intros (u & H). exists (rev u). rewrite <- (rev_involutive s), H, rev_app_distr, rev_involutive. reflexivity.
  - intros (u & ->). exists (rev u). apply rev_app_distr.
Qed.
Lemma placeholder_spec s : is_variable_placeholder s = true <-> placeholder s.
Proof.
  unfold is_variable_placeholder, placeholder. rewrite andb_true_iff, starts_with_app, ends_with_app. split.
  - intros [(u & H1) H2]. eauto.
  - intros (u & H1 & H2). eauto.
Qed.

Lemma key_is_simple v s : Forall is_scalar s -> ~ placeholder s -> Forall (decodable_by (negb (is_v1_0_0 v))) s ->
  simple_key (negb (is_v1_0_0 v)) (to_key_string s) s.
Proof.
  intros HS HP HD. unfold to_key_string.
  replace (is_variable_placeholder s) with false.
  2: { symmetry. apply not_true_is_false. rewrite placeholder_spec. exact HP. }
  cbn [orb]. destruct (is_display_bare_key s) eqn:E.
  - unfold is_display_bare_key in E. apply andb_true_iff in E as [E E3]. apply andb_true_iff in E as [E1 E2].
    unfold try_from_bare_key in E3.
    destruct (existsb (fun c => N.eqb c 43) s) eqn:E4; [discriminate|]. destruct (forallb is_bare_key_char s) eqn:E5; [|discriminate].
    apply key_bare; [intros ->; discriminate|]. apply Forall_forall. intros c Hc.
    rewrite forallb_forall in E5. specialize (E5 c Hc).
    assert (c <> 46).
    { intros ->. apply negb_true_iff in E2. rewrite <- not_true_iff_false in E2. apply E2. apply existsb_exists. exists 46. split; auto. }
    unfold is_bare_key_char, in_range in E5. unfold unquoted_key_char. lia.
  - unfold to_basic_string. apply key_basic. apply to_basic_body; auto.
Qed.

(** Every key of the TOML grammar decodes to its value. *)
Lemma simple_key_decodes v w s : simple_key (negb (is_v1_0_0 v)) w s -> decode_key w v = DOk s.
Proof.
  intros [s' Hne HF|b s' HB|b HB].
  - rewrite decode_key_bare.
    + unfold try_from_bare_key. replace (existsb (fun c => N.eqb c 43) s') with false.
      * replace (forallb is_bare_key_char s') with true; auto. symmetry. apply forallb_forall. intros c Hc.
        rewrite Forall_forall in HF. specialize (HF c Hc). unfold unquoted_key_char in HF. unfold is_bare_key_char, in_range. lia.
      * symmetry. apply not_true_is_false. intros HE. apply existsb_exists in HE as (c & Hc & HE).
        rewrite Forall_forall in HF. specialize (HF c Hc). unfold unquoted_key_char in HF. lia.
    + intros r ->. inversion HF; subst. unfold unquoted_key_char in *. lia.
    + intros r ->. inversion HF; subst. unfold unquoted_key_char in *. lia.
  - apply (try_basic v b s'); auto.
  - apply (try_literal b); auto.
Qed.

Lemma key_round_trip v s : Forall is_scalar s -> ~ placeholder s -> Forall (decodable_by (negb (is_v1_0_0 v))) s ->
  simple_key (negb (is_v1_0_0 v)) (to_key_string s) s /\ decode_key (to_key_string s) v = DOk s.
Proof. intros. split; [|apply simple_key_decodes]; apply key_is_simple; auto. Qed.

Lemma literal_round_trip s : literal_body s -> try_from_literal_string (to_literal_string s) = DOk s.
Proof. apply try_literal. Qed.

Lemma ml_start s : not_start 10 s -> after_delimiter (10 :: s) s /\ simple_start (10 :: s) s.
Proof.
  intros H. split; [apply (ad_nl [10] s); left; reflexivity|]. split; [discriminate|exact H].
Qed.
Lemma ml_literal_round_trip s : ml_literal_body 0 s -> not_start 10 s ->
  try_from_multi_line_literal_string (to_multi_line_literal_string s) = DOk s.
Proof.
  intros H HN. destruct (ml_start s HN) as [H1 H2]. 
  change (to_multi_line_literal_string s) with ([39;39;39] ++ (10 :: s) ++ [39;39;39]). apply (try_ml_literal _ s); auto.
Qed.
Lemma ml_basic_round_trip v s : ml_basic_body (negb (is_v1_0_0 v)) 0 s s -> not_start 10 s -> ascii_spaces_only s ->
  try_from_multi_line_basic_string (to_multi_line_basic_string s) v = DOk s.
Proof.
  intros H HN HA. destruct (ml_start s HN) as [H1 H2]. 
  change (to_multi_line_basic_string s) with ([34;34;34] ++ (10 :: s) ++ [34;34;34]). apply (try_ml_basic v _ s); auto.
Qed.
