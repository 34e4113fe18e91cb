(** A token is lexed again where it is followed by something else that ends it. *)
From Coq Require Import String Ascii List NArith Bool Arith Lia ZifyBool.
From Verif Require Import Base SyntaxKind TextModel Regex LexerModel LexerSpec LexerProofs TomlGrammar LexScalars LexSound LexNumbers
  TomlTextModel DateTimeModel NumberSpec DateTimeSpec DateTimeTokens TomlTextProofs FormatPiecesProofs.
Import ListNotations.
Open Scope N_scope.
Open Scope list_scope.

(** A token that is lexed somewhere *)
Definition lexable (k : kind) (w : str) : Prop := exists c r, rest c = w ++ r /\ lexed_as c k r.

Lemma lexed_text c k w r : rest c = w ++ r -> lexed_as c k r -> text_ok k w.
Proof.
  intros HR (t & c' & HA & HK & HR'). destruct (advance_sound _ _ HA t eq_refl) as (u & E & HT). cbn [snd] in E. rewrite HR, HR' in E.
  apply app_inv_tail in E. subst u k. exact HT.
Qed.
Lemma lexable_text k w : lexable k w -> text_ok k w.
Proof. intros (c & r & HR & HL). eapply lexed_text; eauto. Qed.
Lemma lexed_fun c k r res : advance_token c = Some res -> lexed_as c k r -> yields c k r res.
Proof. intros E (t & c' & HA & HK & HR). rewrite E in HA. injection HA as ->. exists t. auto. Qed.
Lemma yields_fun c1 c2 k1 k2 r1 r2 res : yields c1 k1 r1 res -> yields c2 k2 r2 res -> k1 = k2 /\ r1 = r2.
Proof. intros (t & A & B & C) (t' & A' & B' & C'). split; congruence. Qed.
Lemma no_yield_err c k r e c' : ~ yields c k r (err e c').
Proof. intros (t & A & _). discriminate. Qed.
Lemma yield_ok_inv c k r k' c' : yields c k r (ok k' c') -> k' = k /\ rest c' = r.
Proof. intros (t & A & B & C). cbn in *. injection A as <-. cbn in B. auto. Qed.

Definition dot_start (s : str) : Prop := match s with [] => True | c :: _ => is_token_separator_with_dot c = true end.
Lemma sep_dot s : sep_start s -> dot_start s.
Proof. destruct s; [trivial|]. apply sep_with_dot. Qed.
Lemma split_stop (p : char -> bool) : forall a a' x b x' b', forallb (fun c => negb (p c)) a = true -> forallb (fun c => negb (p c)) a' = true ->
  p x = true -> p x' = true -> a ++ x :: b = a' ++ x' :: b' -> a = a' /\ x = x' /\ b = b'.
Proof.
  induction a as [|y a IH]; intros a' x b x' b' HA HA' HX HX' E.
  - destruct a' as [|y a']; cbn in E; injection E as -> ->; [auto|]. cbn in HA'. rewrite HX in HA'. discriminate.
  - destruct a' as [|y' a']; cbn in E; injection E as -> E; cbn in HA; [rewrite HX' in HA; discriminate|].
    cbn in HA'. apply andb_prop in HA as [_ HA], HA' as [_ HA']. destruct (IH a' x b x' b' HA HA' HX HX' E) as (-> & -> & ->). auto.
Qed.
(** A prefix without stops of a text whose first part is followed by a stop is a prefix of that part. *)
Lemma prefix_stop (p : char -> bool) : forall d v w s, forallb (fun c => negb (p c)) d = true ->
  match s with [] => True | c :: _ => p c = true end -> d ++ v = w ++ s -> exists u, w = d ++ u.
Proof.
  induction d as [|x d IH]; intros v w s HD HS E; [exists w; reflexivity|].
  cbn in HD. apply andb_prop in HD as [HX HD]. destruct w as [|y w]; cbn in E.
  - destruct s as [|y s]; [discriminate|]. injection E as -> _. rewrite HS in HX. discriminate.
  - injection E as -> E. destruct (IH v w s HD HS E) as (u & ->). exists u. reflexivity.
Qed.

(** * Dates and times at the start of a text *)
Definition starts_date (s : str) : Prop := exists d v, s = d ++ v /\ date_chars d.
Definition starts_time (s : str) : Prop := exists h1 h2 m1 m2 v, s = [h1; h2; 58; m1; m2] ++ v /\ forallb k_digit [h1; h2; m1; m2] = true.
Lemma date_nostop d : date_chars d -> forallb (fun c => negb (is_token_separator_with_dot c)) d = true.
Proof.
  intros (y1 & y2 & y3 & y4 & m1 & m2 & d1 & d2 & -> & H). cbn [forallb] in *. repeat (apply andb_true_iff in H as [? H]).
  repeat (apply andb_true_iff; split; [cls|]). reflexivity.
Qed.
Lemma is_date_spec c : is_date_time c = true <-> starts_date (current c :: rest c).
Proof.
  unfold is_date_time, peeks_with_current. cbn [Nat.sub]. rewrite prefix_match_spec. split.
  - intros (u & v & E & Hu). apply date_inv in Hu. exists u, (v ++ skipn 9 (rest c)). split; [|exact Hu].
    rewrite app_assoc. rewrite <- E. cbn [app]. rewrite firstn_skipn. reflexivity.
  - intros (d & v & E & Hd). exists d, []. split; [|apply date_inv; exact Hd].
    destruct Hd as (y1 & y2 & y3 & y4 & m1 & m2 & d1 & d2 & -> & _). cbn [app] in *. injection E as -> ->. reflexivity.
Qed.
Lemma starts_date_app w s : dot_start s -> starts_date (w ++ s) <-> starts_date w.
Proof.
  intros HS. split.
  - intros (d & v & E & Hd). destruct (prefix_stop is_token_separator_with_dot d v w s (date_nostop d Hd)) as (u & ->); auto. exists d, u. auto.
  - intros (d & v & -> & Hd). exists d, (v ++ s). rewrite app_assoc. auto.
Qed.
Lemma is_time_spec c : is_time c = true <-> starts_time (current c :: rest c).
Proof.
  split.
  - unfold is_time, peeks_with_current. cbn [Nat.sub]. rewrite full_match_spec. intros H. apply time_start in H as (h1 & h2 & m1 & m2 & v & E & H1 & H2 & H3 & H4).
    exists h1, h2, m1, m2, (v ++ skipn 4 (rest c)). split.
    + rewrite <- (firstn_skipn 4 (rest c)) at 1. change (current c :: firstn 4 (rest c) ++ skipn 4 (rest c)) with ((current c :: firstn 4 (rest c)) ++ skipn 4 (rest c)).
      rewrite E. reflexivity.
    + cbn [forallb]. rewrite H1, H2, H3, H4. reflexivity.
  - intros (h1 & h2 & m1 & m2 & v & E & H). cbn [app] in E. injection E as E1 E2. cbn [forallb] in H. repeat (apply andb_true_iff in H as [? H]).
    apply (is_time_true c h1 h2 m1 m2 v); auto.
Qed.
Lemma starts_time_app w s : dot_start s -> starts_time (w ++ s) <-> starts_time w.
Proof.
  intros HS. split.
  - intros (h1 & h2 & m1 & m2 & v & E & H). destruct (prefix_stop is_token_separator_with_dot [h1; h2; 58; m1; m2] v w s) as (u & ->); auto.
    + cbn [forallb] in *. repeat (apply andb_true_iff in H as [? H]). repeat (apply andb_true_iff; split; [cls|]). reflexivity.
    + exists h1, h2, m1, m2, u. auto.
  - intros (h1 & h2 & m1 & m2 & v & -> & H). exists h1, h2, m1, m2, (v ++ s). rewrite app_assoc. auto.
Qed.
Lemma bool_iff b P Q : (b = true <-> P) -> ~ P -> (b = false) \/ Q.
Proof. destruct b; [intros [H _] N; exfalso; auto|auto]. Qed.
Lemma not_date c : ~ starts_date (current c :: rest c) -> is_date_time c = false.
Proof. intros H. destruct (is_date_time c) eqn:E; [|reflexivity]. apply is_date_spec in E. contradiction. Qed.
Lemma not_time c : ~ starts_time (current c :: rest c) -> is_time c = false.
Proof. intros H. destruct (is_time c) eqn:E; [|reflexivity]. apply is_time_spec in E. contradiction. Qed.
Lemma not_date_inv c : is_date_time c = false -> ~ starts_date (current c :: rest c).
Proof. intros E H. apply is_date_spec in H. congruence. Qed.
Lemma not_time_inv c : is_time c = false -> ~ starts_time (current c :: rest c).
Proof. intros E H. apply is_time_spec in H. congruence. Qed.

(** * Numbers *)
Lemma number_kind_plain w k : number_kind w = Some k -> forallb (fun x => negb (is_token_separator x)) w = true -> forallb plain w = true.
Proof.
  intros HK HN.
  assert (HA : forallb (fun c => c <? 128) w = true).
  { unfold number_kind in HK.
    destruct (full_match REGEX_FLOAT w) eqn:E; [apply full_match_spec in E; exact (asc_float _ E)|]. clear E.
    destruct (full_match REGEX_INTEGER_BIN w) eqn:E; [apply full_match_spec in E; exact (asc_bin _ E)|]. clear E.
    destruct (full_match REGEX_INTEGER_OCT w) eqn:E; [apply full_match_spec in E; exact (asc_oct _ E)|]. clear E.
    destruct (full_match REGEX_INTEGER_HEX w) eqn:E; [apply full_match_spec in E; exact (asc_hex _ E)|]. clear E.
    destruct (full_match REGEX_INTEGER_DEC w) eqn:E; [apply full_match_spec in E; exact (asc_dec _ E)|]. discriminate. }
  rewrite forallb_forall in *. intros x Hx. unfold plain. rewrite (HN x Hx), (HA x Hx). reflexivity.
Qed.
Definition line_of (s : str) : str := take_while (fun x => negb (is_token_separator x)) s.
Definition after_line (s : str) : str := drop_while (fun x => negb (is_token_separator x)) s.
Lemma line_split s : s = line_of s ++ after_line s.
Proof. symmetry. apply take_drop_while. Qed.
Lemma after_line_sep s : sep_start (after_line s).
Proof. unfold after_line. pose proof (drop_while_head (fun x => negb (is_token_separator x)) s) as H. destruct (drop_while _ s); [exact I|]. cbn. apply negb_false_iff in H. exact H. Qed.
Lemma number_inv c k r : yields c k r (number c) -> is_token_separator (current c) = false ->
  r = after_line (rest c) /\ number_kind (current c :: line_of (rest c)) = Some k /\ forallb plain (current c :: line_of (rest c)) = true.
Proof.
  intros HY HC. set (u := line_of (rest c)).
  assert (HN : forallb (fun x => negb (is_token_separator x)) (current c :: u) = true).
  { cbn [forallb]. rewrite HC. cbn [negb andb]. apply take_while_all. }
  destruct (number_kind (current c :: u)) as [k'|] eqn:EK.
  - pose proof (number_kind_plain _ _ EK HN) as HP.
    assert (HY' : yields c k' (after_line (rest c)) (number c)) by (apply (number_yields c u); [exact (line_split _)|exact HP|apply after_line_sep|exact EK]).
    destruct (yields_fun _ _ _ _ _ _ _ HY HY') as [-> ->]. auto.
  - exfalso. revert HY. unfold number, peek_with_current_while. fold (line_of (rest c)). fold u. unfold find_end. unfold number_kind in EK.
    repeat (match type of EK with context [full_match ?r ?w] => destruct (full_match r w) end; [discriminate|]).
    apply no_yield_err.
Qed.
(** How the text of a number token looks *)
Definition number_text (k : kind) (w : str) : Prop :=
  (exists x u, w = x :: u /\ k_digit x = true /\ number_kind w = Some k /\ forallb plain w = true /\ ~ starts_date w /\ ~ starts_time w) \/
  (exists g x u, w = g :: x :: u /\ (g = 43 \/ g = 45) /\ k_digit x = true /\ number_kind (x :: u) = Some k /\ forallb plain (x :: u) = true) \/
  (k = FLOAT /\ lang g_special_float w).
Lemma relex_number c k w s : number_text k w -> sep_start s -> rest c = w ++ s -> lexed_as c k s.
Proof.
  intros [(x & u & -> & Hx & HK & HP & HD & HT)|[(g & x & u & -> & Hg & Hx & HK & HP)|[-> H]]] HS HR.
  - cbn [app] in HR. eapply yields_lexed with (c0 := c); [eapply dispatch_digit; eauto|].
    destruct (adv_bump_cons c x (u ++ s) HR) as (_ & HR1 & HC1). cbv zeta.
    rewrite not_date, not_time.
    + rewrite is_number_kind. unfold peek_with_current_while. rewrite HR1, HC1, take_while_sep; auto.
      2: { simpl in HP. apply andb_true_iff in HP. tauto. }
      rewrite HK. apply number_yields with (u := u); rewrite ?HC1; auto.
    + rewrite HR1, HC1. change (x :: u ++ s) with ((x :: u) ++ s). rewrite starts_time_app by (apply sep_dot; auto). exact HT.
    + rewrite HR1, HC1. change (x :: u ++ s) with ((x :: u) ++ s). rewrite starts_date_app by (apply sep_dot; auto). exact HD.
  - cbn [app] in HR. destruct Hg as [-> | ->]; [eapply plus_lexed|eapply minus_lexed]; eauto.
  - eapply special_lexed; eauto.
Qed.

Lemma digit_cases c x s k r : rest c = x :: s -> k_digit x = true -> lexed_as c k r ->
  (starts_date (x :: s) /\ yields (bump c) k r (date_time (bump c))) \/
  (~ starts_date (x :: s) /\ starts_time (x :: s) /\ yields (bump c) k r (LexerModel.time (bump c))) \/
  (~ starts_date (x :: s) /\ ~ starts_time (x :: s) /\ r = after_line s /\ number_kind (x :: line_of s) = Some k /\ forallb plain (x :: line_of s) = true) \/
  (~ starts_date (x :: s) /\ k = BARE_KEY).
Proof.
  intros HR Hx HL. destruct (adv_bump_cons c x s HR) as (_ & HR1 & HC1). pose proof (lexed_fun _ _ _ _ (dispatch_digit c x s HR Hx) HL) as HY. cbv zeta in HY.
  rewrite <- HC1, <- HR1. destruct (is_date_time (bump c)) eqn:ED; [left; split; [apply is_date_spec; exact ED|exact HY]|]. apply not_date_inv in ED.
  destruct (is_time (bump c)) eqn:ET; [right; left; split; [exact ED|split; [apply is_time_spec; exact ET|exact HY]]|]. apply not_time_inv in ET.
  destruct (is_number (bump c)) eqn:EN.
  - right. right. left. split; [exact ED|]. split; [exact ET|]. apply (number_inv (bump c) k r HY). rewrite HC1. apply digit_nsep. exact Hx.
  - right. right. right. split; [exact ED|]. unfold key in HY. cbv zeta in HY. destruct (is_token_separator_with_dot _).
    + apply yield_ok_inv in HY as [<- _]. reflexivity.
    + apply no_yield_err in HY. contradiction.
Qed.

(** * Which functions give which kinds *)
Lemma date_time_kind c k r : yields c k r (date_time c) -> k = OFFSET_DATE_TIME \/ k = LOCAL_DATE_TIME \/ k = LOCAL_DATE.
Proof.
  unfold date_time, date_time_fail. intros H.
  repeat (match type of H with context [match ?e with _ => _ end] => destruct e end); try (apply no_yield_err in H; contradiction); apply yield_ok_inv in H as [<- _]; auto.
Qed.
Lemma time_kind c k r : yields c k r (LexerModel.time c) -> k = LOCAL_TIME.
Proof. unfold LexerModel.time. intros H. destruct (find_end _ _); [apply yield_ok_inv in H as [<- _]; reflexivity|apply no_yield_err in H; contradiction]. Qed.
Lemma key_kind_is c k r : yields c k r (key c) -> k = BARE_KEY.
Proof. unfold key. cbv zeta. intros H. destruct (is_token_separator_with_dot _); [apply yield_ok_inv in H as [<- _]; reflexivity|apply no_yield_err in H; contradiction]. Qed.
Definition numeric (k : kind) : bool := existsb (kind_eqb k) [INTEGER_DEC; INTEGER_BIN; INTEGER_OCT; INTEGER_HEX; FLOAT].
Lemma number_kind_numeric w k : number_kind w = Some k -> numeric k = true.
Proof. unfold number_kind. repeat (match goal with |- context [if ?e then _ else _] => destruct e end); intros E; try discriminate; injection E as <-; reflexivity. Qed.
Definition number_char (c : char) : bool := in_range 48 58 c || in_range 65 90 c || in_range 97 122 c || N.eqb c 95 || N.eqb c 46 || N.eqb c 43 || N.eqb c 45 || N.eqb c 124.
Lemma nc_float : chars_in REGEX_FLOAT number_char.
Proof. unfold REGEX_FLOAT, colon_opt, RPlus, ROpt, RChr, number_char. ci. Qed.
Lemma nc_bin : chars_in REGEX_INTEGER_BIN number_char.
Proof. unfold REGEX_INTEGER_BIN, colon_opt, opt_us, RPlus, ROpt, RChr, number_char. ci. Qed.
Lemma nc_oct : chars_in REGEX_INTEGER_OCT number_char.
Proof. unfold REGEX_INTEGER_OCT, colon_opt, opt_us, RPlus, ROpt, RChr, number_char. ci. Qed.
Lemma nc_hex : chars_in REGEX_INTEGER_HEX number_char.
Proof. unfold REGEX_INTEGER_HEX, colon_opt, opt_us, RPlus, ROpt, RChr, number_char. ci. Qed.
Lemma nc_dec : chars_in REGEX_INTEGER_DEC number_char.
Proof. unfold REGEX_INTEGER_DEC, colon_opt, opt_us, RPlus, ROpt, RChr, number_char. ci. Qed.
Lemma numeric_text k w : numeric k = true -> text_ok k w -> forallb number_char w = true.
Proof.
  intros HK HT.
  assert (HS : forall sg u, sg = [] \/ sg = [43] \/ sg = [45] -> forallb number_char u = true -> forallb number_char (sg ++ u) = true).
  { intros sg u Hs Hu. rewrite forallb_app, Hu. destruct Hs as [-> |[-> | ->]]; reflexivity. }
  destruct k; try discriminate; cbn [text_ok] in HT; destruct HT as (sg & u & -> & Hs & HL); apply HS; auto; try first [exact (nc_dec _ HL)|exact (nc_bin _ HL)|exact (nc_oct _ HL)|exact (nc_hex _ HL)].
  destruct HL as [HL|[-> | ->]]; [exact (nc_float _ HL)|reflexivity|reflexivity].
Qed.
Lemma special_of sg u : sg = [] \/ sg = [43] \/ sg = [45] -> u = lit "inf" \/ u = lit "nan" -> lang g_special_float (sg ++ u).
Proof.
  intros Hs Hu. constructor; [apply sign_lang; exact Hs|]. destruct Hu as [-> | ->]; [apply LAltL|apply LAltR]; apply g_str_inv; reflexivity.
Qed.
(** The first characters of the rules for numbers *)
Lemma float_head u : lang REGEX_FLOAT u -> exists x v, u = x :: v /\ k_digit_ x = true.
Proof.
  intros H. apply float_shape in H as (a & x & b & -> & Ha & Hd & _). destruct a as [|y a]; [contradiction|]. cbn in Hd. apply andb_true_iff in Hd as [Hd _]. exists y, (a ++ x :: b). auto.
Qed.
Lemma app_tail_eq {A} (w r : list A) x s r' : w ++ r = x :: s -> r = r' -> forall u, s = u ++ r' -> w = x :: u.
Proof. intros E -> u ->. change (x :: u ++ r') with ((x :: u) ++ r') in E. apply app_inv_tail in E. exact E. Qed.
Lemma bump_end c : rest c = [] -> current (bump c) = EOF_CHAR.
Proof. unfold bump. intros ->. reflexivity. Qed.
Lemma dispatch_plus c r : rest c = 43 :: r -> advance_token c = Some (let c := bump (bump c) in
    if is_keyword (lit "inf") c || is_keyword (lit "nan") c then ok FLOAT (eat_n 2 c)
    else if is_ascii_digit (current c) then number c
    else err InvalidToken (eat_while (fun y => negb (is_token_separator_with_dot y)) c)).
Proof. intros H. unfold advance_token. rewrite H. destruct (adv_bump_cons c 43 r H) as (_ & _ & HC). cbv zeta. rewrite HC. reflexivity. Qed.
Lemma dispatch_minus c r : rest c = 45 :: r -> advance_token c = Some (let c := bump c in
    if (str_eqb (peeks 3 c) (lit "inf") || str_eqb (peeks 3 c) (lit "nan")) && is_token_separator_with_dot (peek 4 c)
    then ok FLOAT (eat_n 3 c)
    else if is_ascii_digit (peek 1 c) then
      let c := bump c in
      if is_number c then number c else key c
    else key c).
Proof. intros H. unfold advance_token. rewrite H. destruct (adv_bump_cons c 45 r H) as (_ & _ & HC). cbv zeta. rewrite HC. reflexivity. Qed.
Lemma dispatch_word c x r : rest c = x :: r -> is_word_start x = true -> advance_token c = Some (let c := bump c in
    if is_keyword (lit "inf") c || is_keyword (lit "nan") c then ok FLOAT (eat_n 2 c)
    else if is_keyword (lit "true") c then ok BOOLEAN (eat_n 3 c)
    else if is_keyword (lit "false") c then ok BOOLEAN (eat_n 4 c)
    else key c).
Proof.
  intros H Hx. unfold advance_token. rewrite H. destruct (adv_bump_cons c x r H) as (_ & _ & HC). cbv zeta. rewrite HC, Hx.
  unfold is_word_start in Hx.
  replace (is_whitespace x) with false by (symmetry; ucls; lia).
  replace (is_line_break x) with false by (symmetry; ucls; lia).
  replace (N.eqb x c_hash) with false by (symmetry; ucls; lia).
  replace (N.eqb x c_dquote) with false by (symmetry; ucls; lia).
  replace (N.eqb x c_squote) with false by (symmetry; ucls; lia).
  replace (is_ascii_digit x) with false by (symmetry; ucls; lia).
  replace (N.eqb x c_plus) with false by (symmetry; ucls; lia).
  replace (N.eqb x c_minus) with false by (symmetry; ucls; lia).
  replace (N.eqb x c_lbrace) with false by (symmetry; ucls; lia).
  replace (N.eqb x c_rbrace) with false by (symmetry; ucls; lia).
  replace (N.eqb x c_lbracket) with false by (symmetry; ucls; lia).
  replace (N.eqb x c_rbracket) with false by (symmetry; ucls; lia).
  replace (N.eqb x c_comma) with false by (symmetry; ucls; lia).
  replace (N.eqb x c_dot) with false by (symmetry; ucls; lia).
  replace (N.eqb x c_eq) with false by (symmetry; ucls; lia). reflexivity.
Qed.
Lemma number_lexable k w : numeric k = true -> lexable k w -> number_text k w.
Proof.
  intros HK (c & r & HR & HL).
  assert (HT : text_ok k w) by (eapply lexed_text; eauto).
  assert (HNE : w <> []).
  { intros ->. destruct HL as (t & c' & HA & _ & HR'). destruct (advance_token_lexes _ _ _ HA) as (x & u & [L1]). cbn in *. rewrite HR' in L1. rewrite HR in L1.
    apply (f_equal (@length N)) in L1. cbn in L1. rewrite app_length in L1. lia. }
  destruct w as [|x w]; [contradiction|]. cbn [app] in HR. pose proof HL as (t & c' & HA & HKt & HR').
  destruct (adv_bump_cons c x (w ++ r) HR) as (_ & HR1 & HC1).
  unfold advance_token in HA. rewrite HR in HA. cbv zeta in HA. rewrite HC1 in HA.
  destruct (k_digit x) eqn:EX.
  { destruct (digit_cases c x (w ++ r) k r HR EX HL) as [[_ HY]|[(_ & _ & HY)|[(HD & HTm & Er & HN & HP)|[_ ->]]]].
    - apply date_time_kind in HY. destruct HY as [-> |[-> | ->]]; discriminate.
    - apply time_kind in HY. rewrite HY in HK. discriminate.
    - left. assert (E : w = line_of (w ++ r)).
      { pose proof (line_split (w ++ r)) as E. rewrite <- Er in E. apply app_inv_tail in E. exact E. }
      rewrite <- E in *. exists x, w. repeat split; auto.
      + intros (d & v & E2 & Hd). apply HD. exists d, (v ++ r). split; auto. rewrite app_assoc, <- E2. reflexivity.
      + intros (h1 & h2 & m1 & m2 & v & E2 & Hd). apply HTm. exists h1, h2, m1, m2, (v ++ r). split; auto. rewrite app_assoc, <- E2. reflexivity.
    - discriminate. }
  assert (HSP : forall sg u, x :: w = sg ++ u -> sg = [] \/ sg = [43] \/ sg = [45] -> u = lit "inf" \/ u = lit "nan" -> k = FLOAT -> number_text k (x :: w)).
  { intros sg u -> Hs Hu ->. right. right. split; auto. apply special_of; auto. }
  destruct (N.eq_dec x 43) as [Hx|N43].
  { clear HC1. subst x. clear HA. pose proof HL as (t0 & c0 & HA & HKt0 & HR0). rewrite (dispatch_plus c _ HR) in HA. cbv zeta in HA. injection HA as HA.
    destruct (is_keyword (lit "inf") (bump (bump c)) || is_keyword (lit "nan") (bump (bump c))) eqn:EK.
    - assert (EF : k = FLOAT) by (unfold ok in HA; injection HA as <- _; cbn in HKt0; auto). rewrite EF in *.
      destruct HT as (sg & u & E & Hs & [HF|HF]).
      + right. left. destruct Hs as [-> |[-> | ->]].
        * cbn in E. subst u. apply float_head in HF as (y & v & E & Hy). injection E as <- _. discriminate.
        * injection E as ->. exfalso. apply float_head in HF as (y & v & -> & Hy). cbn [app] in HR1. destruct (adv_bump_cons (bump c) y (v ++ r) HR1) as (_ & _ & HC2).
          apply orb_true_iff in EK as [EK|EK]; apply keyword3 in EK as [EK _]; try discriminate; rewrite HC2 in EK; subst y; discriminate.
        * discriminate.
      + apply (HSP sg u); auto.
    - destruct (is_ascii_digit (current (bump (bump c)))) eqn:ED; [|discriminate].
      destruct (w ++ r) as [|y s] eqn:EW.
      { exfalso. rewrite (bump_end _ HR1) in ED. discriminate. }
      destruct (adv_bump_cons (bump c) y s HR1) as (_ & HR2 & HC2). rewrite HC2 in ED.
      assert (HY : yields (bump (bump c)) k r (number (bump (bump c)))) by (rewrite HA; exists t0; auto).
      apply number_inv in HY as (Er & HN & HP); [|rewrite HC2; apply digit_nsep; exact ED]. rewrite HC2, HR2 in *.
      assert (Ew : w = y :: line_of s). { eapply app_tail_eq; [exact EW|exact Er|apply line_split]. }
      right. left. exists 43, y, (line_of s). rewrite Ew. auto. }
  destruct (N.eq_dec x 45) as [Hx|N45].
  { clear HC1. subst x. clear HA. pose proof HL as (t0 & c0 & HA & HKt0 & HR0). rewrite (dispatch_minus c _ HR) in HA. cbv zeta in HA. injection HA as HA.
    destruct ((_ || _) && _) eqn:EK.
    - assert (EF : k = FLOAT) by (unfold ok in HA; injection HA as <- _; cbn in HKt0; auto). rewrite EF in *.
      destruct HT as (sg & u & E & Hs & [HF|HF]).
      + right. left. destruct Hs as [-> |[-> | ->]].
        * cbn in E. subst u. apply float_head in HF as (y & v & E & Hy). injection E as <- _. discriminate.
        * discriminate.
        * injection E as ->. exfalso. apply float_head in HF as (y & v & -> & Hy). cbn [app] in HR1.
          unfold peeks in EK. rewrite HR1 in EK. cbn [firstn] in EK. cbn in EK. apply andb_true_iff in EK as [EK _].
          destruct (N.eqb_spec y 105) as [-> |]; [discriminate|]. destruct (N.eqb_spec y 110) as [-> |]; [discriminate|]. discriminate.
      + apply (HSP sg u); auto.
    - destruct (is_ascii_digit (peek 1 (bump c))) eqn:ED.
      + destruct (w ++ r) as [|y s] eqn:EW.
        { exfalso. unfold peek in ED. rewrite HR1 in ED. discriminate. }
        unfold peek in ED. rewrite HR1 in ED. cbn in ED.
        destruct (adv_bump_cons (bump c) y s HR1) as (_ & HR2 & HC2).
        destruct (is_number (bump (bump c))).
        * assert (HY : yields (bump (bump c)) k r (number (bump (bump c)))) by (rewrite HA; exists t0; auto).
          apply number_inv in HY as (Er & HN & HP); [|rewrite HC2; apply digit_nsep; exact ED]. rewrite HC2, HR2 in *.
          assert (Ew : w = y :: line_of s). { eapply app_tail_eq; [exact EW|exact Er|apply line_split]. }
          right. left. exists 45, y, (line_of s). rewrite Ew. auto.
        * assert (HY : yields (bump (bump c)) k r (key (bump (bump c)))) by (rewrite HA; exists t0; auto). apply key_kind_is in HY. rewrite HY in HK. discriminate.
      + assert (HY : yields (bump c) k r (key (bump c))) by (rewrite HA; exists t0; auto). apply key_kind_is in HY. rewrite HY in HK. discriminate. }
  (* anything else is a word *)
  apply numeric_text in HT; [|exact HK]. cbn in HT. apply andb_true_iff in HT as [Hx _].
  replace (is_whitespace x) with false in HA by (unfold number_char in Hx; ucls; lia).
  replace (is_line_break x) with false in HA by (unfold number_char in Hx; ucls; lia).
  replace (N.eqb x c_hash) with false in HA by (unfold number_char in Hx; ucls; lia).
  replace (N.eqb x c_dquote) with false in HA by (unfold number_char in Hx; ucls; lia).
  replace (N.eqb x c_squote) with false in HA by (unfold number_char in Hx; ucls; lia).
  replace (is_ascii_digit x) with false in HA by (ucls; lia).
  replace (N.eqb x c_plus) with false in HA by (ucls; lia).
  replace (N.eqb x c_minus) with false in HA by (ucls; lia).
  replace (N.eqb x c_lbrace) with false in HA by (unfold number_char in Hx; ucls; lia).
  replace (N.eqb x c_rbrace) with false in HA by (unfold number_char in Hx; ucls; lia).
  replace (N.eqb x c_lbracket) with false in HA by (unfold number_char in Hx; ucls; lia).
  replace (N.eqb x c_rbracket) with false in HA by (unfold number_char in Hx; ucls; lia).
  replace (N.eqb x c_comma) with false in HA by (unfold number_char in Hx; ucls; lia).
  replace (N.eqb x c_eq) with false in HA by (unfold number_char in Hx; ucls; lia). injection HA as HA.
  destruct (N.eqb x c_dot); [unfold ok in HA; injection HA as <- _; cbn in HKt; subst k; discriminate|].
  destruct (is_word_start x); [|discriminate].
  destruct (is_keyword (lit "inf") (bump c) || is_keyword (lit "nan") (bump c)) eqn:EK.
  - assert (k = FLOAT /\ rest (eat_n 2 (bump c)) = r) as [-> E2] by (unfold ok in HA; injection HA as <- <-; cbn in HKt; auto).
    right. right. split; [reflexivity|]. rewrite eat_n_rest in E2.
    apply orb_true_iff in EK as [EK|EK]; apply keyword3 in EK as (EC & r' & ER); try discriminate; rewrite HC1 in EC; rewrite ER in E2; cbn in E2; subst r'; rewrite HR1 in ER.
    + assert (w = [110; 102]) by (apply (app_inv_tail r); exact ER). subst w x. apply (special_of [] (lit "inf")); auto.
    + assert (w = [97; 110]) by (apply (app_inv_tail r); exact ER). subst w x. apply (special_of [] (lit "nan")); auto.
  - destruct (is_keyword (lit "true") (bump c)); [unfold ok in HA; injection HA as <- _; cbn in HKt; subst k; discriminate|].
    destruct (is_keyword (lit "false") (bump c)); [unfold ok in HA; injection HA as <- _; cbn in HKt; subst k; discriminate|].
    assert (HY : yields (bump c) k r (key (bump c))) by (rewrite HA; exists t; auto). apply key_kind_is in HY. rewrite HY in HK. discriminate.
Qed.

(** * Date-times *)
Lemma dtl_app u s : forall i, (10 <= i)%nat -> forallb (fun x => negb (is_token_separator x)) u = true -> date_time_line i (u ++ s) = u ++ date_time_line (i + length u) s.
Proof.
  induction u as [|x u IH]; intros i Hi HU; [cbn [app length]; rewrite Nat.add_0_r; reflexivity|]. cbn [app date_time_line] in *. cbn in HU. apply andb_true_iff in HU as [H1 H2].
  rewrite H1, orb_true_r. rewrite IH by (auto; lia). cbn [length]. replace (S i + length u)%nat with (i + S (length u))%nat by lia. reflexivity.
Qed.
Lemma dtl_no_sep : forall s i, (10 <= i)%nat -> forallb (fun x => negb (is_token_separator x)) (date_time_line i s) = true.
Proof.
  induction s as [|x s IH]; intros i Hi; [reflexivity|]. cbn [date_time_line]. replace (Nat.eqb (S i) 10) with false by (symmetry; apply Nat.eqb_neq; lia). cbn [andb orb].
  destruct (is_token_separator x) eqn:E; [reflexivity|]. cbn [negb forallb]. rewrite E. cbn [negb andb]. apply IH. lia.
Qed.
Definition date_time_text (k : kind) (w : str) : Prop := exists D d T, w = D ++ d :: T /\ date_chars D /\ k_t_space d = true /\ forallb plain T = true /\
  (lang REGEX_OFFSET_DATE_TIME w /\ k = OFFSET_DATE_TIME \/ ~ lang REGEX_OFFSET_DATE_TIME w /\ lang REGEX_LOCAL_DATE_TIME w /\ k = LOCAL_DATE_TIME).
Lemma relex_date_time c k w s : date_time_text k w -> sep_start s -> rest c = w ++ s -> lexed_as c k s.
Proof. intros (D & d & T & -> & HD & Hd & HP & HK) HS HR. eapply dt_lexed; eauto. Qed.
Lemma date_time_redelim k a c c' b : date_time_text k (a ++ [c] ++ b) -> length a = 10%nat -> delim c' -> date_time_text k (a ++ [c'] ++ b).
Proof.
  intros (D & d & T & E & HD & Hd & HP & HK) HL HC.
  assert (LD : length D = 10%nat) by (destruct HD as (? & ? & ? & ? & ? & ? & ? & ? & -> & _); reflexivity).
  assert (D = a /\ d = c /\ T = b) as (-> & -> & ->).
  { destruct (app_len_inj a D ([c] ++ b) (d :: T) E) as [-> E2]; [lia|]. injection E2 as -> ->. auto. }
  assert (Hdc : delim c) by (unfold k_t_space in Hd; unfold delim; lia).
  exists a, c', b. split; [reflexivity|]. split; [exact HD|]. split; [apply delim_k; exact HC|]. split; [exact HP|].
  assert (HO : forall x y, delim y -> lang REGEX_OFFSET_DATE_TIME (a ++ [x] ++ b) -> lang REGEX_OFFSET_DATE_TIME (a ++ [y] ++ b)) by (intros x y Hy; apply redelim; auto).
  assert (HLo : forall x y, delim y -> lang REGEX_LOCAL_DATE_TIME (a ++ [x] ++ b) -> lang REGEX_LOCAL_DATE_TIME (a ++ [y] ++ b)) by (intros x y Hy; apply redelim; auto).
  destruct HK as [[HK ->]|(HN & HK & ->)]; [left|right]; split; eauto.
Qed.
Lemma dt_parts k w : k = OFFSET_DATE_TIME \/ k = LOCAL_DATE_TIME -> text_ok k w -> exists D d T, w = D ++ d :: T /\ date_chars D /\ k_t_space d = true /\ forallb (fun c => c <? 128) w = true.
Proof.
  intros HK HT.
  assert (HA : forallb (fun c => c <? 128) w = true) by (destruct HK as [-> | ->]; [exact (asc_odt _ HT)|exact (asc_ldt _ HT)]).
  assert (exists g, lang (RSeq r_date (RSeq (RCls k_t_space) g)) w) as [g H].
  { destruct HK as [-> | ->]; [exists (RSeq r_time r_offset)|exists r_time]; exact HT. }
  apply lang_seq_inv in H as (D & v & -> & HD & Hv). apply nonempty_seq_cls in Hv as (d & T & -> & Hd & _). exists D, d, T. repeat split; auto. apply date_inv. exact HD.
Qed.
Lemma date_time_lexable k w : k = OFFSET_DATE_TIME \/ k = LOCAL_DATE_TIME -> lexable k w -> date_time_text k w.
Proof.
  intros HK (c & r & HR & HL). pose proof (lexed_text _ _ _ _ HR HL) as HT. destruct (dt_parts k w HK HT) as (D & d & T & -> & HD & Hd & HA).
  pose proof HD as (y1 & y2 & y3 & y4 & m1 & m2 & d1 & d2 & ED & HDg). subst D. cbn [app] in HR.
  pose proof HDg as HDg'. cbn [forallb] in HDg'. apply andb_true_iff in HDg' as [Hy1 HDg'].
  destruct (digit_cases c _ _ k r HR Hy1 HL) as [[_ HY]|[(HX & _)|[(HX & _)|(HX & _)]]].
  2-4: exfalso; apply HX; exists [y1; y2; y3; y4; 45; m1; m2; 45; d1; d2]; eexists; split; [reflexivity|exact HD].
  destruct (adv_bump_cons c _ _ HR) as (_ & HR1 & HC1).
  assert (HL0 : date_time_line 0 (rest (bump c)) = y2 :: y3 :: y4 :: 45 :: m1 :: m2 :: 45 :: d1 :: d2 :: d :: date_time_line 10 (T ++ r)).
  { rewrite HR1, dtl_date.
    - rewrite dtl_delim by auto. reflexivity.
    - cbn [forallb]. repeat (apply andb_true_iff in HDg' as [? HDg']). repeat (apply andb_true_iff; split; auto). }
  unfold date_time in HY. rewrite HL0, HC1 in HY.
  set (L := date_time_line 10 (T ++ r)) in *. set (line := y1 :: y2 :: y3 :: y4 :: 45 :: m1 :: m2 :: 45 :: d1 :: d2 :: d :: L) in *.
  destruct (date_time_line_prefix 10 (T ++ r)) as [z HZ]. fold L in HZ.
  assert (HSEP : forallb (fun x => negb (is_token_separator x)) L = true) by (apply dtl_no_sep; lia).
  assert (HR2 : rest (bump c) = (y2 :: y3 :: y4 :: 45 :: m1 :: m2 :: 45 :: d1 :: d2 :: d :: L) ++ z) by (rewrite HR1, HZ; reflexivity).
  assert (HEND : forall rg kk, lang rg line -> chars_in rg (fun c => c <? 128) -> yields (bump c) k r (let c := eat_match (len_bytes line) (bump c) in if is_token_separator_with_dot (peek 1 c) then ok kk c else date_time_fail (kind_eqb kk LOCAL_DATE_TIME) false c) ->
    k = kk /\ T = L /\ forallb plain T = true).
  { intros rg kk HLg HAs HYY. cbv zeta in HYY. destruct (is_token_separator_with_dot _); [|unfold date_time_fail in HYY; destruct (kind_eqb _ _); apply no_yield_err in HYY; contradiction].
    apply yield_ok_inv in HYY as [-> HE]. split; [reflexivity|].
    assert (HE2 : rest (eat_match (len_bytes line) (bump c)) = z).
    { unfold line. rewrite <- HC1. apply eat_match_ascii; [exact HR2|]. rewrite HC1. apply HAs. exact HLg. }
    rewrite <- HE2, HE in HZ. apply app_inv_tail in HZ. split; [exact HZ|]. rewrite HZ. pose proof (HAs _ HLg) as HA2.
    unfold line in HA2. cbn [forallb] in HA2. repeat (apply andb_true_iff in HA2 as [_ HA2]). rewrite forallb_forall in *. intros x Hx. unfold plain. rewrite (HSEP x Hx), (HA2 x Hx). reflexivity. }
  exists [y1; y2; y3; y4; 45; m1; m2; 45; d1; d2], d, T.
  unfold find_end in HY. destruct (full_match REGEX_OFFSET_DATE_TIME line) eqn:EO.
  - apply full_match_spec in EO. destruct (HEND _ OFFSET_DATE_TIME EO asc_odt HY) as (-> & ET & HP). repeat split; auto.
  - destruct (full_match REGEX_LOCAL_DATE_TIME line) eqn:EL.
    + apply full_match_spec in EL. destruct (HEND _ LOCAL_DATE_TIME EL asc_ldt HY) as (-> & ET & HP). split; [reflexivity|]. split; [exact HD|]. split; [exact Hd|]. split; [exact HP|]. right. rewrite ET. split; [|split; [exact EL|reflexivity]].
      intros HO. apply full_match_spec in HO. change (full_match REGEX_OFFSET_DATE_TIME line = true) in HO. congruence.
    + exfalso. destruct (full_match REGEX_LOCAL_DATE _); [|unfold date_time_fail in HY; apply no_yield_err in HY; contradiction].
      cbv zeta in HY. destruct (is_token_separator_with_dot _); [|unfold date_time_fail in HY; apply no_yield_err in HY; contradiction].
      apply yield_ok_inv in HY as [HY _]. subst k. destruct HK; discriminate.
Qed.

(** * Times *)
Lemma relex_time c w s : lang r_time w -> forallb plain w = true -> sep_start s -> rest c = w ++ s -> lexed_as c LOCAL_TIME s.
Proof.
  intros H HP HS HR. pose proof (time_start _ H) as (h1 & h2 & m1 & m2 & v & -> & ? & ? & ? & ?).
  cbn [app] in HR. destruct (adv_bump_cons c _ _ HR) as (_ & HR1 & HC1).
  eapply yields_lexed with (c0 := c); [eapply dispatch_digit; eauto|]. cbv zeta.
  rewrite not_date.
  2: { rewrite HR1, HC1. intros (d & v' & E & (y1 & y2 & y3 & y4 & ? & ? & ? & ? & -> & HD)). cbn [app] in E. injection E as <- <- <- <- E. cbn [forallb] in HD.
    repeat (apply andb_true_iff in HD as [? HD]). discriminate. }
  rewrite (is_time_true (bump c) h1 h2 m1 m2 (v ++ s)); auto.
  unfold LexerModel.time, peek_with_current_while. rewrite HC1, HR1.
  change (h2 :: 58 :: m1 :: m2 :: v ++ s) with ((h2 :: 58 :: m1 :: m2 :: v) ++ s).
  rewrite take_while_sep; auto.
  2: { simpl in HP |- *. apply andb_true_iff in HP. tauto. }
  unfold find_end. apply full_match_spec in H. unfold REGEX_LOCAL_TIME. rewrite H.
  apply yields_ok. rewrite <- HC1 at 1. apply eat_match_ascii; [exact HR1|]. rewrite HC1. apply plain_ascii. exact HP.
Qed.
Lemma time_lexable w : lexable LOCAL_TIME w -> lang r_time w /\ forallb plain w = true.
Proof.
  intros (c & r & HR & HL). pose proof (lexed_text _ _ _ _ HR HL) as HT. change (lang r_time w) in HT. split; [exact HT|].
  pose proof (asc_time _ HT) as HA. pose proof (time_start _ HT) as (h1 & h2 & m1 & m2 & v & -> & H1 & H2 & H3 & H4).
  cbn [app] in HR. destruct (digit_cases c _ _ _ r HR H1 HL) as [[_ HY]|[(_ & _ & HY)|[(_ & HX & _)|(_ & HX)]]].
  - apply date_time_kind in HY. destruct HY as [HY|[HY|HY]]; discriminate.
  - destruct (adv_bump_cons c _ _ HR) as (_ & HR1 & HC1). unfold LexerModel.time, peek_with_current_while in HY. rewrite HR1, HC1 in HY. fold (line_of (h2 :: 58 :: m1 :: m2 :: v ++ r)) in HY.
    set (s := h2 :: 58 :: m1 :: m2 :: v ++ r) in *. unfold find_end in HY. destruct (full_match REGEX_LOCAL_TIME (h1 :: line_of s)) eqn:EM; [|apply no_yield_err in HY; contradiction].
    apply full_match_spec in EM. apply yield_ok_inv in HY as [_ HE].
    assert (HE2 : rest (eat_match (len_bytes (h1 :: line_of s)) (bump c)) = after_line s).
    { rewrite <- HC1. apply eat_match_ascii; [rewrite HR1; apply line_split|]. rewrite HC1. apply asc_time. exact EM. }
    assert (E : (h2 :: 58 :: m1 :: m2 :: v) ++ r = line_of s ++ after_line s) by apply line_split. rewrite <- HE2, HE in E. apply app_inv_tail in E.
    assert (HSEP : forallb (fun x => negb (is_token_separator x)) (line_of s) = true) by apply take_while_all. rewrite <- E in HSEP.
    cbn [app]. apply forallb_forall. intros x Hx. rewrite forallb_forall in HA. specialize (HA x Hx). unfold plain. rewrite HA, andb_true_r.
    destruct Hx as [<-|Hx]; [rewrite digit_nsep by auto; reflexivity|]. rewrite forallb_forall in HSEP. apply HSEP. exact Hx.
  - exfalso. apply HX. exists h1, h2, m1, m2, (v ++ r). split; [reflexivity|]. cbn [forallb]. rewrite H1, H2, H3, H4. reflexivity.
  - discriminate.
Qed.

(** * Multi-line strings *)
Lemma take_quotes q m s : forallb (fun y => N.eqb y q) m = true -> not_start q s -> take_while (fun y => N.eqb y q) (m ++ s) = m /\ drop_while (fun y => N.eqb y q) (m ++ s) = s.
Proof.
  induction m as [|y m IH]; intros HM HS.
  - cbn [app]. destruct s as [|x s]; [auto|]. cbn [take_while drop_while]. destruct (N.eqb_spec x q) as [-> |]; [exfalso; eapply HS; reflexivity|auto].
  - cbn in HM |- *. apply andb_true_iff in HM as [H1 H2]. rewrite H1. destruct (IH H2 HS) as [-> ->]. auto.
Qed.
Definition closed (loop : str -> cursor -> lex_result * cursor) (k : kind) (q : char) (u : str) : Prop :=
  (3 <= length u)%nat /\ forall s c, not_start q s -> rest c = u ++ s -> yields c k s (loop (u ++ s) c).
Lemma nth_app2 (u s s' : str) i d : (i < length u)%nat -> nth i (u ++ s) d = nth i (u ++ s') d.
Proof. intros H. rewrite !app_nth1 by exact H. reflexivity. Qed.
Lemma close_quotes q k e r c0 c : q <> 0 -> nth 0 (rest c) EOF_CHAR = q -> nth 1 (rest c) EOF_CHAR = q ->
  yields c0 k r (if 4 <? len_bytes (peek_while (fun y => N.eqb y q) c) then err e (eat_while (fun y => N.eqb y q) c) else ok k (eat_while (fun y => N.eqb y q) c)) ->
  exists m, rest c = m ++ r /\ (2 <= length m)%nat /\ nth 0 m EOF_CHAR = q /\ nth 1 m EOF_CHAR = q /\ forall s c' c1, not_start q s -> rest c' = m ++ s ->
    yields c1 k s (if 4 <? len_bytes (peek_while (fun y => N.eqb y q) c') then err e (eat_while (fun y => N.eqb y q) c') else ok k (eat_while (fun y => N.eqb y q) c')).
Proof.
  intros Hq H0 H1 HY. unfold peek_while in *. set (m := take_while (fun y => N.eqb y q) (rest c)) in *.
  assert (HE : rest c = m ++ drop_while (fun y => N.eqb y q) (rest c)) by (symmetry; apply take_drop_while).
  assert (HM : forallb (fun y => N.eqb y q) m = true) by apply take_while_all.
  destruct (4 <? len_bytes m) eqn:E4; [apply no_yield_err in HY; contradiction|]. apply yield_ok_inv in HY as [_ HR]. rewrite eat_while_rest in HR. rewrite HR in HE.
  assert (exists m', m = q :: q :: m') as (m' & Em).
  { unfold m. destruct (rest c) as [|a [|b r']]; cbn in H0, H1; try (exfalso; apply Hq; unfold EOF_CHAR in *; congruence). subst a b. cbn [take_while]. rewrite N.eqb_refl. eauto. }
  exists m. split; [exact HE|]. rewrite Em at 1 2 3. cbn [length nth]. split; [lia|]. split; [reflexivity|]. split; [reflexivity|].
  intros s c' c1 HS HR'. rewrite HR'. destruct (take_quotes q m s HM HS) as [-> HD]. rewrite E4. apply yields_ok. rewrite eat_while_rest, HR'. exact HD.
Qed.
Lemma ml_basic_local : forall r q c k t, rest c = r -> yields c k t (multi_line_basic_string_loop r q c) ->
  exists u, r = u ++ t /\ closed (fun r c => multi_line_basic_string_loop r q c) k 34 u.
Proof.
  induction r as [|x r IH]; intros q c k t HR HY; [apply no_yield_err in HY; contradiction|]. cbn [multi_line_basic_string_loop] in HY.
  destruct (adv_bump_cons c x r HR) as (_ & HR1 & HC1). rewrite HC1 in HY.
  destruct (negb q && N.eqb x c_dquote && N.eqb (peek 1 (bump c)) c_dquote && N.eqb (peek 2 (bump c)) c_dquote) eqn:E.
  - assert (HK : k = MULTI_LINE_BASIC_STRING). { cbv zeta in HY. destruct (4 <? _); [apply no_yield_err in HY; contradiction|]. apply yield_ok_inv in HY as [<- _]. reflexivity. }
    subst k. apply andb_true_iff in E as [E E3]. apply andb_true_iff in E as [E E2]. apply andb_true_iff in E as [E0 E1]. apply N.eqb_eq in E1, E2, E3. unfold peek in E2, E3. cbn [Nat.sub] in E2, E3.
    destruct (close_quotes c_dquote _ _ _ c (bump c) ltac:(discriminate) E2 E3 HY) as (m & Hm & HL & N0 & N1 & HN). rewrite HR1 in Hm. exists (x :: m). split; [rewrite Hm; reflexivity|].
    split; [cbn; lia|]. intros s c2 HS HR2. cbn [app] in *. destruct (adv_bump_cons c2 x (m ++ s) HR2) as (_ & HR3 & HC3). cbn [multi_line_basic_string_loop]. rewrite HC3.
    unfold peek at 1 2. rewrite HR3. cbn [Nat.sub]. rewrite !app_nth1 by lia. rewrite N0, N1, E0, E1. change (N.eqb c_dquote c_dquote) with true. cbn [andb]. apply HN; [exact HS|exact HR3].
  - assert (HI : exists q', (if N.eqb x c_backslash then multi_line_basic_string_loop r true (bump c) else multi_line_basic_string_loop r false (bump c)) = multi_line_basic_string_loop r q' (bump c) /\
      forall r c, (if N.eqb x c_backslash then multi_line_basic_string_loop r true c else multi_line_basic_string_loop r false c) = multi_line_basic_string_loop r q' c).
    { destruct (N.eqb x c_backslash); eauto. }
    destruct HI as (q' & HI & HI2). rewrite HI in HY. destruct (IH q' (bump c) k t HR1 HY) as (u & -> & HL & HN). exists (x :: u). split; [reflexivity|]. split; [cbn; lia|].
    intros s c2 HS HR2. cbn [app] in *. destruct (adv_bump_cons c2 x (u ++ s) HR2) as (_ & HR3 & HC3). cbn [multi_line_basic_string_loop]. rewrite HC3.
    assert (EP : forall i, (i = 1 \/ i = 2)%nat -> peek i (bump c2) = peek i (bump c)).
    { intros i Hi. unfold peek. rewrite HR3, HR1. apply nth_app2. lia. }
    rewrite (EP 1%nat), (EP 2%nat) by auto. rewrite E. rewrite HI2. destruct (HN s (bump c2) HS HR3) as (z & Z1 & Z2 & Z3). exists z. auto.
Qed.
Lemma ml_literal_local : forall r c k t, rest c = r -> yields c k t (multi_line_literal_string_loop r c) ->
  exists u, r = u ++ t /\ closed multi_line_literal_string_loop k 39 u.
Proof.
  induction r as [|x r IH]; intros c k t HR HY; [apply no_yield_err in HY; contradiction|]. cbn [multi_line_literal_string_loop] in HY.
  destruct (adv_bump_cons c x r HR) as (_ & HR1 & HC1). rewrite HC1 in HY.
  destruct (N.eqb x c_squote && N.eqb (peek 1 (bump c)) c_squote && N.eqb (peek 2 (bump c)) c_squote) eqn:E.
  - assert (HK : k = MULTI_LINE_LITERAL_STRING). { cbv zeta in HY. destruct (4 <? _); [apply no_yield_err in HY; contradiction|]. apply yield_ok_inv in HY as [<- _]. reflexivity. }
    subst k. apply andb_true_iff in E as [E E3]. apply andb_true_iff in E as [E1 E2]. apply N.eqb_eq in E1, E2, E3. unfold peek in E2, E3. cbn [Nat.sub] in E2, E3.
    destruct (close_quotes c_squote _ _ _ c (bump c) ltac:(discriminate) E2 E3 HY) as (m & Hm & HL & N0 & N1 & HN). rewrite HR1 in Hm. exists (x :: m). split; [rewrite Hm; reflexivity|].
    split; [cbn; lia|]. intros s c2 HS HR2. cbn [app] in *. destruct (adv_bump_cons c2 x (m ++ s) HR2) as (_ & HR3 & HC3). cbn [multi_line_literal_string_loop]. rewrite HC3.
    unfold peek at 1 2. rewrite HR3. cbn [Nat.sub]. rewrite !app_nth1 by lia. rewrite N0, N1, E1. change (N.eqb c_squote c_squote) with true. cbn [andb]. apply HN; [exact HS|exact HR3].
  - destruct (IH (bump c) k t HR1 HY) as (u & -> & HL & HN). exists (x :: u). split; [reflexivity|]. split; [cbn; lia|].
    intros s c2 HS HR2. cbn [app] in *. destruct (adv_bump_cons c2 x (u ++ s) HR2) as (_ & HR3 & HC3). cbn [multi_line_literal_string_loop]. rewrite HC3.
    assert (EP : forall i, (i = 1 \/ i = 2)%nat -> peek i (bump c2) = peek i (bump c)).
    { intros i Hi. unfold peek. rewrite HR3, HR1. apply nth_app2. lia. }
    rewrite (EP 1%nat), (EP 2%nat) by auto. rewrite E. destruct (HN s (bump c2) HS HR3) as (z & Z1 & Z2 & Z3). exists z. auto.
Qed.
Lemma relex_ml_basic w s : lexable MULTI_LINE_BASIC_STRING w -> not_start 34 s -> always_lexed MULTI_LINE_BASIC_STRING w s.
Proof.
  intros (c & r & HR & HL) HS c2 HR2. pose proof (lexed_text _ _ _ _ HR HL) as (v & ->). cbn [app] in *.
  pose proof (lexed_fun _ _ _ _ (dispatch_dquote c _ HR) HL) as HY. destruct (adv_bump_cons c _ _ HR) as (_ & HR1 & HC1). destruct (adv_bump_cons c2 _ _ HR2) as (_ & HR3 & HC3).
  eapply yields_lexed with (c0 := bump c2); [apply (dispatch_dquote c2 _ HR2)|].
  assert (HM : forall c s, current c = 34 -> rest c = 34 :: 34 :: s -> matches_str [c_dquote; c_dquote; c_dquote] c = true) by (intros c0 s0 E1 E2; rewrite matches3_iff, E1, E2; reflexivity).
  rewrite (HM _ _ HC1 HR1) in HY. rewrite (HM _ _ HC3 HR3). unfold multi_line_basic_string in *.
  assert (HR4 : rest (eat_n 2 (bump c)) = (v ++ [34; 34; 34]) ++ r) by (rewrite eat_n_rest, HR1; reflexivity).
  assert (HR5 : rest (eat_n 2 (bump c2)) = (v ++ [34; 34; 34]) ++ s) by (rewrite eat_n_rest, HR3; reflexivity).
  cbv zeta in *. destruct (ml_basic_local _ false (eat_n 2 (bump c)) MULTI_LINE_BASIC_STRING r eq_refl) as (u & Hu & _ & HN).
  { destruct HY as (z & Z1 & Z2 & Z3). exists z. auto. }
  rewrite HR4 in Hu. apply app_inv_tail in Hu. subst u. rewrite HR5. destruct (HN s (eat_n 2 (bump c2)) HS HR5) as (z & Z1 & Z2 & Z3). exists z. auto.
Qed.
Lemma relex_ml_literal w s : lexable MULTI_LINE_LITERAL_STRING w -> not_start 39 s -> always_lexed MULTI_LINE_LITERAL_STRING w s.
Proof.
  intros (c & r & HR & HL) HS c2 HR2. pose proof (lexed_text _ _ _ _ HR HL) as (v & ->). cbn [app] in *.
  pose proof (lexed_fun _ _ _ _ (dispatch_squote c _ HR) HL) as HY. destruct (adv_bump_cons c _ _ HR) as (_ & HR1 & HC1). destruct (adv_bump_cons c2 _ _ HR2) as (_ & HR3 & HC3).
  eapply yields_lexed with (c0 := bump c2); [apply (dispatch_squote c2 _ HR2)|].
  assert (HM : forall c s, current c = 39 -> rest c = 39 :: 39 :: s -> matches_str [c_squote; c_squote; c_squote] c = true) by (intros c0 s0 E1 E2; rewrite matches3_iff, E1, E2; reflexivity).
  rewrite (HM _ _ HC1 HR1) in HY. rewrite (HM _ _ HC3 HR3). unfold multi_line_literal_string in *.
  assert (HR4 : rest (eat_n 2 (bump c)) = (v ++ [39; 39; 39]) ++ r) by (rewrite eat_n_rest, HR1; reflexivity).
  assert (HR5 : rest (eat_n 2 (bump c2)) = (v ++ [39; 39; 39]) ++ s) by (rewrite eat_n_rest, HR3; reflexivity).
  cbv zeta in *. destruct (ml_literal_local _ (eat_n 2 (bump c)) MULTI_LINE_LITERAL_STRING r eq_refl) as (u & Hu & _ & HN).
  { destruct HY as (z & Z1 & Z2 & Z3). exists z. auto. }
  rewrite HR4 in Hu. apply app_inv_tail in Hu. subst u. rewrite HR5. destruct (HN s (eat_n 2 (bump c2)) HS HR5) as (z & Z1 & Z2 & Z3). exists z. auto.
Qed.

(** * Symbols, white space and line breaks *)
Definition symbol (k : kind) : option char :=
  match k with
  | BRACE_START => Some 123 | BRACE_END => Some 125 | BRACKET_START => Some 91 | BRACKET_END => Some 93
  | COMMA => Some 44 | DOT => Some 46 | EQUAL => Some 61 | _ => None
  end.
Lemma symbol_lexed k x s : symbol k = Some x -> always_lexed k [x] s.
Proof.
  intros HK c HR. cbn [app] in HR. destruct (adv_bump_cons c _ _ HR) as (_ & HR1 & HC1).
  assert (E : advance_token c = Some (ok k (bump c))).
  { unfold advance_token. rewrite HR. cbv zeta. rewrite HC1. destruct k; try discriminate; injection HK as <-; reflexivity. }
  eapply yields_lexed; [exact E|]. apply (yields_ok _ _ _ c). exact HR1.
Qed.
Lemma break_lexed w s : w = [10] \/ w = [13; 10] -> always_lexed LINE_BREAK w s.
Proof.
  intros [-> | ->] c HR; cbn [app] in HR; destruct (adv_bump_cons c _ _ HR) as (_ & HR1 & HC1).
  - assert (E : advance_token c = Some (line_break (bump c))).
    { unfold advance_token. rewrite HR. cbv zeta. rewrite HC1. reflexivity. }
    eapply yields_lexed; [exact E|]. unfold line_break. rewrite HC1. apply (yields_ok _ _ _ c). exact HR1.
  - assert (E : advance_token c = Some (line_break (bump c))).
    { unfold advance_token. rewrite HR. cbv zeta. rewrite HC1. reflexivity. }
    eapply yields_lexed; [exact E|]. unfold line_break. rewrite HC1. unfold peek. rewrite HR1. change (N.eqb 13 c_cr) with true. cbn [nth Nat.sub].
    change (N.eqb 10 c_nl) with true. cbv iota. apply (yields_ok _ _ _ c). unfold set_ending. cbn [rest]. rewrite eat_n_rest, HR1. reflexivity.
Qed.
Lemma white_lexed c x s : rest c = x :: s -> is_whitespace x = true -> lexed_as c WHITESPACE (drop_while is_whitespace s).
Proof.
  intros HR Hx. destruct (adv_bump_cons c _ _ HR) as (_ & HR1 & HC1).
  assert (E : advance_token c = Some (whitespace (bump c))).
  { unfold advance_token. rewrite HR. cbv zeta. rewrite HC1, Hx. reflexivity. }
  eapply yields_lexed; [exact E|]. apply (yields_ok _ _ _ c). rewrite eat_while_rest, HR1. reflexivity.
Qed.
Definition no_white (s : str) : Prop := match s with [] => True | x :: _ => is_whitespace x = false end.
Lemma blank_lexed w s : w <> [] -> forallb is_whitespace w = true -> no_white s -> always_lexed WHITESPACE w s.
Proof.
  intros HN HW HS c HR. destruct w as [|x w]; [contradiction|]. cbn in HW. apply andb_true_iff in HW as [Hx HW]. cbn [app] in HR.
  replace s with (drop_while is_whitespace (w ++ s)); [apply (white_lexed c x (w ++ s) HR Hx)|].
  clear - HW HS. induction w as [|y w IH]; [|cbn in HW |- *; apply andb_true_iff in HW as [-> HW]; auto].
  cbn [app]. destruct s as [|y s]; [reflexivity|]. cbn in HS |- *. rewrite HS. reflexivity.
Qed.
(** What is lexed as something else does not start with white space. *)
Lemma lexed_white k w s : w <> [] -> always_lexed k w s -> (k = WHITESPACE /\ forallb is_whitespace w = true /\ no_white s) \/ (k <> WHITESPACE /\ no_white w).
Proof.
  intros HN HA. destruct w as [|x w]; [contradiction|]. set (c := cursor_new ((x :: w) ++ s)). assert (HR : rest c = x :: w ++ s) by reflexivity. specialize (HA c eq_refl).
  destruct (is_whitespace x) eqn:Hx.
  - left. pose proof (white_lexed c x (w ++ s) HR Hx) as (t & c' & A1 & A2 & A3). destruct HA as (t' & c'' & B1 & B2 & B3). rewrite A1 in B1. injection B1 as <- <-.
    assert (ED : s = drop_while is_whitespace (w ++ s)) by congruence. split; [congruence|].
    assert (EW : w ++ s = take_while is_whitespace (w ++ s) ++ s) by (rewrite ED at 3; symmetry; apply take_drop_while). apply app_inv_tail in EW. split.
    + cbn [forallb]. rewrite Hx, EW. apply take_while_all.
    + rewrite ED. pose proof (drop_while_head is_whitespace (w ++ s)) as H. destruct (drop_while is_whitespace (w ++ s)); exact H.
  - right. split; [|exact Hx]. intros ->. destruct HA as (t & c' & B1 & B2 & B3). destruct (advance_sound _ _ B1 t eq_refl) as (u & E & HT). cbn [snd] in E. rewrite B3 in E. rewrite B2 in HT.
    change (rest c) with ((x :: w) ++ s) in E. apply app_inv_tail in E. subst u. destruct HT as [_ HT]. cbn in HT. rewrite Hx in HT. discriminate.
Qed.

(** * Values *)
Definition value_text (k : kind) (w : str) : Prop :=
  match k with
  | BASIC_STRING | LITERAL_STRING | BOOLEAN | LOCAL_DATE => text_ok k w
  | MULTI_LINE_BASIC_STRING | MULTI_LINE_LITERAL_STRING => lexable k w
  | INTEGER_DEC | INTEGER_BIN | INTEGER_OCT | INTEGER_HEX | FLOAT => number_text k w
  | OFFSET_DATE_TIME | LOCAL_DATE_TIME => date_time_text k w
  | LOCAL_TIME => lang r_time w /\ forallb plain w = true
  | _ => False
  end.
Lemma value_lexable k w : existsb (kind_eqb k) [BASIC_STRING; MULTI_LINE_BASIC_STRING; LITERAL_STRING; MULTI_LINE_LITERAL_STRING; INTEGER_DEC;
    INTEGER_BIN; INTEGER_OCT; INTEGER_HEX; FLOAT; BOOLEAN; OFFSET_DATE_TIME; LOCAL_DATE_TIME; LOCAL_DATE; LOCAL_TIME] = true -> lexable k w -> value_text k w.
Proof.
  intros HK HL. destruct k; try discriminate; cbn [value_text]; first [exact (lexable_text _ _ HL)|exact HL|apply number_lexable; auto|apply date_time_lexable; auto|apply time_lexable; auto].
Qed.
Lemma ends_not_start q s : ends_value s -> ~ In q [9; 10; 13; 32; 35; 44; 93; 125] -> not_start q s.
Proof. intros H HQ r ->. apply HQ. exact H. Qed.
Lemma relex_value k w s : value_text k w -> ends_value s -> not_continued k s -> always_lexed k w s.
Proof.
  intros HT HE HN. pose proof (ends_value_sep _ HE) as HS. destruct k; try contradiction; cbn [value_text] in HT.
  all: try (intros c HR; eapply relex_number; eassumption).
  all: try (intros c HR; eapply relex_date_time; eassumption).
  - apply relex_basic; auto. apply ends_not_start; auto. cbn. intuition discriminate.
  - apply relex_ml_basic; auto. apply ends_not_start; auto. cbn. intuition discriminate.
  - apply relex_literal; auto. apply ends_not_start; auto. cbn. intuition discriminate.
  - apply relex_ml_literal; auto. apply ends_not_start; auto. cbn. intuition discriminate.
  - intros c HR. apply (bool_lexed c w s); auto. destruct HT as [-> | ->]; [apply LAltL|apply LAltR]; apply g_str_inv; reflexivity.
  - intros c HR. apply (ld_lexed c w s); auto.
  - intros c HR. apply (relex_time c w s); tauto.
Qed.

(** * Keys *)
(** The characters of a bare key of TOML *)
Definition bare_char (c : char) : bool := in_range 65 90 c || in_range 97 122 c || in_range 48 57 c || N.eqb c 95 || N.eqb c 45.
Definition toml_key (w : str) : Prop := w <> [] /\ forallb bare_char w = true.
(** What begins like a date is one. *)
Definition date_ok (w : str) : Prop := starts_date w -> date_chars w.
Definition after_key_text (s : str) : Prop :=
  match s with 46 :: _ | 61 :: _ | 93 :: _ | 9 :: _ => True | 32 :: x :: _ => k_digit x = false | _ => False end.
Lemma after_key_cases s : after_key_text s -> exists x r, s = x :: r /\ (x = 46 \/ x = 61 \/ x = 93 \/ x = 9 \/ x = 32 /\ exists y r', r = y :: r' /\ k_digit y = false).
Proof.
  destruct s as [|x r]; [contradiction|]. cbn. intros H. exists x, r. split; [reflexivity|].
  destruct (N.eq_dec x 46) as [|N1]; [auto|]. destruct (N.eq_dec x 61) as [|N2]; [auto|]. destruct (N.eq_dec x 93) as [|N3]; [auto|]. destruct (N.eq_dec x 9) as [|N4]; [auto|].
  destruct (N.eq_dec x 32) as [-> |N5].
  - destruct r as [|y r']; [contradiction|]. right. right. right. right. eauto.
  - exfalso. destruct x as [|p]; [exact H|]. do 7 (destruct p as [p|p|]; try exact H; try congruence).
Qed.
Lemma bare_plain w : forallb bare_char w = true -> forallb plain w = true.
Proof. apply forallb_impl. unfold bare_char, plain. cls. Qed.
Lemma bare_key_char w : forallb bare_char w = true -> forallb is_key_char w = true.
Proof. apply forallb_impl. unfold bare_char, is_key_char. intros x H. ucls. rewrite <- !orb_assoc. lia. Qed.
(** A float has one dot, and nothing but digits, signs and an exponent after it. *)
Definition float_tail (c : char) : bool := k_digit_ c || k_e c || k_sign c.
Lemma tail_no_date d e : forallb k_digit_ d = true -> (e = [] \/ exists x r, e = x :: r /\ k_e x = true) -> ~ starts_date (d ++ e).
Proof.
  intros HD HE (t & v & E & y1 & y2 & y3 & y4 & m1 & m2 & d1 & d2 & -> & HT). cbn [app] in E.
  cbn [forallb] in HT. repeat (apply andb_true_iff in HT as [? HT]).
  assert (HX : forall y z, e = y :: z -> k_e y = true) by (intros y z K; destruct HE as [-> |(x & r & -> & Hx)]; [discriminate|injection K as <- _; exact Hx]).
  assert (HG : forall y, k_digit y = true -> k_e y = true -> False) by (clear; intros y; ucls; lia).
  do 5 (destruct d as [|? d]; [cbn [app] in E; specialize (HX _ _ E); first [eapply HG; [|exact HX]; assumption|discriminate]|cbn [app] in E; injection E as -> E; cbn [forallb] in HD; apply andb_true_iff in HD as [? HD]; try discriminate]).
Qed.
Lemma float_dot w : lang REGEX_FLOAT w -> (~ In 46 w) \/ exists p v, w = p ++ 46 :: v /\ ~ In 46 p /\ v <> [] /\ forallb float_tail v = true /\ ~ starts_date v.
Proof.
  intros H. unfold REGEX_FLOAT in H. apply lang_seq_inv in H as (a & r & -> & Ha & Hr). apply lang_plus_cls in Ha as [_ Ha].
  assert (NA : ~ In 46 a). { intros K. rewrite forallb_forall in Ha. specialize (Ha _ K). discriminate. }
  assert (HE : forall e, lang (RSeq (RCls k_e) (RSeq (ROpt (RCls k_sign)) (RPlus (RCls k_digit_)))) e -> forallb float_tail e = true).
  { intros e He. assert (HC : chars_in (RSeq (RCls k_e) (RSeq (ROpt (RCls k_sign)) (RPlus (RCls k_digit_)))) float_tail) by (unfold RPlus, ROpt, float_tail; ci). exact (HC e He). }
  assert (HD : forall d, lang (RPlus (RCls k_digit_)) d -> d <> [] /\ forallb float_tail d = true /\ forallb k_digit_ d = true).
  { intros d Hd. apply lang_plus_cls in Hd as [H1 H2]. split; [exact H1|]. split; [|exact H2]. eapply forallb_impl; [|exact H2]. unfold float_tail. intros x ->. reflexivity. }
  assert (NT : forall e, forallb float_tail e = true -> ~ In 46 e). { intros e He K. rewrite forallb_forall in He. specialize (He _ K). discriminate. }
  assert (NO : forall z, lang (ROpt (RChr 58)) z -> ~ In 46 z).
  { intros z Hz. apply lang_opt_inv in Hz as [Hz| ->]; [apply lang_chr_inv in Hz as -> |]; cbn; intuition discriminate. }
  apply lang_alt_inv in Hr as [Hr|Hr].
  - apply lang_seq_inv in Hr as (z & r1 & -> & Hz & Hr). apply lang_seq_inv in Hr as (o & e & -> & Ho & He). assert (HEX : e = [] \/ exists x r, e = x :: r /\ k_e x = true) by (right; apply nonempty_seq_cls in He as (x & q & -> & Hx & _); eauto).
    specialize (HE _ He). apply lang_opt_inv in Ho as [Ho| ->].
    + apply lang_seq_inv in Ho as (z' & d & -> & Hz' & Ho). apply lang_seq_inv in Ho as (dd & d' & -> & Hdd & Hd'). apply lang_chr_inv in Hdd as ->. destruct (HD _ Hd') as (D1 & D2 & D3).
      right. exists (a ++ z ++ z'), (d' ++ e). split; [rewrite <- !app_assoc; reflexivity|]. split; [|split; [|split]].
      * intros K. apply in_app_or in K as [K|K]; [auto|]. apply in_app_or in K as [K|K]; [exact (NO _ Hz K)|exact (NO _ Hz' K)].
      * destruct d'; [contradiction|discriminate].
      * rewrite forallb_app, D2, HE. reflexivity.
      * apply tail_no_date; auto.
    + left. cbn [app]. intros K. apply in_app_or in K as [K|K]; [auto|]. apply in_app_or in K as [K|K]; [exact (NO _ Hz K)|exact (NT _ HE K)].
  - apply lang_seq_inv in Hr as (dd & d' & -> & Hdd & Hd'). apply lang_chr_inv in Hdd as ->. destruct (HD _ Hd') as (D1 & D2 & D3). right. exists a, d'. split; [reflexivity|]. split; [exact NA|]. split; [exact D1|]. split; [exact D2|].
    rewrite <- (app_nil_r d'). apply tail_no_date; auto.
Qed.
Lemma not_in_stop w : ~ In 46 w -> forallb (fun c => negb (N.eqb c 46)) w = true.
Proof. intros H. apply forallb_forall. intros x Hx. apply negb_true_iff, N.eqb_neq. intros ->. exact (H Hx). Qed.
Lemma float_dot_at u v : ~ In 46 u -> lang REGEX_FLOAT (u ++ 46 :: v) -> v <> [] /\ forallb float_tail v = true /\ ~ starts_date v.
Proof.
  intros HU H. apply float_dot in H as [H|(p & v' & E & HP & HV)]; [exfalso; apply H, in_or_app; right; left; reflexivity|].
  destruct (split_stop (fun c => N.eqb c 46) u p 46 v 46 v' (not_in_stop _ HU) (not_in_stop _ HP) eq_refl eq_refl E) as (_ & _ & ->). auto.
Qed.
Definition not_dot (c : char) : bool := negb (N.eqb c 46).
Lemma nd_bin : chars_in REGEX_INTEGER_BIN not_dot.
Proof. unfold REGEX_INTEGER_BIN, colon_opt, opt_us, RPlus, ROpt, RChr, not_dot. ci. Qed.
Lemma nd_oct : chars_in REGEX_INTEGER_OCT not_dot.
Proof. unfold REGEX_INTEGER_OCT, colon_opt, opt_us, RPlus, ROpt, RChr, not_dot. ci. Qed.
Lemma nd_hex : chars_in REGEX_INTEGER_HEX not_dot.
Proof. unfold REGEX_INTEGER_HEX, colon_opt, opt_us, RPlus, ROpt, RChr, not_dot. ci. Qed.
Lemma nd_dec : chars_in REGEX_INTEGER_DEC not_dot.
Proof. unfold REGEX_INTEGER_DEC, colon_opt, opt_us, RPlus, ROpt, RChr, not_dot. ci. Qed.
Lemma number_dot w k : number_kind w = Some k -> In 46 w -> k = FLOAT /\ lang REGEX_FLOAT w.
Proof.
  intros HK HI. unfold number_kind in HK.
  assert (HN : forall r, chars_in r not_dot -> full_match r w = true -> False).
  { intros r Hr Hm. apply full_match_spec in Hm. specialize (Hr _ Hm). rewrite forallb_forall in Hr. specialize (Hr _ HI). discriminate. }
  destruct (full_match REGEX_FLOAT w) eqn:EF; [injection HK as <-; apply full_match_spec in EF; auto|]. exfalso.
  destruct (full_match REGEX_INTEGER_BIN w) eqn:E1; [exact (HN _ nd_bin E1)|]. destruct (full_match REGEX_INTEGER_OCT w) eqn:E2; [exact (HN _ nd_oct E2)|].
  destruct (full_match REGEX_INTEGER_HEX w) eqn:E3; [exact (HN _ nd_hex E3)|]. destruct (full_match REGEX_INTEGER_DEC w) eqn:E4; [exact (HN _ nd_dec E4)|]. discriminate.
Qed.
Definition key_kinds : list kind := [BARE_KEY; INTEGER_DEC; INTEGER_BIN; INTEGER_OCT; INTEGER_HEX; FLOAT; BOOLEAN; LOCAL_DATE].
(** A bare key is lexed as a token that may be a key, or with the key after the dot as a float. *)
Definition key_relexed (c : cursor) (s : str) : Prop :=
  (exists k, In k key_kinds /\ lexed_as c k s) \/
  (exists v s', s = 46 :: v ++ s' /\ sep_start s' /\ v <> [] /\ forallb float_tail v = true /\ lexed_as c FLOAT s').
Lemma numeric_key k : numeric k = true -> In k key_kinds.
Proof. intros H. destruct k; try discriminate; cbn; tauto. Qed.
Lemma key_yields c u s : rest c = u ++ s -> forallb is_key_char u = true -> after_key_text s -> yields c BARE_KEY s (key c).
Proof.
  intros HR HU HS. destruct (after_key_cases _ HS) as (x & r & -> & HX). unfold key. cbv zeta.
  assert (HE : rest (eat_while is_key_char c) = x :: r).
  { rewrite eat_while_rest, HR. clear - HU HX. induction u as [|y u IH]; [|cbn in HU |- *; apply andb_true_iff in HU as [-> HU]; auto]. cbn [app drop_while].
    replace (is_key_char x) with false; [reflexivity|]. destruct HX as [-> |[-> |[-> |[-> |[-> _]]]]]; reflexivity. }
  unfold peek. rewrite HE. cbn [nth Nat.sub]. replace (is_token_separator_with_dot x) with true by (destruct HX as [-> |[-> |[-> |[-> |[-> _]]]]]; reflexivity).
  apply yields_ok. exact HE.
Qed.
Lemma bare_no_dot w : forallb bare_char w = true -> ~ In 46 w.
Proof. intros H K. rewrite forallb_forall in H. specialize (H _ K). discriminate. Qed.
(** Once the lexer looks at the number that begins here: *)
Lemma number_or_key c0 c x u s : advance_token c0 = Some (if is_number c then number c else key c) -> current c = x -> rest c = u ++ s -> forallb bare_char (x :: u) = true ->
  after_key_text s -> key_relexed c0 s.
Proof.
  intros HA HC HR HB HS. pose proof (bare_plain _ HB) as HP. pose proof HB as HB'. cbn in HB', HP. apply andb_true_iff in HB' as [_ HU], HP as [HPx HP].
  destruct (after_key_cases _ HS) as (y & r & -> & HY). rewrite is_number_kind in HA. unfold peek_with_current_while in HA. rewrite HC, HR in HA.
  assert (HT : forall z, forallb plain u = true -> take_while (fun a => negb (is_token_separator a)) (u ++ z) = u ++ take_while (fun a => negb (is_token_separator a)) z).
  { intros z Hz. rewrite take_while_app; [reflexivity|]. eapply forallb_impl; [|exact Hz]. unfold plain. intros q Hq. apply andb_true_iff in Hq. tauto. }
  destruct (N.eq_dec y 46) as [-> |NY].
  - rewrite HT in HA by exact HP. cbn [take_while] in HA. change (is_token_separator 46) with false in HA. cbn [negb] in HA. fold (line_of r) in HA.
    destruct (number_kind (x :: u ++ 46 :: line_of r)) as [k|] eqn:EK.
    + destruct (number_dot _ _ EK) as [-> HF]; [right; apply in_or_app; right; left; reflexivity|].
      destruct (float_dot_at (x :: u) (line_of r) (bare_no_dot _ HB) HF) as (HV1 & HV2 & _). right. exists (line_of r), (after_line r).
      split; [rewrite <- line_split; reflexivity|]. split; [apply after_line_sep|]. split; [exact HV1|]. split; [exact HV2|].
      eapply yields_lexed; [exact HA|]. apply (number_yields c (u ++ 46 :: line_of r)); [rewrite HR, <- app_assoc; cbn [app]; rewrite <- line_split; reflexivity| |apply after_line_sep|rewrite HC; exact EK].
      rewrite HC. cbn [forallb]. rewrite HPx, forallb_app, HP. cbn [forallb andb]. change (plain 46) with true. cbn [andb]. eapply forallb_impl; [|exact HV2]. unfold float_tail, plain. cls.
    + left. exists BARE_KEY. split; [left; reflexivity|]. eapply yields_lexed; [exact HA|]. apply (key_yields c u _ HR); [apply bare_key_char; exact HU|exact HS].
  - assert (HSEP : sep_start (y :: r)) by (cbn; destruct HY as [HY|[-> |[-> |[-> |[-> _]]]]]; [congruence|reflexivity|reflexivity|reflexivity|reflexivity]).
    rewrite take_while_sep in HA by auto. destruct (number_kind (x :: u)) as [k|] eqn:EK; left.
    + exists k. split; [apply numeric_key, (number_kind_numeric _ _ EK)|]. eapply yields_lexed; [exact HA|]. apply (number_yields c u); auto; rewrite HC; auto. cbn. rewrite HPx, HP. reflexivity.
    + exists BARE_KEY. split; [left; reflexivity|]. eapply yields_lexed; [exact HA|]. apply (key_yields c u _ HR); [apply bare_key_char; exact HU|exact HS].
Qed.
Lemma after_dot_start s : after_key_text s -> dot_start s.
Proof. intros H. destruct (after_key_cases _ H) as (x & r & -> & [-> |[-> |[-> |[-> |[-> _]]]]]); reflexivity. Qed.
(** A date as a key *)
Lemma date_key c w s : date_chars w -> after_key_text s -> rest c = w ++ s -> lexed_as c LOCAL_DATE s.
Proof.
  intros (y1 & y2 & y3 & y4 & m1 & m2 & d1 & d2 & -> & HD) HS HR.
  pose proof (date_first_plain _ _ _ _ _ _ _ _ HD) as HPD. destruct (after_key_cases _ HS) as (x & r & -> & HX).
  cbn [app] in *. pose proof HD as HD'. cbn [forallb] in HD'. apply andb_true_iff in HD' as [Hy1 HD'].
  destruct (adv_bump_cons c _ _ HR) as (_ & HR1 & HC1).
  eapply yields_lexed with (c0 := c); [eapply dispatch_digit; eauto|]. cbv zeta.
  erewrite is_date_time_true; [|exact HD|exact HC1|exact HR1].
  assert (HL : date_time_line 0 (rest (bump c)) = [y2;y3;y4;45;m1;m2;45;d1;d2] ++ date_time_line 9 (x :: r)).
  { rewrite HR1, dtl_date; [reflexivity|]. cbn [forallb]. repeat (apply andb_true_iff in HD' as [? HD']).
    repeat (apply andb_true_iff; split; auto). }
  assert (HV : forall d z v', date_time_line 9 (x :: r) = d :: z :: v' -> k_t_space d = true -> k_digit z = true -> False).
  { intros d z v' E Hd Hz. cbn [date_time_line Nat.eqb andb] in E. destruct HX as [-> |[-> |[-> |[-> |[-> (y & r' & -> & Hy)]]]]]; cbn in E; try discriminate.
    - injection E as <- _. discriminate.
    - injection E as <- E. destruct (negb (is_token_separator y)); [|discriminate]. injection E as <- _. congruence. }
  assert (HNO : forall g, lang (RSeq r_date (RSeq (RCls k_t_space) (RSeq r_time g))) ([y1; y2; y3; y4; 45; m1; m2; 45; d1; d2] ++ date_time_line 9 (x :: r)) -> False).
  { intros g K. apply lang_seq_inv in K as (u & w & E & Hu & Hw). apply date_inv in Hu as (? & ? & ? & ? & ? & ? & ? & ? & -> & _). cbn [app] in E. injection E as <- <- <- <- <- <- <- <- E.
    apply nonempty_seq_cls in Hw as (d & z & -> & Hd & Hz). apply lang_seq_inv in Hz as (t & o & -> & Ht & _).
    apply time_start in Ht as (h1 & h2 & a1 & a2 & q & -> & Hh & _). cbn [app] in E. exact (HV _ _ _ E Hd Hh). }
  unfold date_time. rewrite HL, HC1. unfold find_end.
  change (y1 :: [y2; y3; y4; 45; m1; m2; 45; d1; d2] ++ date_time_line 9 (x :: r))
    with ([y1; y2; y3; y4; 45; m1; m2; 45; d1; d2] ++ date_time_line 9 (x :: r)).
  rewrite (no_match REGEX_OFFSET_DATE_TIME), (no_match REGEX_LOCAL_DATE_TIME).
  - simpl firstn.
    assert (HM : full_match REGEX_LOCAL_DATE [y1; y2; y3; y4; 45; m1; m2; 45; d1; d2] = true).
    { apply full_match_spec, date_inv. exists y1,y2,y3,y4,m1,m2,d1,d2. auto. }
    rewrite HM.
    assert (HE : rest (eat_match (len_bytes [y1; y2; y3; y4; 45; m1; m2; 45; d1; d2]) (bump c)) = x :: r).
    { rewrite <- HC1. apply eat_match_ascii; [exact HR1|]. rewrite HC1. apply plain_ascii. exact HPD. }
    unfold peek. rewrite HE. cbn [nth Nat.sub]. replace (is_token_separator_with_dot x) with true by (destruct HX as [-> |[-> |[-> |[-> |[-> _]]]]]; reflexivity).
    apply yields_ok. auto.
  - intros K. apply (HNO REps). revert K. unfold REGEX_LOCAL_DATE_TIME. apply lang_seq_mono; auto. intros u. apply lang_seq_mono; auto. intros z Hz.
    rewrite <- (app_nil_r z). constructor; auto. constructor.
  - intros K. exact (HNO r_offset K).
Qed.
Lemma skipn_step (A : Type) : forall n (l : list A) x q, skipn n l = x :: q -> skipn (S n) l = q.
Proof. induction n as [|n IH]; intros l x q H; [cbn in H; subst l; reflexivity|]. destruct l as [|a l]; [discriminate|]. cbn [skipn] in H. exact (IH l x q H). Qed.
Lemma keyword_bare kw c w s : is_keyword kw c = true -> forallb bare_char kw = true -> w <> [] -> forallb bare_char w = true -> current c :: rest c = w ++ s -> after_key_text s -> w = kw.
Proof.
  intros HK HB HN HW HE HS. unfold is_keyword in HK. apply andb_true_iff in HK as [HM HP]. destruct kw as [|a kw]; [discriminate|]. cbn [matches_str] in HM. apply andb_true_iff in HM as [H1 H2]. apply N.eqb_eq in H1.
  destruct w as [|b w]; [contradiction|]. cbn [app] in HE. injection HE as HC HR. cbn in HB, HW. apply andb_true_iff in HB as [_ HB], HW as [_ HW]. f_equal; [congruence|].
  assert (HG : forall i kw' pre, rest c = pre ++ skipn (i - 1) (rest c) -> length pre = (i - 1)%nat -> (1 <= i)%nat -> forallb bare_char kw' = true -> matches_from i kw' c = true -> exists v, rest c = pre ++ kw' ++ v).
  { intros i kw'. revert i. induction kw' as [|x kw' IH]; intros i pre E1 E2 E3 HB' HM; [eexists; exact E1|]. cbn [matches_from] in HM. destruct (N.eqb (peek i c) x) eqn:EX; [|discriminate]. apply N.eqb_eq in EX. cbn in HB'. apply andb_true_iff in HB' as [HBx HB'].
    unfold peek in EX. destruct (skipn (i - 1) (rest c)) as [|z q] eqn:ES.
    - rewrite nth_overflow in EX by (rewrite E1, app_nil_r; lia). subst x. discriminate.
    - assert (z = x). { rewrite E1, app_nth2 in EX by lia. rewrite E2, Nat.sub_diag in EX. exact EX. }
      subst z. destruct (IH (S i) (pre ++ [x])) as (v & Hv); auto.
      + rewrite E1 at 1. rewrite <- app_assoc. cbn [app]. do 2 f_equal. replace (S i - 1)%nat with (S (i - 1))%nat by lia. symmetry. exact (skipn_step _ _ _ _ _ ES).
      + rewrite app_length. cbn. lia.
      + exists v. rewrite Hv, <- app_assoc. reflexivity. }
  destruct (HG 1%nat kw [] eq_refl eq_refl (le_n _) HB H2) as (v & Hv). cbn [app] in Hv. rewrite HR in Hv.
  assert (HV : dot_start v).
  { unfold peek in HP. cbn [length Nat.sub] in HP. rewrite HR, Hv in HP. rewrite app_nth2 in HP by lia. rewrite Nat.sub_0_r in HP. rewrite Nat.sub_diag in HP. destruct v; [exact I|exact HP]. }
  assert (HD : forall a, forallb bare_char a = true -> forallb (fun c => negb (is_token_separator_with_dot c)) a = true) by (intros q; apply forallb_impl; unfold bare_char; cls).
  destruct (prefix_stop is_token_separator_with_dot kw v w s (HD _ HB) (after_dot_start _ HS) (eq_sym Hv)) as (u1 & E1).
  destruct (prefix_stop is_token_separator_with_dot w s kw v (HD _ HW) HV Hv) as (u2 & E2).
  rewrite E1 in E2. rewrite <- (app_nil_r kw) in E2 at 1. rewrite <- app_assoc in E2. apply app_inv_head in E2. symmetry in E2. apply app_eq_nil in E2 as [-> _]. rewrite app_nil_r in E1. exact E1.
Qed.
Lemma relex_key c w s : toml_key w -> date_ok w -> after_key_text s -> rest c = w ++ s -> key_relexed c s.
Proof.
  intros [HN HB] HD HS HR. destruct w as [|x u]; [contradiction|]. cbn [app] in HR. pose proof HB as HB'. cbn in HB'. apply andb_true_iff in HB' as [Hx HU].
  destruct (adv_bump_cons c x (u ++ s) HR) as (_ & HR1 & HC1).
  assert (HK : forall k k' c', lexed_as c k' s -> In k' key_kinds -> k = k' -> c' = c -> key_relexed c s) by (intros k k' c' H1 H2 _ _; left; eauto).
  destruct (k_digit x) eqn:EX.
  - pose proof (dispatch_digit c x (u ++ s) HR EX) as HA. cbv zeta in HA.
    destruct (is_date_time (bump c)) eqn:ED.
    + apply is_date_spec in ED. rewrite HR1, HC1 in ED. change (x :: u ++ s) with ((x :: u) ++ s) in ED. rewrite starts_date_app in ED by (apply after_dot_start; exact HS).
      left. exists LOCAL_DATE. split; [cbn; tauto|]. apply (date_key c (x :: u) s); auto.
    + rewrite not_time in HA.
      * apply (number_or_key c (bump c) x u s HA HC1 HR1 HB HS).
      * rewrite HR1, HC1. change (x :: u ++ s) with ((x :: u) ++ s). rewrite starts_time_app by (apply after_dot_start; exact HS).
        intros (h1 & h2 & m1 & m2 & v & E & _). rewrite E in HB. cbn [forallb app] in HB. repeat (apply andb_true_iff in HB as [? HB]). discriminate.
  - destruct (N.eq_dec x 45) as [Ex|NM].
    + clear HC1. subst x. pose proof (dispatch_minus c _ HR) as HA. cbv zeta in HA.
      destruct ((_ || _) && _) eqn:EI.
      * left. exists FLOAT. split; [cbn; tauto|]. eapply yields_lexed; [exact HA|]. apply (yields_ok _ _ _ c). rewrite eat_n_rest, HR1. apply andb_true_iff in EI as [EI EP].
        unfold peeks in EI. rewrite HR1 in EI. unfold peek in EP. rewrite HR1 in EP.
        assert (E3 : firstn 3 (u ++ s) = lit "inf" \/ firstn 3 (u ++ s) = lit "nan") by (apply orb_true_iff in EI as [EI|EI]; apply str_eqb_eq in EI; auto).
        assert (HL3 : exists kw v, u ++ s = kw ++ v /\ length kw = 3%nat /\ forallb bare_char kw = true).
        { exists (firstn 3 (u ++ s)), (skipn 3 (u ++ s)). split; [symmetry; apply firstn_skipn|]. destruct E3 as [-> | ->]; auto. }
        destruct HL3 as (kw & v & E & L & HKW). rewrite E in EP |- *. rewrite app_nth2 in EP by lia. rewrite L in EP. cbn [Nat.sub] in EP.
        assert (HD2 : forall a, forallb bare_char a = true -> forallb (fun c => negb (is_token_separator_with_dot c)) a = true) by (intros q; apply forallb_impl; unfold bare_char; cls).
        assert (HV : dot_start v) by (destruct v; [exact I|exact EP]).
        destruct (prefix_stop is_token_separator_with_dot kw v u s (HD2 _ HKW) (after_dot_start _ HS) (eq_sym E)) as (u1 & E1).
        destruct (prefix_stop is_token_separator_with_dot u s kw v (HD2 _ HU) HV E) as (u2 & E2).
        rewrite E1 in E2. rewrite <- (app_nil_r kw) in E2 at 1. rewrite <- app_assoc in E2. apply app_inv_head in E2. symmetry in E2. apply app_eq_nil in E2 as [-> _]. rewrite app_nil_r in E1. subst u.
        apply app_inv_head in E. subst v. rewrite <- L. rewrite skipn_app, skipn_all, Nat.sub_diag. reflexivity.
      * destruct (is_ascii_digit (peek 1 (bump c))) eqn:EG.
        -- destruct u as [|y u].
           { exfalso. unfold peek in EG. rewrite HR1 in EG. cbn [app] in EG. destruct (after_key_cases _ HS) as (z & r & -> & HZ). cbn in EG. destruct HZ as [-> |[-> |[-> |[-> |[-> _]]]]]; discriminate. }
           destruct (adv_bump_cons (bump c) y (u ++ s) HR1) as (_ & HR2 & HC2). apply (number_or_key c (bump (bump c)) y u s HA HC2 HR2 HU HS).
        -- left. exists BARE_KEY. split; [left; reflexivity|]. eapply yields_lexed; [exact HA|]. apply (key_yields _ u _ HR1); [apply bare_key_char; exact HU|exact HS].
    + assert (HW : is_word_start x = true). { unfold bare_char, is_word_start in *. ucls. lia. }
      pose proof (dispatch_word c x _ HR HW) as HA. cbv zeta in HA. left.
      assert (HE : current (bump c) :: rest (bump c) = (x :: u) ++ s) by (rewrite HC1, HR1; reflexivity).
      destruct (is_keyword (lit "inf") (bump c) || is_keyword (lit "nan") (bump c)) eqn:E1.
      { exists FLOAT. split; [cbn; tauto|]. eapply yields_lexed; [exact HA|]. apply (yields_ok _ _ _ c). rewrite eat_n_rest, HR1.
        apply orb_true_iff in E1 as [E1|E1]; (eapply keyword_bare in E1; [|reflexivity|exact HN|exact HB|exact HE|exact HS]); injection E1 as _ ->; reflexivity. }
      destruct (is_keyword (lit "true") (bump c)) eqn:E2.
      { exists BOOLEAN. split; [cbn; tauto|]. eapply yields_lexed; [exact HA|]. apply (yields_ok _ _ _ c). rewrite eat_n_rest, HR1.
        (eapply keyword_bare in E2; [|reflexivity|exact HN|exact HB|exact HE|exact HS]); injection E2 as _ ->; reflexivity. }
      destruct (is_keyword (lit "false") (bump c)) eqn:E3.
      { exists BOOLEAN. split; [cbn; tauto|]. eapply yields_lexed; [exact HA|]. apply (yields_ok _ _ _ c). rewrite eat_n_rest, HR1.
        (eapply keyword_bare in E3; [|reflexivity|exact HN|exact HB|exact HE|exact HS]); injection E3 as _ ->; reflexivity. }
      exists BARE_KEY. split; [left; reflexivity|]. eapply yields_lexed; [exact HA|]. apply (key_yields _ u _ HR1); [apply bare_key_char; exact HU|exact HS].
Qed.

(** * The keys of a text *)
Lemma starts_digit s : starts_date s -> exists x u, s = x :: u /\ k_digit x = true.
Proof. intros (d & v & -> & y1 & y2 & y3 & y4 & m1 & m2 & d1 & d2 & -> & H). cbn [app forallb] in *. apply andb_true_iff in H as [H _]. eauto. Qed.
Lemma special_cases w : lang g_special_float w -> exists sg u, w = sg ++ u /\ (sg = [] \/ sg = [43] \/ sg = [45]) /\ (u = lit "inf" \/ u = lit "nan").
Proof.
  intros H. apply lang_seq_inv in H as (a & b & -> & Ha & Hb). exists a, b. split; [reflexivity|]. split.
  - apply lang_opt_inv in Ha as [Ha| ->]; [|auto]. apply lang_cls_inv in Ha as (x & -> & Hx). right. destruct (N.eq_dec x 43) as [-> |]; [auto|]. right. f_equal. revert Hx. ucls. lia.
  - apply lang_alt_inv in Hb as [Hb|Hb]; apply g_str_inv in Hb; auto.
Qed.
Lemma special_start w : lang g_special_float w -> exists x u, w = x :: u /\ k_digit x = false.
Proof. intros H. apply special_cases in H as (sg & u & -> & [-> |[-> | ->]] & [-> | ->]); eexists _, _; split; reflexivity. Qed.
Lemma special_no_dot w : lang g_special_float w -> ~ In 46 w.
Proof. intros H. apply special_cases in H as (sg & u & -> & [-> |[-> | ->]] & [-> | ->]); cbn; intuition discriminate. Qed.
Lemma number_date k w : number_text k w -> ~ starts_date w.
Proof.
  intros [(x & u & _ & _ & _ & _ & H & _)|[(g & x & u & -> & HG & _)|[_ H]]] HD; [exact (H HD)| |].
  - apply starts_digit in HD as (y & v & E & HY). injection E as <- _. destruct HG as [-> | ->]; discriminate.
  - apply starts_digit in HD as (y & v & -> & HY). apply special_start in H as (z & q & E & HZ). injection E as <- _. congruence.
Qed.
Lemma date_ok_key w : lexable BARE_KEY w -> date_ok w.
Proof.
  intros (c & r & HR & HL) HD. exfalso. destruct (starts_digit _ HD) as (x & u & -> & Hx). cbn [app] in HR.
  destruct HD as (d & v & E & Hd). assert (HD : starts_date (x :: u ++ r)) by (exists d, (v ++ r); rewrite app_comm_cons, E, <- app_assoc; auto).
  destruct (digit_cases c x _ _ _ HR Hx HL) as [[_ HY]|[(H & _)|[(H & _)|(H & _)]]]; try contradiction.
  apply date_time_kind in HY as [HY|[HY|HY]]; discriminate.
Qed.
Lemma date_ok_like k w : In k [INTEGER_DEC; INTEGER_BIN; INTEGER_OCT; INTEGER_HEX; FLOAT; BOOLEAN; LOCAL_DATE] -> lexable k w -> date_ok w.
Proof.
  intros HK HL. destruct (numeric k) eqn:EN.
  - intros HD. exfalso. exact (number_date k w (number_lexable k w EN HL) HD).
  - pose proof (lexable_text _ _ HL) as HT. cbn in HK. destruct HK as [<- |[<- |[<- |[<- |[<- |[<- |[<- |[]]]]]]]]; try discriminate EN.
    + intros HD. exfalso. apply starts_digit in HD as (x & u & -> & HX). destruct HT as [E|E]; injection E as -> _; discriminate.
    + intros _. apply date_inv. exact HT.
Qed.
Lemma date_ok_parts u v : ~ In 46 u -> lexable FLOAT (u ++ 46 :: v) -> date_ok u /\ date_ok v.
Proof.
  intros HU HL. pose proof (number_lexable FLOAT _ eq_refl HL) as HN. split; intros HD; exfalso.
  - apply (number_date _ _ HN). apply starts_date_app; [reflexivity|exact HD].
  - destruct HN as [(x & q & E & Hx & HK & _)|[(g & x & q & E & HG & Hx & HK & _)|[_ H]]].
    + destruct (number_dot _ _ HK) as [_ HF]; [apply in_or_app; right; left; reflexivity|]. apply (float_dot_at u v HU HF). exact HD.
    + destruct u as [|y u]; [cbn in E; injection E as <- _; destruct HG; discriminate|]. cbn [app] in E. injection E as <- E.
      rewrite <- E in HK. destruct (number_dot _ _ HK) as [_ HF]; [apply in_or_app; right; left; reflexivity|].
      apply (float_dot_at u v); [intros K; apply HU; right; exact K|exact HF|exact HD].
    + apply special_no_dot in H. apply H. apply in_or_app. right. left. reflexivity.
Qed.
