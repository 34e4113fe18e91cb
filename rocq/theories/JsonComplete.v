(** The JSON parser: enough fuel, and every text of the grammar is read. *)
From Coq Require Import String Ascii List NArith ZArith Bool Arith Lia.
From Verif Require Import Base TextModel Regex LexerModel LexerSpec LexerProofs NumberSpec LexScalars JsonModel JsonSpec JsonLex JsonWords JsonNumbers JsonParse.
Import ListNotations.
Open Scope N_scope.
Open Scope list_scope.

(** * Fuel *)
Lemma drop_while_len {A} (p : A -> bool) l : (length (drop_while p l) <= length l)%nat.
Proof. induction l as [|x l IH]; cbn [drop_while]; [lia|]. destruct (p x); cbn [length] in *; lia. Qed.
Lemma advance_len ts : (length (j_advance ts) <= length ts - 1)%nat.
Proof. unfold j_advance, j_skip_trivia. pose proof (drop_while_len (fun t => jtrivia (jtkind t)) (tl ts)). destruct ts; cbn [tl length] in *; lia. Qed.
Lemma advance_len_cons t ts : (length (j_advance (t :: ts)) < length (t :: ts))%nat.
Proof. pose proof (advance_len (t :: ts)). cbn [length] in *. lia. Qed.
Lemma string_len S ts x ts' : j_parse_string S ts = JOk (x, ts') -> (length ts' < length ts)%nat.
Proof.
  destruct ts as [|t ts]; cbn [j_parse_string]; [discriminate|]. destruct (jkind_eqb _ _); [|discriminate].
  destruct (slice _ _); [|discriminate]. destruct (inner_text _); [|discriminate].
  destruct (j_unescape_all _ _); cbn [jbind]; try discriminate. intros H. injection H as <- <-. apply advance_len_cons.
Qed.
Lemma expect_len k ts x ts' : j_expect k ts = JOk (x, ts') -> (length ts' < length ts)%nat.
Proof.
  destruct ts as [|t ts]; cbn [j_expect]; [discriminate|]. destruct (jkind_eqb _ _); [|discriminate].
  intros H. injection H as <- <-. apply advance_len_cons.
Qed.

Lemma jbind_ok {A B} (r : jres A) (f : A -> jres B) x : jbind r f = JOk x -> exists y, r = JOk y /\ f y = JOk x.
Proof. destruct r; cbn [jbind]; try discriminate. eauto. Qed.

Lemma parse_len S : forall fuel,
  (forall d ts n ts', j_parse_value S fuel d ts = JOk (n, ts') -> (length ts' < length ts)%nat) /\
  (forall d start items ts n ts', j_parse_items S fuel d start items ts = JOk (n, ts') -> (length ts' < length ts)%nat) /\
  (forall d start ps ts n ts', j_parse_members S fuel d start ps ts = JOk (n, ts') -> (length ts' < length ts)%nat).
Proof.
  induction fuel as [|fuel (IHv & IHi & IHm)]; [repeat split; intros; discriminate|]. split; [|split].
  - intros d ts n ts'. cbn [j_parse_value]. destruct ts as [|t ts]; [discriminate|].
    destruct (jtkind t); try discriminate.
    + destruct (_ <=? _)%nat; [discriminate|]. intros H. apply jbind_ok in H as ([o ts1] & H1 & H2). apply expect_len in H1.
      destruct ts1 as [|t1 ts1]; [apply IHi in H2; lia|]. destruct (jkind_eqb _ _); [|apply IHi in H2; lia].
      injection H2 as <- <-. pose proof (advance_len_cons t1 ts1). lia.
    + destruct (_ <=? _)%nat; [discriminate|]. intros H. apply jbind_ok in H as ([o ts1] & H1 & H2). apply expect_len in H1.
      destruct ts1 as [|t1 ts1]; [apply IHm in H2; lia|]. destruct (jkind_eqb _ _); [|apply IHm in H2; lia].
      injection H2 as <- <-. pose proof (advance_len_cons t1 ts1). lia.
    + destruct (slice _ _); [|discriminate]. destruct (f64_parse _); [|discriminate]. intros H. injection H as <- <-. apply advance_len_cons.
    + intros H. apply jbind_ok in H as ([[v r] ts1] & H1 & H2). injection H2 as <- <-. eapply string_len; eauto.
    + destruct (slice _ _); [|discriminate]. intros H. injection H as <- <-. apply advance_len_cons.
    + intros H. injection H as <- <-. apply advance_len_cons.
  - intros d start items ts n ts'. cbn [j_parse_items]. intros H. apply jbind_ok in H as ([v ts1] & H1 & H2). apply IHv in H1.
    destruct ts1 as [|t1 ts1]; [discriminate|]. destruct (jtkind t1); try discriminate.
    + pose proof (advance_len_cons t1 ts1). destruct (j_advance (t1 :: ts1)) as [|t2 ts2]; [apply IHi in H2; cbn [length] in *; lia|].
      destruct (jkind_eqb _ _); [|apply IHi in H2; lia]. injection H2 as <- <-. pose proof (advance_len_cons t2 ts2). lia.
    + injection H2 as <- <-. pose proof (advance_len_cons t1 ts1). lia.
  - intros d start ps ts n ts'. cbn [j_parse_members]. destruct ts as [|t ts]; [discriminate|]. destruct (negb _); [discriminate|].
    intros H. apply jbind_ok in H as ([k ts1] & H1 & H). apply string_len in H1. destruct (j_contains_key _ _); [discriminate|].
    apply jbind_ok in H as ([c ts2] & H2 & H). apply expect_len in H2. apply jbind_ok in H as ([v ts3] & H3 & H). apply IHv in H3.
    destruct ts3 as [|t3 ts3]; [discriminate|]. destruct (jtkind t3); try discriminate.
    + pose proof (advance_len_cons t3 ts3). destruct (j_advance (t3 :: ts3)) as [|t4 ts4]; [apply IHm in H; cbn [length] in *; lia|].
      destruct (jkind_eqb _ _); [|apply IHm in H; lia]. injection H as <- <-. pose proof (advance_len_cons t4 ts4). lia.
    + injection H as <- <-. pose proof (advance_len_cons t3 ts3). lia.
Qed.

Lemma string_fuel S ts : j_parse_string S ts <> JFuel.
Proof.
  destruct ts as [|t ts]; cbn [j_parse_string]; [discriminate|]. destruct (jkind_eqb _ _); [|discriminate].
  destruct (slice _ _); [|discriminate]. destruct (inner_text _) as [c|]; [|discriminate].
  pose proof (unescape_total (Datatypes.S (length c)) c ltac:(lia)) as [H _].
  destruct (j_unescape_all _ _); cbn [jbind]; try discriminate. destruct (H eq_refl).
Qed.
Lemma expect_fuel k ts : j_expect k ts <> JFuel.
Proof. destruct ts as [|t ts]; cbn [j_expect]; [discriminate|]. destruct (jkind_eqb _ _); discriminate. Qed.
Lemma jbind_fuel {A B} (r : jres A) (f : A -> jres B) : r <> JFuel -> (forall x, r = JOk x -> f x <> JFuel) -> jbind r f <> JFuel.
Proof. destruct r; cbn [jbind]; intros H1 H2; try discriminate; auto. Qed.

Lemma parse_fuel S : forall fuel,
  (forall d ts, (2 * length ts + 1 <= fuel)%nat -> j_parse_value S fuel d ts <> JFuel) /\
  (forall d start items ts, (2 * length ts + 2 <= fuel)%nat -> j_parse_items S fuel d start items ts <> JFuel) /\
  (forall d start ps ts, (2 * length ts + 2 <= fuel)%nat -> j_parse_members S fuel d start ps ts <> JFuel).
Proof.
  induction fuel as [|fuel (IHv & IHi & IHm)]; [repeat split; intros; lia|]. pose proof (parse_len S fuel) as (Lv & _ & _). split; [|split].
  - intros d ts HF. cbn [j_parse_value]. destruct ts as [|t ts]; [discriminate|].
    destruct (jtkind t); try discriminate.
    + destruct (_ <=? _)%nat; [discriminate|]. apply jbind_fuel; [apply expect_fuel|]. intros [o ts1] H1. apply expect_len in H1.
      destruct ts1 as [|t1 ts1]; [apply IHi; cbn [length] in *; lia|]. destruct (jkind_eqb _ _); [discriminate|apply IHi; lia].
    + destruct (_ <=? _)%nat; [discriminate|]. apply jbind_fuel; [apply expect_fuel|]. intros [o ts1] H1. apply expect_len in H1.
      destruct ts1 as [|t1 ts1]; [apply IHm; cbn [length] in *; lia|]. destruct (jkind_eqb _ _); [discriminate|apply IHm; lia].
    + destruct (slice _ _); [|discriminate]. destruct (f64_parse _); discriminate.
    + apply jbind_fuel; [apply string_fuel|]. intros [[v r] ts1] _. discriminate.
    + destruct (slice _ _); discriminate.
  - intros d start items ts HF. cbn [j_parse_items]. apply jbind_fuel; [apply IHv; lia|]. intros [v ts1] H1. apply Lv in H1.
    destruct ts1 as [|t1 ts1]; [discriminate|]. destruct (jtkind t1); try discriminate.
    pose proof (advance_len_cons t1 ts1). destruct (j_advance (t1 :: ts1)) as [|t2 ts2]; [apply IHi; cbn [length] in *; lia|].
    destruct (jkind_eqb _ _); [discriminate|apply IHi; lia].
  - intros d start ps ts HF. cbn [j_parse_members]. destruct ts as [|t ts]; [discriminate|]. destruct (negb _); [discriminate|].
    apply jbind_fuel; [apply string_fuel|]. intros [k ts1] H1. apply string_len in H1. destruct (j_contains_key _ _); [discriminate|].
    apply jbind_fuel; [apply expect_fuel|]. intros [c ts2] H2. apply expect_len in H2. apply jbind_fuel; [apply IHv; lia|]. intros [v ts3] H3. apply Lv in H3.
    destruct ts3 as [|t3 ts3]; [discriminate|]. destruct (jtkind t3); try discriminate.
    pose proof (advance_len_cons t3 ts3). destruct (j_advance (t3 :: ts3)) as [|t4 ts4]; [apply IHm; cbn [length] in *; lia|].
    destruct (jkind_eqb _ _); [discriminate|apply IHm; lia].
Qed.

(** more fuel, same result *)
Definition le_res {A} (a b : jres A) : Prop := a = JFuel \/ a = b.
Lemma le_refl_ {A} (a : jres A) : le_res a a.
Proof. right. reflexivity. Qed.
Lemma le_bind {A B} (a b : jres A) (f g : A -> jres B) : le_res a b -> (forall x, le_res (f x) (g x)) -> le_res (jbind a f) (jbind b g).
Proof. intros [->|<-] H; [left; reflexivity|]. destruct a; cbn [jbind]; auto using @le_refl_. Qed.
Lemma parse_mono S : forall fuel fuel', (fuel <= fuel')%nat ->
  (forall d ts, le_res (j_parse_value S fuel d ts) (j_parse_value S fuel' d ts)) /\
  (forall d start items ts, le_res (j_parse_items S fuel d start items ts) (j_parse_items S fuel' d start items ts)) /\
  (forall d start ps ts, le_res (j_parse_members S fuel d start ps ts) (j_parse_members S fuel' d start ps ts)).
Proof.
  induction fuel as [|fuel IH]; intros fuel' HF; [repeat split; intros; left; reflexivity|].
  destruct fuel' as [|fuel']; [lia|]. destruct (IH fuel') as (IHv & IHi & IHm); [lia|]. split; [|split].
  - intros d ts. cbn [j_parse_value]. destruct ts as [|t ts]; [apply le_refl_|]. destruct (jtkind t); try apply le_refl_.
    + destruct (_ <=? _)%nat; [apply le_refl_|]. apply le_bind; [apply le_refl_|]. intros [o ts1].
      destruct ts1 as [|t1 ts1]; [apply IHi|]. destruct (jkind_eqb _ _); [apply le_refl_|apply IHi].
    + destruct (_ <=? _)%nat; [apply le_refl_|]. apply le_bind; [apply le_refl_|]. intros [o ts1].
      destruct ts1 as [|t1 ts1]; [apply IHm|]. destruct (jkind_eqb _ _); [apply le_refl_|apply IHm].
  - intros d start items ts. cbn [j_parse_items]. apply le_bind; [apply IHv|]. intros [v ts1].
    destruct ts1 as [|t1 ts1]; [apply le_refl_|]. destruct (jtkind t1); try apply le_refl_.
    destruct (j_advance (t1 :: ts1)) as [|t2 ts2]; [apply IHi|]. destruct (jkind_eqb _ _); [apply le_refl_|apply IHi].
  - intros d start ps ts. cbn [j_parse_members]. destruct ts as [|t ts]; [apply le_refl_|]. destruct (negb _); [apply le_refl_|].
    apply le_bind; [apply le_refl_|]. intros [k ts1]. destruct (j_contains_key _ _); [apply le_refl_|].
    apply le_bind; [apply le_refl_|]. intros [c ts2]. apply le_bind; [apply IHv|]. intros [v ts3].
    destruct ts3 as [|t3 ts3]; [apply le_refl_|]. destruct (jtkind t3); try apply le_refl_.
    destruct (j_advance (t3 :: ts3)) as [|t4 ts4]; [apply IHm|]. destruct (jkind_eqb _ _); [apply le_refl_|apply IHm].
Qed.

(** * The words of the grammar are words of the lexer *)
Definition sepstart (r : str) : Prop := match r with [] => True | c :: _ => j_is_token_separator c = true end.
Definition lexes_as (k : jkind) (w rest : str) : Prop := exists x w', w = x :: w' /\ jword x (w' ++ rest) = (k, w, rest).

Lemma lexes_punct c k rest : In (c, k) [(123, JBRACE_START); (125, JBRACE_END); (91, JBRACKET_START); (93, JBRACKET_END); (44, JCOMMA); (58, JCOLON)] ->
  lexes_as k [c] rest.
Proof. intros H. exists c, []. split; [reflexivity|]. repeat destruct H as [H|H]; try (injection H as <- <-; reflexivity). destruct H. Qed.
Lemma lexes_null rest : lexes_as JNULL (lit "null") rest.
Proof. exists 110, (lit "ull"). split; reflexivity. Qed.
Lemma lexes_true rest : lexes_as JBOOLEAN (lit "true") rest.
Proof. exists 116, (lit "rue"). split; reflexivity. Qed.
Lemma lexes_false rest : lexes_as JBOOLEAN (lit "false") rest.
Proof. exists 102, (lit "alse"). split; reflexivity. Qed.
Lemma lexes_string w v rest : jstring_text w v -> lexes_as JSTRING w rest.
Proof.
  intros H. inversion H as [s v0 HC]; subst. exists 34, (s ++ [34]). split; [reflexivity|].
  rewrite <- app_assoc. change (jword 34 (s ++ [34] ++ rest)) with (let '(o, w, r) := jscan (s ++ [34] ++ rest) JNormal false in ((if o then JSTRING else JINVALID_TOKEN), 34 :: w, r)).
  rewrite (jscan_complete s JNormal rest (jchars_lexok _ _ HC)). reflexivity.
Qed.
Lemma take_nonsep (w : str) rest : Forall (fun c => nonsep c = true) w -> sepstart rest -> take_while nonsep (w ++ rest) = w /\ drop_while nonsep (w ++ rest) = rest.
Proof.
  intros HF HS. induction HF as [|c w Hc HF IH]; cbn [app].
  - destruct rest as [|c rest]; [split; reflexivity|]. cbn [take_while drop_while]. unfold nonsep. cbn in HS. rewrite HS. split; reflexivity.
  - cbn [take_while drop_while]. rewrite Hc. destruct IH as [-> ->]. split; reflexivity.
Qed.
Lemma lexes_number w neg m x rest : jnumber_text true w neg m x -> sepstart rest -> lexes_as JNUMBER w rest.
Proof.
  intros H HS. destruct (number_chars _ _ _ _ _ H) as (HF & c & w' & -> & Hc). exists c, w'. split; [reflexivity|].
  assert (HN : full_match J_REGEX_FLOAT (c :: w') || full_match J_REGEX_INTEGER_DEC (c :: w') = true).
  { apply number_words; [|eauto]. intros HI. rewrite Forall_forall in HF. apply HF in HI. unfold numchar in HI. lia. }
  assert (HA : Forall (fun c => nonsep c = true) w').
  { apply Forall_inv_tail in HF. eapply Forall_impl; [|exact HF]. intros a Ha. apply numchar_nonsep. exact Ha. }
  unfold jword.
  replace (j_is_whitespace c) with false by (symmetry; unfold j_is_whitespace; rewrite !orb_false_iff, !N.eqb_neq; lia).
  replace (j_is_line_break c) with false by (symmetry; unfold j_is_line_break; rewrite !orb_false_iff, !N.eqb_neq; lia).
  do 7 (rewrite (proj2 (N.eqb_neq c _)) by lia).
  replace (is_ascii_digit c || (c =? 45)) with true.
  2: { symmetry. apply orb_true_iff. destruct Hc as [Hc|Hc]; [left; unfold is_ascii_digit, in_range; apply andb_true_iff; split; apply N.leb_le; lia|right; apply N.eqb_eq; exact Hc]. }
  destruct (take_nonsep w' rest HA HS) as [-> ->]. rewrite HN. reflexivity.
Qed.

Lemma ws_head t r : jws_tombi t -> sepstart r -> sepstart (t ++ r).
Proof. intros H HS. destruct H; cbn [app]; auto; reflexivity. Qed.

(** the first character of a value *)
Lemma value_head D d b w n : jvalue_text D d b w n -> exists c w', w = c :: w' /\ j_is_whitespace c || j_is_line_break c = false.
Proof.
  intros H. destruct H; try (eexists; eexists; split; [reflexivity|reflexivity]).
  - destruct (number_chars _ _ _ _ _ H) as (_ & c & w' & -> & Hc). exists c, w'. split; [reflexivity|].
    unfold j_is_whitespace, j_is_line_break. rewrite !orb_false_iff, !N.eqb_neq. lia.
  - inversion H; subst. eexists; eexists; split; [reflexivity|reflexivity].
Qed.
Lemma value_starts D d b w n r : jvalue_text D d b w n -> starts_ws (w ++ r) = false.
Proof. intros H. destruct (value_head _ _ _ _ _ H) as (c & w' & -> & HC). exact HC. Qed.
Lemma items_starts D d b w ns r : jitems_text D d b w ns -> starts_ws (w ++ r) = false.
Proof. intros H. destruct H; rewrite <- ?app_assoc; eapply value_starts; eauto. Qed.
Lemma member_starts D d b w p r : jmember_text D d b w p -> starts_ws (w ++ r) = false.
Proof. intros H. destruct H as [d b k key s1 s2 w n HK _ _ _]. destruct HK. reflexivity. Qed.
Lemma members_starts D d b w ps r : jmembers_text D d b w ps -> starts_ws (w ++ r) = false.
Proof. intros H. destruct H; rewrite <- ?app_assoc; eapply member_starts; eauto. Qed.

Scheme jvalue_text_min := Minimality for jvalue_text Sort Prop
  with jitems_text_min := Minimality for jitems_text Sort Prop
  with jmembers_text_min := Minimality for jmembers_text Sort Prop
  with jmember_text_min := Minimality for jmember_text Sort Prop.

Section Complete.
Context (S : str).
Notation toks := (toks S).

Lemma words_at b s l : S = b ++ s -> jwords s l -> at_ S b l.
Proof. intros HS HW. pose proof (jwords_text _ _ HW) as HT. split; [rewrite <- HT; exact HS|rewrite <- HT; exact HW]. Qed.
Lemma words_head r l : starts_ws r = false -> jwords r l -> head_trivia l = false.
Proof.
  intros HS HW. destruct HW as [|x r k w r' l H1 H2]; [reflexivity|]. cbn in HS. cbn [head_trivia].
  pose proof (jword_ws_kind x r HS) as HK. rewrite H1 in HK. exact HK.
Qed.
Lemma token_step b k w t r l : lexes_as k w (t ++ r) -> S = b ++ w ++ t ++ r -> jws_tombi t -> starts_ws r = false -> jwords (w ++ t ++ r) l ->
  exists l' l2, l = (k, w) :: l' /\ jwords r l2 /\ j_advance (toks b l) = toks (b ++ w ++ t) l2 /\ at_ S b l.
Proof.
  intros (x & w' & Hw & HJ) HS HT HR HL. pose proof (words_at _ _ _ HS HL) as HA. rewrite Hw in HL. cbn [app] in HL.
  inversion HL as [|x0 r0 k0 w0 r' l' H1 H2 E1 E2]. subst x0 r0. rewrite HJ in H1. injection H1 as <- <- <-.
  destruct (jwords_ws_complete _ _ _ _ (le_n _) HT HR H2) as (l1 & l2 & Hl' & H3 & H4 & H5). exists l', l2. subst l.
  repeat split; auto; try apply HA. subst l'.
  change (j_advance (toks b ((k, w) :: l1 ++ l2))) with (j_skip_trivia (toks (b ++ w) (l1 ++ l2))).
  rewrite skip_exact; auto; [|eapply words_head; eauto]. rewrite H4, <- app_assoc. reflexivity.
Qed.

Definition Pv (d : nat) (b w : str) (n : jnode) : Prop := forall D t r l,
  (D + d <= 128)%nat -> S = b ++ w ++ t ++ r -> jws_tombi t -> starts_ws r = false -> sepstart r -> jwords (w ++ t ++ r) l ->
  exists l2 f0, jwords r l2 /\ forall f, (f0 <= f)%nat -> j_parse_value S f D (toks b l) = JOk (n, toks (b ++ w ++ t) l2).
Definition Pi (d : nat) (b w : str) (ns : list jnode) : Prop := forall D start items t r l,
  (D + Datatypes.S d <= 128)%nat -> S = b ++ w ++ [93] ++ t ++ r -> jws_tombi t -> starts_ws r = false -> jwords (w ++ [93] ++ t ++ r) l ->
  exists l2 f0, jwords r l2 /\ forall f, (f0 <= f)%nat -> j_parse_items S f D start items (toks b l) =
    JOk (JArrayNode (items ++ ns) (range_new start (position_after (b ++ w ++ [93]))), toks (b ++ w ++ [93] ++ t) l2).
Definition Pm (d : nat) (b w : str) (qs : list ((str * range) * jnode)) : Prop := forall D start ps t r l,
  (D + Datatypes.S d <= 128)%nat -> S = b ++ w ++ [125] ++ t ++ r -> jws_tombi t -> starts_ws r = false -> jwords (w ++ [125] ++ t ++ r) l ->
  NoDup (map jname (ps ++ qs)) ->
  exists l2 f0, jwords r l2 /\ forall f, (f0 <= f)%nat -> j_parse_members S f D start ps (toks b l) =
    JOk (JObjectNode (ps ++ qs) (range_new start (position_after (b ++ w ++ [125]))), toks (b ++ w ++ [125] ++ t) l2).
Definition Pp (d : nat) (b w : str) (p : (str * range) * jnode) : Prop := forall D t r l,
  (D + d <= 128)%nat -> S = b ++ w ++ t ++ r -> jws_tombi t -> starts_ws r = false -> sepstart r -> jwords (w ++ t ++ r) l ->
  exists w0 l0 tsk o tsc l2 f0, l = (JSTRING, w0) :: l0 /\ j_parse_string S (toks b l) = JOk (fst p, tsk) /\ j_expect JCOLON tsk = JOk (o, tsc) /\
    jwords r l2 /\ forall f, (f0 <= f)%nat -> j_parse_value S f D tsc = JOk (snd p, toks (b ++ w ++ t) l2).

Lemma string_complete b w v t r l : jstring_text w v -> S = b ++ w ++ t ++ r -> jws_tombi t -> starts_ws r = false -> jwords (w ++ t ++ r) l ->
  exists l' l2, l = (JSTRING, w) :: l' /\ jwords r l2 /\ j_parse_string S (toks b l) = JOk ((v, jplace b w), toks (b ++ w ++ t) l2).
Proof.
  intros HT HS Ht HR HL. destruct (token_step b JSTRING w t r l (lexes_string _ _ _ HT) HS Ht HR HL) as (l' & l2 & -> & H2 & HA & HAt).
  exists l', l2. split; [reflexivity|]. split; [exact H2|]. unfold j_parse_string. unfold JsonParse.toks at 1. cbn [jplace_all app].
  change (jkind_eqb (jtkind (jplaced b (JSTRING, w))) JSTRING) with true. cbn iota. rewrite (at_slice _ _ _ _ _ HAt).
  destruct HT as [s v HC]. rewrite inner_text_quoted, (unescape_complete _ _ HC) by lia. cbn [jbind].
  fold (toks b ((JSTRING, [34] ++ s ++ [34]) :: l')). change (jplaced b (JSTRING, [34] ++ s ++ [34]) :: jplace_all (b ++ snd (JSTRING, [34] ++ s ++ [34])) l' ++ [jeof S])
    with (toks b ((JSTRING, [34] ++ s ++ [34]) :: l')). rewrite HA. reflexivity.
Qed.

(** a state that begins a value does not begin with a closing bracket *)
Lemma value_not_close f D ts x : j_parse_value S f D ts = JOk x -> exists t ts', ts = t :: ts' /\ jkind_eqb (jtkind t) JBRACKET_END = false.
Proof.
  destruct f as [|f]; cbn [j_parse_value]; [discriminate|]. destruct ts as [|t ts]; [discriminate|]. intros H. exists t, ts. split; [reflexivity|].
  destruct (jtkind t); try reflexivity. discriminate.
Qed.
Lemma items_not_close f D start items ts x : j_parse_items S f D start items ts = JOk x -> exists t ts', ts = t :: ts' /\ jkind_eqb (jtkind t) JBRACKET_END = false.
Proof.
  destruct f as [|f]; cbn [j_parse_items]; [discriminate|]. intros H. apply jbind_ok in H as ([v ts1] & H1 & _). eapply value_not_close; eauto.
Qed.
Lemma members_not_close f D start ps ts x : j_parse_members S f D start ps ts = JOk x -> exists t ts', ts = t :: ts' /\ jkind_eqb (jtkind t) JBRACE_END = false.
Proof.
  destruct f as [|f]; cbn [j_parse_members]; [discriminate|]. destruct ts as [|t ts]; [discriminate|].
  destruct (jkind_eqb (jtkind t) JSTRING) eqn:E; cbn [negb]; [|discriminate]. intros _. exists t, ts. split; [reflexivity|].
  apply jkind_eqb_eq in E. rewrite E. reflexivity.
Qed.

Lemma toks_cons b k w l : toks b ((k, w) :: l) = jplaced b (k, w) :: toks (b ++ w) l.
Proof. reflexivity. Qed.

Ltac atom HL :=
  match type of HL with lexes_as ?k ?w _ => idtac end.

Lemma parse_complete d b w n : jvalue_text tombi_json d b w n -> Pv d b w n.
Proof.
  apply (jvalue_text_min tombi_json Pv Pi Pm Pp); clear d b w n; unfold Pv, Pi, Pm, Pp.
  - (* null *)
    intros d b D t r l HD HS Ht HR HP HL. destruct (token_step _ _ _ _ _ _ (lexes_null _) HS Ht HR HL) as (l' & l2 & -> & H2 & HA & HAt).
    exists l2, 1%nat. split; [exact H2|]. intros [|f] Hf; [lia|]. cbn [j_parse_value]. rewrite toks_cons. cbn [jtkind jplaced fst snd]. rewrite <- toks_cons, HA. reflexivity.
  - intros d b D t r l HD HS Ht HR HP HL. destruct (token_step _ _ _ _ _ _ (lexes_true _) HS Ht HR HL) as (l' & l2 & -> & H2 & HA & HAt).
    exists l2, 1%nat. split; [exact H2|]. intros [|f] Hf; [lia|]. cbn [j_parse_value]. rewrite toks_cons.
    change (jtkind (jplaced b (JBOOLEAN, lit "true"))) with JBOOLEAN. cbn iota. rewrite (at_slice _ _ _ _ _ HAt), <- toks_cons, HA. reflexivity.
  - intros d b D t r l HD HS Ht HR HP HL. destruct (token_step _ _ _ _ _ _ (lexes_false _) HS Ht HR HL) as (l' & l2 & -> & H2 & HA & HAt).
    exists l2, 1%nat. split; [exact H2|]. intros [|f] Hf; [lia|]. cbn [j_parse_value]. rewrite toks_cons.
    change (jtkind (jplaced b (JBOOLEAN, lit "false"))) with JBOOLEAN. cbn iota. rewrite (at_slice _ _ _ _ _ HAt), <- toks_cons, HA. reflexivity.
  - (* number *)
    intros d b w neg m x HN D t r l HD HS Ht HR HP HL. destruct (token_step _ _ _ _ _ _ (lexes_number _ _ _ _ _ HN (ws_head _ _ Ht HP)) HS Ht HR HL) as (l' & l2 & -> & H2 & HA & HAt).
    exists l2, 1%nat. split; [exact H2|]. intros [|f] Hf; [lia|]. cbn [j_parse_value]. rewrite toks_cons.
    change (jtkind (jplaced b (JNUMBER, w))) with JNUMBER. cbn iota. rewrite (at_slice _ _ _ _ _ HAt), <- toks_cons, HA.
    destruct (f64_parse_number _ _ _ _ _ HN) as (v & -> & HV). rewrite HV. reflexivity.
  - (* string *)
    intros d b w v HT D t r l HD HS Ht HR HP HL. destruct (string_complete _ _ _ _ _ _ HT HS Ht HR HL) as (l' & l2 & -> & H2 & HA).
    exists l2, 1%nat. split; [exact H2|]. intros [|f] Hf; [lia|]. cbn [j_parse_value]. rewrite toks_cons.
    change (jtkind (jplaced b (JSTRING, w))) with JSTRING. cbn iota. rewrite <- toks_cons, HA. reflexivity.
  - (* [] *)
    intros d b s Hs D t r l HD HS Ht HR HP HL. rewrite <- !app_assoc in HS, HL.
    destruct (token_step b JBRACKET_START [91] s ([93] ++ t ++ r) l (lexes_punct 91 JBRACKET_START _ ltac:(cbn; tauto)) HS Hs eq_refl HL) as (l' & l2 & -> & H2 & HA & HAt).
    assert (HS2 : S = (b ++ [91] ++ s) ++ [93] ++ t ++ r) by (rewrite HS, <- !app_assoc; reflexivity).
    destruct (token_step _ JBRACKET_END [93] t r l2 (lexes_punct 93 JBRACKET_END _ ltac:(cbn; tauto)) HS2 Ht HR H2) as (l3 & l4 & -> & H4 & HA2 & HAt2).
    exists l4, 1%nat. split; [exact H4|]. intros [|f] Hf; [lia|]. cbn [j_parse_value]. rewrite toks_cons. cbn [jtkind jplaced fst snd].
    unfold MAX_RECURSION_DEPTH. rewrite (proj2 (Nat.leb_gt _ _)) by lia.
    unfold j_expect. change (jkind_eqb (jtkind _) JBRACKET_START) with true. cbn iota. cbn [jbind]. fold (jplaced b (JBRACKET_START, [91])). 
    rewrite <- toks_cons, HA. rewrite toks_cons. cbn iota. change (jkind_eqb (jtkind _) JBRACKET_END) with true. cbn iota.
    rewrite <- toks_cons, HA2. rewrite place_end. cbn [snd]. do 3 f_equal.
    + rewrite <- place_range. rewrite <- !app_assoc. reflexivity.
    + rewrite <- !app_assoc. reflexivity.
  - (* [ items ] *)
    intros d b s w ns Hs HG IH D t r l HD HS Ht HR HP HL. rewrite <- !app_assoc in HS, HL.
    destruct (token_step b JBRACKET_START [91] s (w ++ [93] ++ t ++ r) l (lexes_punct 91 JBRACKET_START _ ltac:(cbn; tauto)) HS Hs (items_starts _ _ _ _ _ _ HG) HL) as (l' & l2 & -> & H2 & HA & HAt).
    assert (HS2 : S = (b ++ [91] ++ s) ++ w ++ [93] ++ t ++ r) by (rewrite HS, <- !app_assoc; reflexivity).
    destruct (IH D (position_after b) [] t r l2 ltac:(lia) HS2 Ht HR H2) as (l4 & f0 & H4 & HF).
    exists l4, (Datatypes.S f0). split; [exact H4|]. intros [|f] Hf; [lia|]. specialize (HF f ltac:(lia)). cbn [j_parse_value]. rewrite toks_cons. cbn [jtkind jplaced fst snd].
    unfold MAX_RECURSION_DEPTH. rewrite (proj2 (Nat.leb_gt _ _)) by lia.
    unfold j_expect. change (jkind_eqb (jtkind _) JBRACKET_START) with true. cbn iota. cbn [jbind]. fold (jplaced b (JBRACKET_START, [91])).
    rewrite <- toks_cons, HA. destruct (items_not_close _ _ _ _ _ _ HF) as (t1 & ts1 & ET & EK). rewrite ET in *. rewrite EK.
    match goal with |- context [rstart ?x] => change (rstart x) with (position_after b) end. rewrite HF. cbn [app]. do 3 f_equal.
    + rewrite <- place_range. rewrite <- !app_assoc. reflexivity.
    + rewrite <- !app_assoc. cbn [app]. rewrite <- ?app_assoc. reflexivity.
  - (* {} *)
    intros d b s Hs D t r l HD HS Ht HR HP HL. rewrite <- !app_assoc in HS, HL.
    destruct (token_step b JBRACE_START [123] s ([125] ++ t ++ r) l (lexes_punct 123 JBRACE_START _ ltac:(cbn; tauto)) HS Hs eq_refl HL) as (l' & l2 & -> & H2 & HA & HAt).
    assert (HS2 : S = (b ++ [123] ++ s) ++ [125] ++ t ++ r) by (rewrite HS, <- !app_assoc; reflexivity).
    destruct (token_step _ JBRACE_END [125] t r l2 (lexes_punct 125 JBRACE_END _ ltac:(cbn; tauto)) HS2 Ht HR H2) as (l3 & l4 & -> & H4 & HA2 & HAt2).
    exists l4, 1%nat. split; [exact H4|]. intros [|f] Hf; [lia|]. cbn [j_parse_value]. rewrite toks_cons. cbn [jtkind jplaced fst snd].
    unfold MAX_RECURSION_DEPTH. rewrite (proj2 (Nat.leb_gt _ _)) by lia.
    unfold j_expect. change (jkind_eqb (jtkind _) JBRACE_START) with true. cbn iota. cbn [jbind]. fold (jplaced b (JBRACE_START, [123])). 
    rewrite <- toks_cons, HA. rewrite toks_cons. cbn iota. change (jkind_eqb (jtkind _) JBRACE_END) with true. cbn iota.
    rewrite <- toks_cons, HA2. rewrite place_end. cbn [snd]. do 3 f_equal.
    + rewrite <- place_range. rewrite <- !app_assoc. reflexivity.
    + rewrite <- !app_assoc. reflexivity.
  - (* { members } *)
    intros d b s w ns Hs HG IH HND D t r l HD HS Ht HR HP HL. rewrite <- !app_assoc in HS, HL.
    destruct (token_step b JBRACE_START [123] s (w ++ [125] ++ t ++ r) l (lexes_punct 123 JBRACE_START _ ltac:(cbn; tauto)) HS Hs (members_starts _ _ _ _ _ _ HG) HL) as (l' & l2 & -> & H2 & HA & HAt).
    assert (HS2 : S = (b ++ [123] ++ s) ++ w ++ [125] ++ t ++ r) by (rewrite HS, <- !app_assoc; reflexivity).
    destruct (IH D (position_after b) [] t r l2 ltac:(lia) HS2 Ht HR H2 (HND eq_refl)) as (l4 & f0 & H4 & HF).
    exists l4, (Datatypes.S f0). split; [exact H4|]. intros [|f] Hf; [lia|]. specialize (HF f ltac:(lia)). cbn [j_parse_value]. rewrite toks_cons. cbn [jtkind jplaced fst snd].
    unfold MAX_RECURSION_DEPTH. rewrite (proj2 (Nat.leb_gt _ _)) by lia.
    unfold j_expect. change (jkind_eqb (jtkind _) JBRACE_START) with true. cbn iota. cbn [jbind]. fold (jplaced b (JBRACE_START, [123])).
    rewrite <- toks_cons, HA. destruct (members_not_close _ _ _ _ _ _ HF) as (t1 & ts1 & ET & EK). rewrite ET in *. rewrite EK.
    match goal with |- context [rstart ?x] => change (rstart x) with (position_after b) end. rewrite HF. cbn [app]. do 3 f_equal.
    + rewrite <- place_range. rewrite <- !app_assoc. reflexivity.
    + rewrite <- !app_assoc. cbn [app]. rewrite <- ?app_assoc. reflexivity.
  - (* last item *)
    intros d b w n s HV IH Hs D start items t r l HD HS Ht HR HL. rewrite <- !app_assoc in HS, HL.
    destruct (IH (Datatypes.S D) s ([93] ++ t ++ r) l ltac:(lia) HS Hs eq_refl eq_refl HL) as (l2 & f0 & H2 & HF).
    assert (HS2 : S = (b ++ w ++ s) ++ [93] ++ t ++ r) by (rewrite HS, <- !app_assoc; reflexivity).
    destruct (token_step _ JBRACKET_END [93] t r l2 (lexes_punct 93 JBRACKET_END _ ltac:(cbn; tauto)) HS2 Ht HR H2) as (l3 & l4 & -> & H4 & HA2 & HAt2).
    exists l4, (Datatypes.S f0). split; [exact H4|]. intros [|f] Hf; [lia|]. cbn [j_parse_items]. rewrite (HF f ltac:(lia)). cbn [jbind].
    rewrite toks_cons. change (jtkind (jplaced _ (JBRACKET_END, [93]))) with JBRACKET_END. cbn iota. rewrite <- toks_cons, HA2, place_end. cbn [snd].
    rewrite <- !app_assoc. reflexivity.
  - (* last item, comma *)
    intros d b w n s1 s2 HV IH Hs1 Hs2 _ D start items t r l HD HS Ht HR HL. rewrite <- !app_assoc in HS, HL.
    destruct (IH (Datatypes.S D) s1 ([44] ++ s2 ++ [93] ++ t ++ r) l ltac:(lia) HS Hs1 eq_refl eq_refl HL) as (l2 & f0 & H2 & HF).
    assert (HS2 : S = (b ++ w ++ s1) ++ [44] ++ s2 ++ [93] ++ t ++ r) by (rewrite HS, <- !app_assoc; reflexivity).
    destruct (token_step _ JCOMMA [44] s2 ([93] ++ t ++ r) l2 (lexes_punct 44 JCOMMA _ ltac:(cbn; tauto)) HS2 Hs2 eq_refl H2) as (l3 & l4 & -> & H4 & HA2 & HAt2).
    assert (HS3 : S = ((b ++ w ++ s1) ++ [44] ++ s2) ++ [93] ++ t ++ r) by (rewrite HS, <- !app_assoc; reflexivity).
    destruct (token_step _ JBRACKET_END [93] t r l4 (lexes_punct 93 JBRACKET_END _ ltac:(cbn; tauto)) HS3 Ht HR H4) as (l5 & l6 & -> & H6 & HA3 & HAt3).
    exists l6, (Datatypes.S f0). split; [exact H6|]. intros [|f] Hf; [lia|]. cbn [j_parse_items]. rewrite (HF f ltac:(lia)). cbn [jbind].
    rewrite toks_cons. change (jtkind (jplaced _ (JCOMMA, [44]))) with JCOMMA. cbn iota. rewrite <- toks_cons, HA2. rewrite toks_cons. cbn iota.
    change (jkind_eqb (jtkind (jplaced _ (JBRACKET_END, [93]))) JBRACKET_END) with true. cbn iota. rewrite <- toks_cons, HA3, place_end. cbn [snd].
    rewrite <- !app_assoc. cbn [app]. rewrite <- ?app_assoc. reflexivity.
  - (* more items *)
    intros d b w n s1 s2 u ns HV IH Hs1 Hs2 HG IHs D start items t r l HD HS Ht HR HL. rewrite <- !app_assoc in HS, HL.
    destruct (IH (Datatypes.S D) s1 ([44] ++ s2 ++ u ++ [93] ++ t ++ r) l ltac:(lia) HS Hs1 eq_refl eq_refl HL) as (l2 & f0 & H2 & HF).
    assert (HS2 : S = (b ++ w ++ s1) ++ [44] ++ s2 ++ u ++ [93] ++ t ++ r) by (rewrite HS, <- !app_assoc; reflexivity).
    destruct (token_step _ JCOMMA [44] s2 (u ++ [93] ++ t ++ r) l2 (lexes_punct 44 JCOMMA _ ltac:(cbn; tauto)) HS2 Hs2 (items_starts _ _ _ _ _ _ HG) H2) as (l3 & l4 & -> & H4 & HA2 & HAt2).
    assert (HS3 : S = (b ++ w ++ s1 ++ [44] ++ s2) ++ u ++ [93] ++ t ++ r) by (rewrite HS, <- !app_assoc; reflexivity).
    destruct (IHs D start (items ++ [n]) t r l4 HD HS3 Ht HR H4) as (l6 & f1 & H6 & HF1).
    exists l6, (Datatypes.S (f0 + f1)). split; [exact H6|]. intros [|f] Hf; [lia|]. cbn [j_parse_items]. rewrite (HF f ltac:(lia)). cbn [jbind].
    rewrite toks_cons. change (jtkind (jplaced _ (JCOMMA, [44]))) with JCOMMA. cbn iota. rewrite <- toks_cons, HA2.
    specialize (HF1 f ltac:(lia)). destruct (items_not_close _ _ _ _ _ _ HF1) as (t1 & ts1 & ET & EK).
    replace ((b ++ w ++ s1) ++ [44] ++ s2) with (b ++ w ++ s1 ++ [44] ++ s2) by (rewrite <- !app_assoc; reflexivity).
    rewrite ET in *. rewrite EK, HF1. rewrite <- !app_assoc. cbn [app]. rewrite <- ?app_assoc. reflexivity.
  - (* last member *)
    intros d b k p s HV IH Hs D start ps t r l HD HS Ht HR HL HND. rewrite <- !app_assoc in HS, HL.
    destruct (IH (Datatypes.S D) s ([125] ++ t ++ r) l ltac:(lia) HS Hs eq_refl eq_refl HL) as (w0 & l0 & tsk & o & tsc & l2 & f0 & -> & EP & EX & H2 & HF).
    assert (HS2 : S = (b ++ k ++ s) ++ [125] ++ t ++ r) by (rewrite HS, <- !app_assoc; reflexivity).
    destruct (token_step _ JBRACE_END [125] t r l2 (lexes_punct 125 JBRACE_END _ ltac:(cbn; tauto)) HS2 Ht HR H2) as (l3 & l4 & -> & H4 & HA2 & HAt2).
    exists l4, (Datatypes.S f0). split; [exact H4|]. intros [|f] Hf; [lia|]. cbn [j_parse_members]. rewrite toks_cons at 1.
    change (jkind_eqb (jtkind (jplaced b (JSTRING, w0))) JSTRING) with true. cbn [negb]. cbn iota. rewrite EP. cbn [jbind]. cbn iota.
    rewrite map_app in HND. apply NoDup_remove_2 in HND. rewrite app_nil_r in HND. rewrite (proj2 (contains_key_spec (fst (fst p)) ps) HND). rewrite EX. cbn [jbind].
    rewrite (HF f ltac:(lia)). cbn [jbind]. replace (fst p, snd p) with p by (destruct p; reflexivity).
    rewrite toks_cons. change (jtkind (jplaced _ (JBRACE_END, [125]))) with JBRACE_END. cbn iota. rewrite <- toks_cons, HA2, place_end. cbn [snd].
    rewrite <- !app_assoc. reflexivity.
  - (* last member, comma *)
    intros d b k p s1 s2 HV IH Hs1 Hs2 _ D start ps t r l HD HS Ht HR HL HND. rewrite <- !app_assoc in HS, HL.
    destruct (IH (Datatypes.S D) s1 ([44] ++ s2 ++ [125] ++ t ++ r) l ltac:(lia) HS Hs1 eq_refl eq_refl HL) as (w0 & l0 & tsk & o & tsc & l2 & f0 & -> & EP & EX & H2 & HF).
    assert (HS2 : S = (b ++ k ++ s1) ++ [44] ++ s2 ++ [125] ++ t ++ r) by (rewrite HS, <- !app_assoc; reflexivity).
    destruct (token_step _ JCOMMA [44] s2 ([125] ++ t ++ r) l2 (lexes_punct 44 JCOMMA _ ltac:(cbn; tauto)) HS2 Hs2 eq_refl H2) as (l3 & l4 & -> & H4 & HA2 & HAt2).
    assert (HS3 : S = ((b ++ k ++ s1) ++ [44] ++ s2) ++ [125] ++ t ++ r) by (rewrite HS, <- !app_assoc; reflexivity).
    destruct (token_step _ JBRACE_END [125] t r l4 (lexes_punct 125 JBRACE_END _ ltac:(cbn; tauto)) HS3 Ht HR H4) as (l5 & l6 & -> & H6 & HA3 & HAt3).
    exists l6, (Datatypes.S f0). split; [exact H6|]. intros [|f] Hf; [lia|]. cbn [j_parse_members]. rewrite toks_cons at 1.
    change (jkind_eqb (jtkind (jplaced b (JSTRING, w0))) JSTRING) with true. cbn [negb]. cbn iota. rewrite EP. cbn [jbind]. cbn iota.
    rewrite map_app in HND. apply NoDup_remove_2 in HND. rewrite app_nil_r in HND. rewrite (proj2 (contains_key_spec (fst (fst p)) ps) HND). rewrite EX. cbn [jbind].
    rewrite (HF f ltac:(lia)). cbn [jbind]. replace (fst p, snd p) with p by (destruct p; reflexivity).
    rewrite toks_cons. change (jtkind (jplaced _ (JCOMMA, [44]))) with JCOMMA. cbn iota. rewrite <- toks_cons, HA2. rewrite toks_cons. cbn iota.
    change (jkind_eqb (jtkind (jplaced _ (JBRACE_END, [125]))) JBRACE_END) with true. cbn iota. rewrite <- toks_cons, HA3, place_end. cbn [snd].
    rewrite <- !app_assoc. cbn [app]. rewrite <- ?app_assoc. reflexivity.
  - (* more members *)
    intros d b k p s1 s2 u qs HV IH Hs1 Hs2 HG IHs D start ps t r l HD HS Ht HR HL HND. rewrite <- !app_assoc in HS, HL.
    destruct (IH (Datatypes.S D) s1 ([44] ++ s2 ++ u ++ [125] ++ t ++ r) l ltac:(lia) HS Hs1 eq_refl eq_refl HL) as (w0 & l0 & tsk & o & tsc & l2 & f0 & -> & EP & EX & H2 & HF).
    assert (HS2 : S = (b ++ k ++ s1) ++ [44] ++ s2 ++ u ++ [125] ++ t ++ r) by (rewrite HS, <- !app_assoc; reflexivity).
    destruct (token_step _ JCOMMA [44] s2 (u ++ [125] ++ t ++ r) l2 (lexes_punct 44 JCOMMA _ ltac:(cbn; tauto)) HS2 Hs2 (members_starts _ _ _ _ _ _ HG) H2) as (l3 & l4 & -> & H4 & HA2 & HAt2).
    assert (HS3 : S = (b ++ k ++ s1 ++ [44] ++ s2) ++ u ++ [125] ++ t ++ r) by (rewrite HS, <- !app_assoc; reflexivity).
    assert (HND2 : NoDup (map jname ((ps ++ [p]) ++ qs))) by (rewrite <- app_assoc; exact HND).
    destruct (IHs D start (ps ++ [p]) t r l4 HD HS3 Ht HR H4 HND2) as (l6 & f1 & H6 & HF1).
    exists l6, (Datatypes.S (f0 + f1)). split; [exact H6|]. intros [|f] Hf; [lia|]. cbn [j_parse_members]. rewrite toks_cons at 1.
    change (jkind_eqb (jtkind (jplaced b (JSTRING, w0))) JSTRING) with true. cbn [negb]. cbn iota. rewrite EP. cbn [jbind]. cbn iota.
    rewrite map_app in HND. apply NoDup_remove_2 in HND.
    assert (HC : ~ In (fst (fst p)) (map jname ps)) by (intros HI; apply HND; apply in_app_iff; left; exact HI).
    rewrite (proj2 (contains_key_spec _ _) HC). rewrite EX. cbn [jbind].
    rewrite (HF f ltac:(lia)). cbn [jbind]. replace (fst p, snd p) with p by (destruct p; reflexivity).
    rewrite toks_cons. change (jtkind (jplaced _ (JCOMMA, [44]))) with JCOMMA. cbn iota. rewrite <- toks_cons, HA2.
    specialize (HF1 f ltac:(lia)). destruct (members_not_close _ _ _ _ _ _ HF1) as (t1 & ts1 & ET & EK).
    replace ((b ++ k ++ s1) ++ [44] ++ s2) with (b ++ k ++ s1 ++ [44] ++ s2) by (rewrite <- !app_assoc; reflexivity).
    rewrite ET in *. rewrite EK, HF1. rewrite <- !app_assoc. cbn [app]. rewrite <- ?app_assoc. reflexivity.
  - (* member *)
    intros d b k key s1 s2 w n HT Hs1 Hs2 HV IH D t r l HD HS Ht HR HP HL. rewrite <- !app_assoc in HS, HL.
    destruct (string_complete b k key s1 ([58] ++ s2 ++ w ++ t ++ r) l HT HS Hs1 eq_refl HL) as (l' & l2 & -> & H2 & HA).
    assert (HS2 : S = (b ++ k ++ s1) ++ [58] ++ s2 ++ w ++ t ++ r) by (rewrite HS, <- !app_assoc; reflexivity).
    destruct (token_step _ JCOLON [58] s2 (w ++ t ++ r) l2 (lexes_punct 58 JCOLON _ ltac:(cbn; tauto)) HS2 Hs2 (value_starts _ _ _ _ _ _ HV) H2) as (l3 & l4 & -> & H4 & HA2 & HAt2).
    assert (HS3 : S = (b ++ k ++ s1 ++ [58] ++ s2) ++ w ++ t ++ r) by (rewrite HS, <- !app_assoc; reflexivity).
    destruct (IH D t r l4 HD HS3 Ht HR HP H4) as (l6 & f0 & H6 & HF).
    exists k, l', (toks (b ++ k ++ s1) ((JCOLON, [58]) :: l3)), (jplaced (b ++ k ++ s1) (JCOLON, [58])), (toks (b ++ k ++ s1 ++ [58] ++ s2) l4), l6, f0.
    split; [reflexivity|]. split; [exact HA|]. split.
    + rewrite toks_cons. unfold j_expect. change (jkind_eqb (jtkind (jplaced _ (JCOLON, [58]))) JCOLON) with true. cbn iota. rewrite <- toks_cons, HA2.
      rewrite <- !app_assoc. reflexivity.
    + split; [exact H6|]. intros f Hf. cbn [snd]. rewrite (HF f Hf). rewrite <- !app_assoc. cbn [app]. rewrite <- ?app_assoc. reflexivity.
Qed.
End Complete.
