(** The words of JSON texts: strings, numbers, white space. *)
From Coq Require Import String Ascii List NArith ZArith Bool Arith Lia.
From Verif Require Import Base TextModel Regex LexerModel LexerSpec LexerProofs NumberSpec LexScalars JsonModel JsonSpec JsonLex.
Import ListNotations.
Open Scope N_scope.
Open Scope list_scope.

(** * Strings *)
Fixpoint lexok (st : jstr_state) (s : str) : Prop :=
  match s with
  | [] => st = JNormal
  | x :: s' =>
      match st with
      | JNormal => x <> 34 /\ 31 < x /\ (if N.eqb x 92 then lexok JEscape s' else lexok JNormal s')
      | JEscape => if j_simple_escape x then lexok JNormal s' else if N.eqb x 117 then lexok (JHex 4) s' else False
      | JHex n => if k_hex x then lexok (j_after_hex (pred n)) s' else False
      end
  end.

Lemma jscan_bad : forall r st, fst (fst (jscan r st true)) = false.
Proof.
  induction r as [|x r IH]; intros st; cbn [jscan]; [reflexivity|].
  assert (HK : forall st, fst (fst (let '(o, w, r0) := jscan r st true in (o, x :: w, r0))) = false).
  { intros st0. specialize (IH st0). destruct (jscan r st0 true) as [[o w] r0]. exact IH. }
  rewrite ?andb_false_r. cbn [negb].
  destruct st; repeat match goal with |- context [if ?b then _ else _] => destruct b end; auto.
Qed.

Lemma jscan_sound : forall r st w r', jscan r st false = (true, w, r') ->
  exists body, w = body ++ [34] /\ r = body ++ [34] ++ r' /\ lexok st body.
Proof.
  induction r as [|x r IH]; intros st w r'; cbn [jscan]; [discriminate|].
  assert (HK : forall st w r', (let '(o, w, r0) := jscan r st false in (o, x :: w, r0)) = (true, w, r') ->
     exists body, w = (x :: body) ++ [34] /\ x :: r = (x :: body) ++ [34] ++ r' /\ lexok st body).
  { intros st0 w0 r0 H. destruct (jscan r st0 false) as [[o w1] r1] eqn:E1. inversion H; subst.
    destruct (IH _ _ _ E1) as (body & -> & -> & HL). exists body. auto. }
  assert (HB : forall st w r', (let '(o, w, r0) := jscan r st true in (o, x :: w, r0)) = (true, w, r') -> False).
  { intros st0 w0 r0 H. pose proof (jscan_bad r st0) as HB. destruct (jscan r st0 true) as [[o w1] r1]. cbn in HB. subst o. discriminate. }
  intros H. cbn [negb] in H. rewrite andb_true_r in H. destruct st.
  - destruct (N.eqb_spec x 34) as [Hx|Hx].
    { inversion H; subst. exists []. repeat split. }
    destruct (N.leb_spec x 31) as [Hc|Hc]; [destruct (HB _ _ _ H)|].
    destruct (N.eqb x 92) eqn:E92; apply HK in H as (body & -> & -> & HL); exists (x :: body); split; auto; split; auto; cbn [lexok]; rewrite E92; auto.
  - destruct (j_simple_escape x) eqn:Es; [|destruct (N.eqb x 117) eqn:Eu; [|destruct (HB _ _ _ H)]];
      apply HK in H as (body & -> & -> & HL); exists (x :: body); split; auto; split; auto; cbn [lexok]; rewrite Es, ?Eu; auto.
  - destruct (k_hex x) eqn:Eh; [|destruct (HB _ _ _ H)].
    apply HK in H as (body & -> & -> & HL); exists (x :: body); split; auto; split; auto; cbn [lexok]; rewrite Eh; auto.
Qed.

Lemma jscan_complete : forall body st r, lexok st body -> jscan (body ++ [34] ++ r) st false = (true, body ++ [34], r).
Proof.
  induction body as [|x body IH]; intros st r H; cbn [lexok] in H.
  - subst st. reflexivity.
  - cbn [app jscan]. cbn [negb]. rewrite andb_true_r. destruct st.
    + destruct H as (H1 & H2 & H3). rewrite (proj2 (N.eqb_neq _ _) H1). rewrite (proj2 (N.leb_gt _ _)) by lia.
      destruct (N.eqb x 92); cbn [app] in IH; rewrite IH by auto; reflexivity.
    + destruct (j_simple_escape x); [|destruct (N.eqb x 117); [|contradiction]]; cbn [app] in IH; rewrite IH by auto; reflexivity.
    + destruct (k_hex x); [|contradiction]. cbn [app] in IH; rewrite IH by auto; reflexivity.
Qed.

Lemma k_hex_iff c : k_hex c = true <-> jhex_digit c.
Proof. unfold k_hex, k_digit, in_range, jhex_digit. rewrite !orb_true_iff, !andb_true_iff, !N.leb_le. tauto. Qed.
Lemma hex_value_digit c : jhex_digit c -> hex_value c = digit_of c.
Proof.
  unfold jhex_digit, hex_value, digit_of, in_range. intros H.
  destruct (N.leb_spec c 57), (N.leb_spec 48 c), (N.leb_spec c 70), (N.leb_spec 65 c); cbn [andb]; try reflexivity; lia.
Qed.
Lemma hex_not_us c : jhex_digit c -> N.eqb c 95 = false.
Proof. unfold jhex_digit. intros H. apply N.eqb_neq. lia. Qed.

Lemma read_hex4_sound s n r : read_hex4 s = Some (n, r) -> exists h, s = h ++ r /\ jhex4 h n.
Proof.
  destruct s as [|a [|b [|c [|d s]]]]; cbn [read_hex4]; try discriminate.
  destruct (k_hex a && k_hex b && k_hex c && k_hex d) eqn:E; [|discriminate]. intros H. injection H as <- <-.
  rewrite !andb_true_iff, !k_hex_iff in E. destruct E as (((Ha & Hb) & Hc) & Hd).
  exists [a; b; c; d]. split; [reflexivity|]. split; [reflexivity|]. split; [auto|].
  cbn [positional digit_count]. rewrite !hex_not_us, !hex_value_digit by auto. lia.
Qed.
Lemma read_hex4_complete h n r : jhex4 h n -> read_hex4 (h ++ r) = Some (n, r).
Proof.
  intros (HL & HF & ->). destruct h as [|a [|b [|c [|d [|? ?]]]]]; try discriminate.
  pose proof (Forall_inv HF) as Ha. apply Forall_inv_tail in HF. pose proof (Forall_inv HF) as Hb. apply Forall_inv_tail in HF.
  pose proof (Forall_inv HF) as Hc. apply Forall_inv_tail in HF. pose proof (Forall_inv HF) as Hd.
  cbn [app read_hex4]. rewrite (proj2 (k_hex_iff a) Ha), (proj2 (k_hex_iff b) Hb), (proj2 (k_hex_iff c) Hc), (proj2 (k_hex_iff d) Hd). cbn [andb].
  cbn [positional digit_count]. rewrite !hex_not_us, !hex_value_digit by auto. do 2 f_equal. lia.
Qed.

Lemma unescape_iff e x : unescape e = Some x <-> In (e, x) jescapes.
Proof.
  unfold unescape, jescapes. split.
  - repeat (match goal with |- context [N.eqb e ?n] => destruct (N.eqb_spec e n) as [->|?] end; [intros H; injection H as <-; simpl; tauto|]). discriminate.
  - simpl. intros H. repeat (destruct H as [H|H]; [injection H as <- <-; reflexivity|]). contradiction.
Qed.
Lemma unescape_simple e : j_simple_escape e = match unescape e with Some _ => true | None => false end.
Proof.
  unfold j_simple_escape, unescape.
  repeat (match goal with |- context [N.eqb e ?n] => destruct (N.eqb e n) end; [reflexivity|]). reflexivity.
Qed.

Lemma jhex4_len h n : jhex4 h n -> length h = 4%nat.
Proof. intros H; apply H. Qed.
Lemma lexok_hex4 h n s : jhex4 h n -> lexok (JHex 4) (h ++ s) <-> lexok JNormal s.
Proof.
  intros (HL & HF & ->). destruct h as [|a [|b [|c [|d [|? ?]]]]]; try discriminate.
  pose proof (Forall_inv HF) as Ha. apply Forall_inv_tail in HF. pose proof (Forall_inv HF) as Hb. apply Forall_inv_tail in HF.
  pose proof (Forall_inv HF) as Hc. apply Forall_inv_tail in HF. pose proof (Forall_inv HF) as Hd.
  cbn [app lexok j_after_hex pred]. rewrite (proj2 (k_hex_iff a) Ha), (proj2 (k_hex_iff b) Hb), (proj2 (k_hex_iff c) Hc), (proj2 (k_hex_iff d) Hd). tauto.
Qed.

Lemma jchars_lexok s v : jchars s v -> lexok JNormal s.
Proof.
  induction 1 as [|c s v H1 H2 H3 H IH|e x s v HE H IH|h n s v HH HN H IH|h1 n1 h2 n2 s v HH1 HN1 HH2 HN2 H IH].
  - reflexivity.
  - cbn [lexok]. rewrite (proj2 (N.eqb_neq _ _) H3). repeat split; auto. lia.
  - cbn [lexok]. change (92 =? 92) with true. cbn iota. repeat split; try lia. rewrite unescape_simple. apply unescape_iff in HE. rewrite HE. exact IH.
  - cbn [lexok app]. change (92 =? 92) with true. cbn iota. repeat split; try lia. change (j_simple_escape 117) with false. change (117 =? 117) with true. cbn iota.
    rewrite lexok_hex4; eauto.
  - cbn [lexok app]. change (92 =? 92) with true. cbn iota. repeat split; try lia. change (j_simple_escape 117) with false. change (117 =? 117) with true. cbn iota.
    rewrite lexok_hex4 by eauto. cbn [lexok app]. change (92 =? 92) with true. cbn iota. repeat split; try lia. change (j_simple_escape 117) with false. change (117 =? 117) with true. cbn iota.
    rewrite lexok_hex4; eauto.
Qed.

Lemma in_range_iff a b c : in_range a b c = true <-> a <= c <= b.
Proof. unfold in_range. rewrite andb_true_iff, !N.leb_le. tauto. Qed.
Lemma in_range_false a b c : in_range a b c = false <-> c < a \/ b < c.
Proof. unfold in_range. rewrite andb_false_iff, !N.leb_gt. tauto. Qed.

Lemma jhex4_bound h n : jhex4 h n -> n < 65536.
Proof.
  intros (HL & HF & ->). destruct h as [|a [|b [|c [|d [|? ?]]]]]; try discriminate.
  assert (HD : forall x, jhex_digit x -> digit_of x < 16).
  { intros x Hx. unfold jhex_digit, digit_of in *. destruct (N.leb_spec x 57), (N.leb_spec x 70); lia. }
  pose proof (Forall_inv HF) as Ha. apply Forall_inv_tail in HF. pose proof (Forall_inv HF) as Hb. apply Forall_inv_tail in HF.
  pose proof (Forall_inv HF) as Hc. apply Forall_inv_tail in HF. pose proof (Forall_inv HF) as Hd.
  cbn [positional digit_count]. rewrite !hex_not_us by auto. pose proof (HD _ Ha). pose proof (HD _ Hb). pose proof (HD _ Hc). pose proof (HD _ Hd).
  change (16 ^ (1 + (1 + (1 + 0)))) with 4096. change (16 ^ (1 + (1 + 0))) with 256. change (16 ^ (1 + 0)) with 16. change (16 ^ 0) with 1. lia.
Qed.

Lemma push_inv (c : N) (r : jres (list N)) v : jbind r (fun t => JOk (c :: t)) = JOk v -> exists t, r = JOk t /\ v = c :: t.
Proof. destruct r; cbn [jbind]; intros H; try discriminate. injection H as <-. eauto. Qed.

Lemma unescape_sound : forall fuel s v, lexok JNormal s -> j_unescape_all fuel s = JOk v -> jchars s v.
Proof.
  induction fuel as [|fuel IH]; intros s v HL H; cbn [j_unescape_all] in H; [discriminate|].
  destruct s as [|c r]; [injection H as <-; constructor|].
  cbn [lexok] in HL. destruct HL as (H34 & H31 & HL).
  destruct (N.eqb_spec c 92) as [->|Hc]; cbn [negb] in H.
  2: { apply push_inv in H as (t & H & ->). apply JC_plain; auto; lia. }
  destruct r as [|e r]; [discriminate|]. cbn [lexok] in HL. rewrite unescape_simple in HL. destruct (unescape e) as [x|] eqn:EU.
  { apply push_inv in H as (t & H & ->). apply JC_escape; auto. apply unescape_iff. exact EU. }
  destruct (N.eqb_spec e 117) as [->|He]; [|contradiction]. cbn [negb] in H.
  destruct (read_hex4 r) as [[cp r1]|] eqn:ER; [|discriminate]. apply read_hex4_sound in ER as (h & -> & Hh).
  rewrite lexok_hex4 in HL by eauto.
  destruct (in_range 0xD800 0xDBFF cp) eqn:EH.
  - apply in_range_iff in EH. destruct r1 as [|a [|b r1]]; try discriminate.
    destruct (N.eqb_spec a 92) as [->|?]; [|discriminate]. destruct (N.eqb_spec b 117) as [->|?]; [|discriminate]. cbn [andb] in H.
    destruct (read_hex4 r1) as [[low r2]|] eqn:ER2; [|discriminate]. apply read_hex4_sound in ER2 as (h2 & -> & Hh2).
    destruct (in_range 0xDC00 0xDFFF low) eqn:EL; [|discriminate]. apply in_range_iff in EL.
    cbn [lexok] in HL. destruct HL as (_ & _ & HL). change (92 =? 92) with true in HL. cbn iota in HL. change (j_simple_escape 117) with false in HL. change (117 =? 117) with true in HL. cbn iota in HL.
    rewrite lexok_hex4 in HL by eauto.
    unfold char_from_u32 in H. destruct (_ && _); [|discriminate]. apply push_inv in H as (t & H & ->).
    rewrite N.shiftl_mul_pow2. change (2 ^ 10) with 1024.
    apply (JC_pair h cp h2 low r2 t); auto.
  - destruct (in_range 0xDC00 0xDFFF cp) eqn:EL; [discriminate|]. apply in_range_false in EH, EL.
    unfold char_from_u32 in H. destruct (_ && _); [|discriminate]. apply push_inv in H as (t & H & ->).
    apply (JC_unicode h cp r1 t); auto. lia.
Qed.

Lemma unescape_complete s v : jchars s v -> forall fuel, (length s < fuel)%nat -> j_unescape_all fuel s = JOk v.
Proof.
  induction 1 as [|c s v H1 H2 H3 H IH|e x s v HE H IH|h n s v HH HN H IH|h1 n1 h2 n2 s v HH1 HN1 HH2 HN2 H IH];
    intros [|fuel] HF; try lia; cbn [j_unescape_all].
  - reflexivity.
  - rewrite (proj2 (N.eqb_neq _ _) H3). cbn [negb]. rewrite IH by (cbn [length] in HF; lia). reflexivity.
  - change (92 =? 92) with true. cbn [negb]. apply unescape_iff in HE. rewrite HE. rewrite IH by (cbn [length] in HF; lia). reflexivity.
  - cbn [app]. change (92 =? 92) with true. cbn [negb]. change (unescape 117) with (@None N). cbn iota. change (117 =? 117) with true. cbn [negb].
    rewrite (read_hex4_complete h n s HH). pose proof (jhex4_bound _ _ HH).
    rewrite (proj2 (in_range_false 0xD800 0xDBFF n)) by lia. rewrite (proj2 (in_range_false 0xDC00 0xDFFF n)) by lia.
    unfold char_from_u32. rewrite (proj2 (N.leb_le _ _)) by lia. rewrite (proj2 (in_range_false 0xD800 0xDFFF n)) by lia. cbn [negb andb].
    rewrite IH; [reflexivity|]. rewrite !app_length in HF. cbn [length] in HF. lia.
  - cbn [app]. change (92 =? 92) with true. cbn [negb]. change (unescape 117) with (@None N). cbn iota. change (117 =? 117) with true. cbn [negb].
    rewrite (read_hex4_complete h1 n1 _ HH1). rewrite (proj2 (in_range_iff 0xD800 0xDBFF n1)) by lia.
    change (92 =? 92) with true. change (117 =? 117) with true. cbn [andb].
    rewrite (read_hex4_complete h2 n2 _ HH2). rewrite (proj2 (in_range_iff 0xDC00 0xDFFF n2)) by lia.
    rewrite N.shiftl_mul_pow2. change (2 ^ 10) with 1024.
    unfold char_from_u32. rewrite (proj2 (N.leb_le _ _)) by lia. rewrite (proj2 (in_range_false 0xD800 0xDFFF _)) by lia. cbn [negb andb].
    rewrite IH; [reflexivity|]. rewrite !app_length in HF. cbn [length] in HF. lia.
Qed.

Lemma unescape_total : forall fuel s, (length s < fuel)%nat -> j_unescape_all fuel s <> JFuel /\ j_unescape_all fuel s <> JPanic.
Proof.
  induction fuel as [|fuel IH]; intros s HF; [lia|]. cbn [j_unescape_all].
  assert (HP : forall (c : N) r, (length r < fuel)%nat ->
     jbind (j_unescape_all fuel r) (fun t => JOk (c :: t)) <> JFuel /\ jbind (j_unescape_all fuel r) (fun t => JOk (c :: t)) <> JPanic).
  { intros c r Hr. specialize (IH r Hr). destruct (j_unescape_all fuel r); cbn [jbind]; split; try discriminate; apply IH. }
  assert (HR : forall r n r', read_hex4 r = Some (n, r') -> (length r' <= length r)%nat).
  { intros r n r' H. apply read_hex4_sound in H as (h & -> & _). rewrite app_length. lia. }
  destruct s as [|c r]; [split; discriminate|]. cbn [length] in HF.
  destruct (negb (c =? 92)); [apply HP; lia|]. destruct r as [|e r]; [split; discriminate|]. cbn [length] in HF.
  destruct (unescape e); [apply HP; lia|]. destruct (negb (e =? 117)); [split; discriminate|].
  destruct (read_hex4 r) as [[cp r1]|] eqn:ER; [|split; discriminate]. apply HR in ER.
  destruct (in_range _ _ cp).
  - destruct r1 as [|a [|b r1]]; try (split; discriminate). cbn [length] in ER. destruct (_ && _); [|split; discriminate].
    destruct (read_hex4 r1) as [[low r2]|] eqn:ER2; [|split; discriminate]. apply HR in ER2.
    destruct (in_range _ _ low); [|split; discriminate]. destruct (char_from_u32 _); [apply HP; lia|split; discriminate].
  - destruct (in_range _ _ cp); [split; discriminate|]. destruct (char_from_u32 _); [apply HP; lia|split; discriminate].
Qed.

Lemma inner_text_quoted body : inner_text ([34] ++ body ++ [34]) = Some body.
Proof.
  unfold inner_text. rewrite !len_bytes_app. change (len_bytes [34]) with 1.
  destruct (N.ltb_spec (1 + (len_bytes body + 1)) 2); [lia|].
  replace (1 + (len_bytes body + 1) - 1) with (len_bytes ([34] ++ body)) by (rewrite len_bytes_app; change (len_bytes [34]) with 1; lia).
  change 1 with (len_bytes [34]). apply slice_app.
Qed.

(** * White space *)
Lemma jws_app a b : jws_tombi a -> jws_tombi b -> jws_tombi (a ++ b).
Proof.
  induction 1; intros HB; cbn [app]; auto; try (constructor; auto; fail).
  rewrite <- app_assoc. constructor; auto.
Qed.
Lemma jws_blanks s : jws_tombi (take_while j_is_whitespace s).
Proof.
  induction s as [|x s IH]; cbn [take_while]; [constructor|]. destruct (j_is_whitespace x) eqn:E; [|constructor].
  unfold j_is_whitespace in E. apply orb_true_iff in E as [E|E]; apply N.eqb_eq in E; subst x; constructor; auto.
Qed.
Lemma take_is13 s : exists k, take_while is13 s = repeat 13 k.
Proof.
  induction s as [|x s [k IH]]; cbn [take_while]; [exists O; reflexivity|]. unfold is13 at 1. destruct (N.eqb_spec x 13) as [->|?].
  - exists (S k). cbn [repeat]. rewrite IH. reflexivity.
  - exists O; reflexivity.
Qed.

Lemma jscan_kind (r : str) : forall o w r', jscan r JNormal false = (o, w, r') -> jtrivia (if o then JSTRING else JINVALID_TOKEN) = false.
Proof. intros [|] w r' _; reflexivity. Qed.

Definition starts_ws (s : str) : bool := match s with [] => false | c :: _ => j_is_whitespace c || j_is_line_break c end.

Lemma jword_trivia x r k w r' : jword x r = (k, w, r') -> jtrivia k = true -> jws_tombi w.
Proof.
  unfold jword, jskip. intros H HT.
  destruct (j_is_whitespace x) eqn:EW.
  { injection H as <- <- <-. pose proof (jws_blanks (x :: r)) as HB. cbn [take_while] in HB. rewrite EW in HB. exact HB. }
  destruct (j_is_line_break x) eqn:EL.
  { destruct (N.eqb_spec x 13) as [->|Hx].
    - destruct r as [|y r]; [injection H as <- <- <-; discriminate|]. destruct (N.eqb_spec y 10) as [->|Hy]; injection H as <- <- <-; [|discriminate].
      apply (JW_crlf []). constructor.
    - unfold j_is_line_break in EL. rewrite (proj2 (N.eqb_neq _ _) Hx), orb_false_r in EL. apply N.eqb_eq in EL. subst x. injection H as <- <- <-.
      destruct (take_is13 r) as [n ->]. rewrite <- (app_nil_r (repeat 13 n)). constructor. constructor. }
  exfalso. revert H.
  repeat match goal with |- context [if ?b then (_, _, _) else _] => destruct b; [intros H; injection H as <- <- <-; discriminate|] end.
  destruct (x =? 34); [destruct (jscan r JNormal false) as [[[|] w0] r0]; intros H; injection H as <- <- <-; discriminate|].
  destruct (_ || _); [destruct (_ || _); intros H; injection H as <- <- <-; discriminate|].
  destruct r as [|y r]; repeat match goal with |- context [if ?b then _ else _] => destruct b end; intros H; injection H as <- <- <-; discriminate.
Qed.

Lemma jword_ws_kind x r : j_is_whitespace x || j_is_line_break x = false -> jtrivia (fst (fst (jword x r))) = false.
Proof.
  intros H. apply orb_false_iff in H as [H1 H2]. unfold jword, jskip. rewrite H1, H2.
  repeat match goal with |- context [if ?b then (_, _, _) else _] => destruct b; [reflexivity|] end.
  destruct (x =? 34); [destruct (jscan r JNormal false) as [[[|] w0] r0]; reflexivity|].
  destruct (_ || _); [destruct (_ || _); reflexivity|].
  destruct r as [|y r]; repeat match goal with |- context [if ?b then _ else _] => destruct b end; reflexivity.
Qed.

(** trivia words at the front of a text *)
Definition all_trivia (l : list (jkind * str)) : Prop := Forall (fun kw => jtrivia (fst kw) = true) l.
Lemma jwords_trivia_text l : forall s l2, jwords s (l ++ l2) -> all_trivia l -> jws_tombi (jtext l) /\ jwords (jtext l2) l2.
Proof.
  induction l as [|[k w] l IH]; intros s l2 HW HT.
  - split; [constructor|]. cbn [app] in HW. rewrite <- (jwords_text _ _ HW). exact HW.
  - cbn [app] in HW. inversion HW as [|x r k0 w0 r' l0 H1 H2]; subst. pose proof (Forall_inv HT) as Hk. cbn in Hk.
    destruct (IH _ _ H2 (Forall_inv_tail HT)) as [HA HB]. split; [|exact HB].
    unfold jtext. cbn [map concat snd]. apply jws_app; [|exact HA]. eapply jword_trivia; eauto.
Qed.

Lemma drop_ws_head s : starts_ws (drop_while (fun c => j_is_whitespace c || j_is_line_break c) s) = false.
Proof. pose proof (drop_while_head (fun c => j_is_whitespace c || j_is_line_break c) s) as H. destruct (drop_while _ s); [reflexivity|exact H]. Qed.

Lemma take_while_repeat p (x : N) k s : p x = true -> take_while p (repeat x k ++ s) = repeat x k ++ take_while p s.
Proof. intros H. apply take_while_app. induction k; cbn [repeat forallb]; auto. rewrite H. exact IHk. Qed.
Lemma drop_while_repeat p (x : N) k s : p x = true -> drop_while p (repeat x k ++ s) = drop_while p s.
Proof. intros H. apply drop_while_app. induction k; cbn [repeat forallb]; auto. rewrite H. exact IHk. Qed.

Lemma drop_app_ws (p : N -> bool) a b : (exists x, In x a /\ p x = false) -> drop_while p (a ++ b) = drop_while p a ++ b.
Proof.
  induction a as [|x a IH]; intros (y & HI & Hy); [contradiction|]. cbn [app drop_while]. destruct (p x) eqn:E; [|reflexivity].
  apply IH. destruct HI as [<-|HI]; [congruence|eauto].
Qed.

(** the white space after the blanks at its front is white space *)
Lemma jws_drop_blanks s : jws_tombi s -> jws_tombi (drop_while j_is_whitespace s).
Proof.
  induction 1 as [|s H IH|s H IH|s H IH|k s H IH]; cbn [drop_while].
  - constructor.
  - exact IH.
  - exact IH.
  - change (j_is_whitespace 13) with false. cbn iota. constructor. exact H.
  - change (j_is_whitespace 10) with false. cbn iota. constructor. exact H.
Qed.
Lemma jws_drop_crs s : jws_tombi s -> jws_tombi (drop_while is13 s).
Proof.
  induction 1 as [|s H IH|s H IH|s H IH|k s H IH]; cbn [drop_while].
  - constructor.
  - change (is13 32) with false. cbn iota. constructor. exact H.
  - change (is13 9) with false. cbn iota. constructor. exact H.
  - change (is13 13) with true. cbn iota. change (is13 10) with false. cbn iota. apply (JW_lf 0). exact H.
  - change (is13 10) with false. cbn iota. constructor. exact H.
Qed.
Lemma drop_while_stop (p : N -> bool) a r : match r with [] => True | c :: _ => p c = false end -> drop_while p (a ++ r) = drop_while p a ++ r.
Proof.
  intros HR. induction a as [|x a IH]; cbn [app drop_while].
  - destruct r as [|c r]; cbn [drop_while]; [reflexivity|]. rewrite HR. reflexivity.
  - destruct (p x); auto.
Qed.
Lemma drop_while_len {A} (p : A -> bool) s : (length (drop_while p s) <= length s)%nat.
Proof. induction s as [|x s IH]; cbn [drop_while]; [lia|]. destruct (p x); cbn [length]; lia. Qed.

Lemma jwords_ws_complete : forall n s r l, (length s <= n)%nat -> jws_tombi s -> starts_ws r = false -> jwords (s ++ r) l ->
  exists l1 l2, l = l1 ++ l2 /\ all_trivia l1 /\ jtext l1 = s /\ jwords r l2.
Proof.
  induction n as [|n IH]; intros s r l HN HS HR HL.
  { destruct s; [|cbn in HN; lia]. exists [], l. repeat split; auto. constructor. }
  assert (HRw : match r with [] => True | c :: _ => j_is_whitespace c = false end).
  { destruct r as [|c r]; auto. cbn in HR. apply orb_false_iff in HR. tauto. }
  assert (HR13 : match r with [] => True | c :: _ => is13 c = false end).
  { destruct r as [|c r]; auto. cbn in HR. apply orb_false_iff in HR as [_ HR]. unfold j_is_line_break in HR. apply orb_false_iff in HR. apply HR. }
  inversion HS as [|s' H|s' H|s' H|k s' H]; subst.
  - exists [], l. repeat split; auto. constructor.
  - cbn [app] in HL. inversion HL as [|x0 r0 k0 w r' l' HW HL']; subst. unfold jword in HW. change (j_is_whitespace 32) with true in HW. cbn iota in HW.
    injection HW as <- <- <-. rewrite drop_while_stop in HL' by auto.
    assert (HN' : (length (drop_while j_is_whitespace s') <= n)%nat).
    { pose proof (drop_while_len j_is_whitespace s') as HD. cbn [length] in HN. lia. }
    destruct (IH _ _ _ HN' (jws_drop_blanks _ H) HR HL') as (l1 & l2 & -> & HT & HX & HY).
    eexists (_ :: l1), l2. split; [reflexivity|]. split; [constructor; auto; reflexivity|]. split; [|exact HY].
    unfold jtext. cbn [map concat snd]. fold (jtext l1). rewrite HX. cbn [app]. f_equal.
    pose proof (jwords_text _ _ HL') as HJ. pose proof (take_drop_while j_is_whitespace (s' ++ r)) as HE. rewrite drop_while_stop in HE by auto.
    rewrite app_assoc in HE. apply app_inv_tail in HE. exact HE.
  - cbn [app] in HL. inversion HL as [|x0 r0 k0 w r' l' HW HL']; subst. unfold jword in HW. change (j_is_whitespace 9) with true in HW. cbn iota in HW.
    injection HW as <- <- <-. rewrite drop_while_stop in HL' by auto.
    assert (HN' : (length (drop_while j_is_whitespace s') <= n)%nat).
    { pose proof (drop_while_len j_is_whitespace s') as HD. cbn [length] in HN. lia. }
    destruct (IH _ _ _ HN' (jws_drop_blanks _ H) HR HL') as (l1 & l2 & -> & HT & HX & HY).
    eexists (_ :: l1), l2. split; [reflexivity|]. split; [constructor; auto; reflexivity|]. split; [|exact HY].
    unfold jtext. cbn [map concat snd]. fold (jtext l1). rewrite HX. cbn [app]. f_equal.
    pose proof (jwords_text _ _ HL') as HJ. pose proof (take_drop_while j_is_whitespace (s' ++ r)) as HE. rewrite drop_while_stop in HE by auto.
    rewrite app_assoc in HE. apply app_inv_tail in HE. exact HE.
  - cbn [app] in HL. inversion HL as [|x0 r0 k0 w r' l' HW HL']; subst. unfold jword in HW.
    change (j_is_whitespace 13) with false in HW. change (j_is_line_break 13) with true in HW. change (13 =? 13) with true in HW. change (10 =? 10) with true in HW. cbn iota in HW.
    injection HW as <- <- <-.
    assert (HN' : (length s' <= n)%nat) by (cbn [length] in HN; lia).
    destruct (IH _ _ _ HN' H HR HL') as (l1 & l2 & -> & HT & HX & HY).
    eexists (_ :: l1), l2. split; [reflexivity|]. split; [constructor; auto; reflexivity|]. split; [|exact HY].
    unfold jtext. cbn [map concat snd]. fold (jtext l1). rewrite HX. reflexivity.
  - cbn [app] in HL. inversion HL as [|x0 r0 k0 w r' l' HW HL']; subst. unfold jword in HW.
    change (j_is_whitespace 10) with false in HW. change (j_is_line_break 10) with true in HW. change (10 =? 13) with false in HW. cbn iota in HW.
    injection HW as <- <- <-. rewrite <- app_assoc, drop_while_repeat, drop_while_stop in HL' by auto.
    assert (HN' : (length (drop_while is13 s') <= n)%nat).
    { pose proof (drop_while_len is13 s') as HD. cbn [length] in HN. rewrite app_length in HN. lia. }
    destruct (IH _ _ _ HN' (jws_drop_crs _ H) HR HL') as (l1 & l2 & -> & HT & HX & HY).
    eexists (_ :: l1), l2. split; [reflexivity|]. split; [constructor; auto; reflexivity|]. split; [|exact HY].
    unfold jtext. cbn [map concat snd]. fold (jtext l1). rewrite HX. cbn [app]. f_equal.
    rewrite <- app_assoc, take_while_repeat by auto. rewrite <- app_assoc. f_equal.
    pose proof (take_drop_while is13 (s' ++ r)) as HE. rewrite drop_while_stop in HE by auto.
    rewrite app_assoc in HE. apply app_inv_tail in HE. exact HE.
Qed.
