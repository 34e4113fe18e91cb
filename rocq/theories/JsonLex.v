(** The JSON lexer as a function on texts. *)
From Coq Require Import String Ascii List NArith ZArith Bool Arith Lia.
From Verif Require Import Base TextModel Regex LexerModel LexerSpec LexerProofs NumberSpec LexScalars JsonModel JsonSpec.
Import ListNotations.
Open Scope N_scope.
Open Scope list_scope.

Definition nonsep (x : char) : bool := negb (j_is_token_separator x).
Definition is13 (x : char) : bool := N.eqb x 13.

(** ok?, the word and the rest *)
Fixpoint jscan (r : str) (st : jstr_state) (bad : bool) : bool * str * str :=
  match r with
  | [] => (false, [], [])
  | x :: r' =>
      let k p := let '(o, w, r) := p in (o, x :: w, r) in
      match st with
      | JNormal =>
          if N.eqb x 34 then (negb bad, [x], r')
          else if (x <=? 0x1F) && negb bad then k (jscan r' JNormal true)
          else if N.eqb x 92 then k (jscan r' JEscape bad)
          else k (jscan r' JNormal bad)
      | JEscape =>
          if j_simple_escape x then k (jscan r' JNormal bad)
          else if N.eqb x 117 then k (jscan r' (JHex 4) bad)
          else k (jscan r' JNormal true)
      | JHex n =>
          if k_hex x then k (jscan r' (j_after_hex (pred n)) bad)
          else k (jscan r' JNormal true)
      end
  end.

Definition jskip (x : char) (r : str) : jkind * str * str :=
  match r with
  | [] => (JINVALID_TOKEN, [x], [])
  | y :: r => (JINVALID_TOKEN, x :: y :: take_while nonsep r, drop_while nonsep r)
  end.

Definition jword (x : char) (r : str) : jkind * str * str :=
  if j_is_whitespace x then (JWHITESPACE, x :: take_while j_is_whitespace r, drop_while j_is_whitespace r)
  else if j_is_line_break x then
    if N.eqb x 13 then
      match r with y :: r' => if N.eqb y 10 then (JLINE_BREAK, [x; y], r') else (JINVALID_TOKEN, [x], r) | [] => (JINVALID_TOKEN, [x], r) end
    else (JLINE_BREAK, x :: take_while is13 r, drop_while is13 r)
  else if N.eqb x 123 then (JBRACE_START, [x], r)
  else if N.eqb x 125 then (JBRACE_END, [x], r)
  else if N.eqb x 91 then (JBRACKET_START, [x], r)
  else if N.eqb x 93 then (JBRACKET_END, [x], r)
  else if N.eqb x 44 then (JCOMMA, [x], r)
  else if N.eqb x 58 then (JCOLON, [x], r)
  else if N.eqb x 34 then
    let '(o, w, r) := jscan r JNormal false in ((if o then JSTRING else JINVALID_TOKEN), x :: w, r)
  else if is_ascii_digit x || N.eqb x 45 then
    let w := x :: take_while nonsep r in
    ((if full_match J_REGEX_FLOAT w || full_match J_REGEX_INTEGER_DEC w then JNUMBER else JINVALID_TOKEN),
     w, drop_while nonsep r)
  else if N.eqb x 116 then
    if str_eqb (firstn 3 r) (lit "rue") then (JBOOLEAN, x :: firstn 3 r, skipn 3 r) else jskip x r
  else if N.eqb x 102 then
    if str_eqb (firstn 4 r) (lit "alse") then (JBOOLEAN, x :: firstn 4 r, skipn 4 r) else jskip x r
  else if N.eqb x 110 then
    if str_eqb (firstn 3 r) (lit "ull") then (JNULL, x :: firstn 3 r, skipn 3 r) else jskip x r
  else jskip x r.

(** * The cursor lexer computes [jword] *)
Definition jresult_token (r : jlex_result) : jtoken :=
  match r with inl t => t | inr e => JTok JINVALID_TOKEN (jespan e) (jerange e) end.

Record jlexes (c : cursor) (k : jkind) (w r : str) (res : jlex_result * cursor) : Prop := JLexes {
  jlx_rest : rest c = w ++ rest (snd res);
  jlx_rest' : rest (snd res) = r;
  jlx_off : coff (snd res) = coff c + len_bytes w;
  jlx_pos : cpos (snd res) = pos_run (cpos c) w;
  jlx_toff : toff (snd res) = coff (snd res);
  jlx_tpos : tpos (snd res) = cpos (snd res);
  jlx_tok : jresult_token (fst res) = JTok k (MkSpan (toff c) (coff (snd res))) (range_new (tpos c) (cpos (snd res)));
  jlx_kind : match fst res with inl _ => k <> JINVALID_TOKEN /\ k <> JEOF | inr _ => k = JINVALID_TOKEN end
}.

Lemma jlexes_ok k c : k <> JINVALID_TOKEN -> k <> JEOF -> jlexes c k [] (rest c) (jok k c).
Proof. intros. constructor; simpl; auto; lia. Qed.
Lemma jlexes_err e c : jlexes c JINVALID_TOKEN [] (rest c) (jerr e c).
Proof. constructor; simpl; auto; lia. Qed.
Lemma adv_jlexes a u b k v r res : adv a u b -> jlexes b k v r res -> jlexes a k (u ++ v) r res.
Proof.
  intros [H1 H2 H3 H4 H5] [K1 K2 K3 K4 K5 K6 K7 K8]. constructor; auto; try congruence.
  - rewrite H1, K1, app_assoc. reflexivity.
  - rewrite K3, H2, len_bytes_app. lia.
  - rewrite pos_run_app, <- H3. exact K4.
Qed.
Lemma adv_jok a u b k : adv a u b -> k <> JINVALID_TOKEN -> k <> JEOF -> jlexes a k u (rest b) (jok k b).
Proof. intros H N1 N2. rewrite <- (app_nil_r u). eapply adv_jlexes; [exact H|]. apply jlexes_ok; auto. Qed.
Lemma adv_jerr a u b e : adv a u b -> jlexes a JINVALID_TOKEN u (rest b) (jerr e b).
Proof. intros H. rewrite <- (app_nil_r u). eapply adv_jlexes; [exact H|]. apply jlexes_err. Qed.

Lemma j_string_spec : forall r st bad c o w r',
  rest c = r -> jscan r st bad = (o, w, r') ->
  jlexes c (if o then JSTRING else JINVALID_TOKEN) w r' (j_string_loop r st bad c).
Proof.
  induction r as [|x r IH]; intros st bad c o w r' E HS; cbn [jscan j_string_loop] in *.
  - inversion HS; subst. destruct (adv_bump_nil c E) as [HA HR]. pose proof (adv_jerr _ _ _ JInvalidString HA) as H. rewrite HR in H. exact H.
  - destruct (adv_bump_cons c x r E) as (HA & HR & HC).
    assert (HK : forall st bad, (let '(o, w, r) := jscan r st bad in (o, x :: w, r)) = (o, w, r') ->
       jlexes c (if o then JSTRING else JINVALID_TOKEN) w r' (j_string_loop r st bad (bump c))).
    { intros st0 bad0 H0. destruct (jscan r st0 bad0) as [[o0 w0] r0] eqn:E0. injection H0 as <- <- <-.
      change (x :: w0) with ([x] ++ w0). eapply adv_jlexes; [exact HA|]. apply IH; auto. }
    destruct st.
    + destruct (N.eqb x 34).
      { injection HS as <- <- <-. destruct bad; cbn [negb]; rewrite <- HR.
        - apply adv_jerr. exact HA.
        - apply adv_jok; auto; discriminate. }
      destruct (_ && _); [apply HK; exact HS|]. destruct (N.eqb x 92); apply HK; exact HS.
    + destruct (j_simple_escape x); [apply HK; exact HS|]. destruct (N.eqb x 117); apply HK; exact HS.
    + destruct (k_hex x); apply HK; exact HS.
Qed.

Lemma j_invalid_spec e x c r : rest c = r -> let '(k, w, r') := jskip x r in
  k = JINVALID_TOKEN /\ exists w', w = x :: w' /\ jlexes c k w' r' (j_invalid e c).
Proof.
  intros E. unfold j_invalid, jskip. destruct r as [|y r].
  - destruct (adv_bump_nil c E) as [HA HR]. split; [reflexivity|]. exists []. split; [reflexivity|].
    pose proof (adv_eat_while nonsep (bump c)) as HB. rewrite HR in HB. cbn [take_while] in HB.
    pose proof (eat_while_rest nonsep (bump c)) as HD. rewrite HR in HD. cbn [drop_while] in HD.
    pose proof (adv_jerr _ _ _ e (adv_trans _ _ _ _ _ HA HB)) as H. rewrite HD in H. exact H.
  - destruct (adv_bump_cons c y r E) as (HA & HR & HC). split; [reflexivity|]. exists (y :: take_while nonsep r). split; [reflexivity|].
    pose proof (adv_eat_while nonsep (bump c)) as HB. pose proof (eat_while_rest nonsep (bump c)) as HD. rewrite HR in HB, HD.
    rewrite <- HD. apply adv_jerr. change (y :: take_while nonsep r) with ([y] ++ take_while nonsep r). eapply adv_trans; eauto.
Qed.

(** ** The language of numbers *)
Lemma J_FLOAT_ascii w : lang J_REGEX_FLOAT w -> forallb (fun c => c <? 128) w = true.
Proof.
  revert w. change (chars_in J_REGEX_FLOAT (fun c => c <? 128)).
  unfold J_REGEX_FLOAT, colon_opt, RPlus, ROpt, RChr. ci.
Qed.
Lemma J_INT_ascii w : lang J_REGEX_INTEGER_DEC w -> forallb (fun c => c <? 128) w = true.
Proof.
  revert w. change (chars_in J_REGEX_INTEGER_DEC (fun c => c <? 128)).
  unfold J_REGEX_INTEGER_DEC, colon_opt, RPlus, ROpt, RChr. ci.
Qed.

Lemma adv_rest_inj a u b v s : adv a u b -> rest a = v ++ s -> rest b = s -> u = v.
Proof. intros H E R. rewrite (adv_rest _ _ _ H), R in E. apply app_inv_tail in E. exact E. Qed.

Lemma eat_match_adv c u s :
  rest c = u ++ s -> forallb (fun c => c <? 128) (current c :: u) = true ->
  adv c u (eat_match (len_bytes (current c :: u)) c) /\ rest (eat_match (len_bytes (current c :: u)) c) = s.
Proof.
  intros H HP. pose proof (eat_match_ascii c u s H HP) as HR. split; [|exact HR].
  destruct (adv_eat_match (len_bytes (current c :: u)) c) as [w HW].
  pose proof (adv_rest_inj _ _ _ _ _ HW H HR) as HE. rewrite HE in HW. exact HW.
Qed.

Lemma j_number_spec c x r : current c = x -> rest c = r -> let w := x :: take_while nonsep r in
  exists w', w = x :: w' /\
  jlexes c (if full_match J_REGEX_FLOAT w || full_match J_REGEX_INTEGER_DEC w then JNUMBER else JINVALID_TOKEN) w' (drop_while nonsep r) (j_number c).
Proof.
  intros HC HR w. exists (take_while nonsep r). split; [reflexivity|].
  unfold j_number, peek_with_current_while. fold nonsep. rewrite HC, HR. fold w.
  assert (HE : rest c = take_while nonsep r ++ drop_while nonsep r) by (rewrite take_drop_while; exact HR).
  unfold find_end.
  destruct (full_match J_REGEX_FLOAT w) eqn:EF; cbn [orb].
  - apply full_match_spec, J_FLOAT_ascii in EF. unfold w in *. rewrite <- HC in *.
    destruct (eat_match_adv c _ _ HE EF) as [HA HB]. rewrite <- HB at 1. apply adv_jok; auto; discriminate.
  - destruct (full_match J_REGEX_INTEGER_DEC w) eqn:EI.
    + apply full_match_spec, J_INT_ascii in EI. unfold w in *. rewrite <- HC in *.
      destruct (eat_match_adv c _ _ HE EI) as [HA HB]. rewrite <- HB at 1. apply adv_jok; auto; discriminate.
    + pose proof (eat_while_rest nonsep c) as HD. rewrite HR in HD. rewrite <- HD. unfold nonsep. apply adv_jerr.
      rewrite <- HR. apply adv_eat_while.
Qed.

Lemma matches_str_firstn c x r e es : current c = x -> rest c = r -> Forall (fun c => c <> 0) es ->
  matches_str (e :: es) c = N.eqb x e && str_eqb (firstn (length es) r) es.
Proof.
  intros HC HR HF. cbn [matches_str]. rewrite HC. f_equal.
  assert (H : forall es i, Forall (fun c => c <> 0) es -> (1 <= i)%nat -> matches_from i es c = str_eqb (firstn (length es) (skipn (i - 1) r)) es).
  { clear - HR. induction es as [|y es IH]; intros i HF Hi; [reflexivity|]. cbn [matches_from length].
    unfold peek. rewrite HR. pose proof (Forall_inv HF) as Hy. pose proof (Forall_inv_tail HF) as HF'.
    rewrite IH by (auto; lia). replace (S i - 1)%nat with (S (i - 1)) by lia.
    generalize (i - 1)%nat as j. clear - Hy. intros j. revert j. induction r as [|z r IHr]; intros j.
    - destruct j; cbn [nth skipn firstn str_eqb]; unfold EOF_CHAR; destruct (N.eqb_spec 0 y) as [Hz|Hz]; auto; exfalso; apply Hy; auto.
    - destruct j as [|j].
      + cbn [nth skipn firstn str_eqb]. destruct (N.eqb z y); reflexivity.
      + cbn [nth skipn]. apply IHr. }
  rewrite H by (auto; lia). reflexivity.
Qed.

Lemma firstn_exact (r es : str) : str_eqb (firstn (length es) r) es = true -> length (firstn (length es) r) = length es.
Proof. intros H. apply str_eqb_eq in H. rewrite H at 1. reflexivity. Qed.

Lemma eat_n_ok c n r k : rest c = r -> k <> JINVALID_TOKEN -> k <> JEOF -> jlexes c k (firstn n r) (skipn n r) (jok k (eat_n n c)).
Proof.
  intros HR N1 N2. rewrite <- HR, <- eat_n_rest. apply adv_jok; auto. apply adv_eat_n_firstn.
Qed.

Lemma advance_jword c x r : rest c = x :: r ->
  exists res, j_advance_token c = Some res /\
    let '(k, w, r') := jword x r in jlexes c k w r' res /\ w <> [].
Proof.
  intros E. unfold j_advance_token. rewrite E. eexists. split; [reflexivity|].
  destruct (adv_bump_cons c x r E) as (HA & HR & HC). rewrite HC. set (c1 := bump c) in *. clearbody c1.
  assert (HW : forall k w r' res, (exists w', w = x :: w' /\ jlexes c1 k w' r' res) -> jlexes c k w r' res /\ w <> []).
  { intros k w r' res (w' & -> & H). split; [|discriminate]. change (x :: w') with ([x] ++ w'). eapply adv_jlexes; eauto. }
  assert (HO : forall k, k <> JINVALID_TOKEN -> k <> JEOF -> jlexes c k [x] r (jok k c1) /\ [x] <> []).
  { intros k N1 N2. apply HW. exists []. split; [reflexivity|]. rewrite <- HR. apply jlexes_ok; auto. }
  assert (HI : forall e, let '(k, w, r') := jskip x r in jlexes c k w r' (j_invalid e c1) /\ w <> []).
  { intros e. pose proof (j_invalid_spec e x c1 r HR) as H. destruct (jskip x r) as [[k w] r']. destruct H as [_ H]. apply HW. exact H. }
  unfold jword.
  destruct (j_is_whitespace x).
  { apply HW. eexists. split; [reflexivity|]. unfold j_whitespace.
    pose proof (eat_while_rest j_is_whitespace c1) as HD. pose proof (adv_eat_while j_is_whitespace c1) as HB. rewrite HR in HD, HB. rewrite <- HD.
    apply adv_jok; auto; discriminate. }
  destruct (j_is_line_break x).
  { unfold j_line_break. rewrite HC. destruct (N.eqb x 13).
    - unfold peek. rewrite HR. destruct r as [|y r]; cbn [nth Nat.sub].
      + change (EOF_CHAR =? 10) with false. cbn [N.eqb]. apply HW. exists []. split; [reflexivity|]. pose proof (jlexes_err JInvalidLineBreak c1) as H. rewrite HR in H. exact H.
      + destruct (N.eqb y 10).
        * apply HW. exists [y]. split; [reflexivity|]. pose proof (eat_n_ok c1 1 (y :: r) JLINE_BREAK HR) as H. cbn [firstn skipn] in H. apply H; discriminate.
        * apply HW. exists []. split; [reflexivity|]. pose proof (jlexes_err JInvalidLineBreak c1) as H. rewrite HR in H. exact H.
    - apply HW. eexists. split; [reflexivity|]. fold is13.
      pose proof (eat_while_rest is13 c1) as HD. pose proof (adv_eat_while is13 c1) as HB. rewrite HR in HD, HB. rewrite <- HD.
      apply adv_jok; auto; discriminate. }
  do 6 (match goal with |- context [N.eqb x ?n] => destruct (N.eqb x n); [apply HO; discriminate|] end).
  destruct (N.eqb x 34).
  { destruct (jscan r JNormal false) as [[o w] r'] eqn:ES. apply HW. exists w. split; [reflexivity|]. rewrite HR. apply j_string_spec; auto. }
  destruct (is_ascii_digit x || N.eqb x 45).
  { apply HW. apply j_number_spec; auto. }
  Local Ltac kw n := 
    match goal with HR : rest ?c1 = ?r, HC : current ?c1 = ?x |- _ =>
      rewrite (matches_str_firstn c1 x r _ _ HC HR) by (repeat constructor; discriminate) end.
  destruct (N.eqb_spec x 116) as [Hx|Hx].
  { change (lit "true") with (116 :: lit "rue"). kw 3%nat. rewrite (proj2 (N.eqb_eq _ _) Hx). cbn [andb]. change (length (lit "rue")) with 3%nat.
    destruct (str_eqb (firstn 3 r) (lit "rue")); [|apply HI]. apply HW. eexists. split; [reflexivity|]. apply eat_n_ok; auto; discriminate. }
  destruct (N.eqb_spec x 102) as [Hx'|Hx'].
  { change (lit "false") with (102 :: lit "alse"). kw 3%nat. rewrite (proj2 (N.eqb_eq _ _) Hx'). cbn [andb]. change (length (lit "alse")) with 4%nat.
    destruct (str_eqb (firstn 4 r) (lit "alse")); [|apply HI]. apply HW. eexists. split; [reflexivity|]. apply eat_n_ok; auto; discriminate. }
  destruct (N.eqb_spec x 110) as [Hx''|Hx''].
  { change (lit "null") with (110 :: lit "ull"). kw 3%nat. rewrite (proj2 (N.eqb_eq _ _) Hx''). cbn [andb]. change (length (lit "ull")) with 3%nat.
    destruct (str_eqb (firstn 3 r) (lit "ull")); [|apply HI]. apply HW. eexists. split; [reflexivity|]. apply eat_n_ok; auto; discriminate. }
  apply HI.
Qed.

(** * The words of a text *)
Inductive jwords : str -> list (jkind * str) -> Prop :=
| JWs_nil : jwords [] []
| JWs_cons x r k w r' l : jword x r = (k, w, r') -> jwords r' l -> jwords (x :: r) ((k, w) :: l).

Definition jplaced (b : str) (kw : jkind * str) : jtoken :=
  JTok (fst kw) (MkSpan (len_bytes b) (len_bytes (b ++ snd kw))) (jplace b (snd kw)).
Fixpoint jplace_all (b : str) (l : list (jkind * str)) : list jtoken :=
  match l with
  | [] => []
  | kw :: l' => jplaced b kw :: jplace_all (b ++ snd kw) l'
  end.
Definition jtext (l : list (jkind * str)) : str := concat (map snd l).
Definition jeof (source : str) : jtoken := jplaced source (JEOF, []).

Fixpoint jresult_errors (rs : list jlex_result) : list jlex_error :=
  match rs with [] => [] | inl _ :: rs => jresult_errors rs | inr e :: rs => e :: jresult_errors rs end.

Definition jkind_ok (r : jlex_result) (k : jkind) : Prop :=
  match r with inl _ => k <> JINVALID_TOKEN /\ k <> JEOF | inr _ => k = JINVALID_TOKEN end.

Lemma jword_split x r k w r' : jword x r = (k, w, r') -> x :: r = w ++ r' /\ w <> [] /\ k <> JEOF.
Proof.
  intros H. destruct (advance_jword (cursor_new (x :: r)) x r eq_refl) as (res & _ & HL). rewrite H in HL.
  destruct HL as [[H1 H2 H3 H4 H5 H6 H7 H8] HN]. rewrite H2 in H1. repeat split; auto.
  destruct (fst res); [destruct H8; auto|rewrite H8; discriminate].
Qed.

Lemma jwords_text s l : jwords s l -> s = jtext l.
Proof.
  induction 1 as [|x r k w r' l H1 H2 IH]; [reflexivity|]. unfold jtext. cbn [map concat snd]. fold (jtext l).
  apply jword_split in H1 as (-> & _). rewrite <- IH. reflexivity.
Qed.

Lemma j_tokenize_spec : forall fuel b c, (length (rest c) < fuel)%nat -> at_pos b c ->
  exists rs l, j_tokenize fuel c = Some rs /\ jwords (rest c) l /\
    map jresult_token rs = jplace_all b l /\ Forall2 jkind_ok rs (map fst l) /\
    fold_left (fun _ r => send (j_result_span r)) rs (coff c) = len_bytes (b ++ rest c) /\
    fold_left (fun _ r => rend (j_result_range r)) rs (cpos c) = position_after (b ++ rest c).
Proof.
  induction fuel as [|fuel IH]; intros b c HF HA; [lia|]. cbn [j_tokenize].
  destruct (rest c) as [|x r] eqn:E.
  - exists [], []. unfold j_advance_token. rewrite E. destruct HA as (A1 & A2 & A3 & A4).
    rewrite app_nil_r. repeat split; auto; constructor.
  - destruct (advance_jword c x r E) as ([res c'] & -> & HL). destruct (jword x r) as [[k w] r'] eqn:EW.
    destruct HL as [[L1 L2 L3 L4 L5 L6 L7 L8] HN]. cbn [fst snd] in *. destruct HA as (A1 & A2 & A3 & A4).
    assert (HA1 : at_pos (b ++ w) c').
    { repeat split; auto.
      - rewrite L3, A1, len_bytes_app. reflexivity.
      - rewrite L4, A2, position_after_app. reflexivity. }
    assert (HR : (length (rest c') < fuel)%nat).
    { rewrite E in L1. rewrite L1 in HF. rewrite app_length in HF. destruct w; [contradiction|]. cbn [length] in HF. lia. }
    destruct (IH _ _ HR HA1) as (rs & l & T1 & T2 & T3 & T4 & T5 & T6). rewrite T1. cbn [option_map].
    assert (HT : jresult_token res = jplaced b (k, w)).
    { destruct HA1 as (B1 & B2 & _). rewrite L7. unfold jplaced. cbn [fst snd]. rewrite A3, A4, A1, A2, B1, B2.
      unfold jplace. f_equal. rewrite position_after_app. apply range_new_run. }
    exists (res :: rs), ((k, w) :: l). split; [reflexivity|]. split; [|split; [|split; [|split]]].
    + apply JWs_cons with (r' := r'); auto. rewrite <- L2. exact T2.
    + cbn [map jplace_all snd]. rewrite HT, T3. reflexivity.
    + cbn [map]. constructor; auto.
    + cbn [fold_left]. assert (send (j_result_span res) = coff c') as ->.
      { destruct HA1 as (B1 & _). replace (j_result_span res) with (jtspan (jresult_token res)) by (destruct res; reflexivity). rewrite HT. cbn. rewrite B1. reflexivity. }
      rewrite T5. rewrite <- E, L1, app_assoc. reflexivity.
    + cbn [fold_left]. assert (rend (j_result_range res) = cpos c') as ->.
      { destruct HA1 as (_ & B2 & _). replace (j_result_range res) with (jtrange (jresult_token res)) by (destruct res; reflexivity). rewrite HT. cbn. rewrite B2. reflexivity. }
      rewrite T6. rewrite <- E, L1, app_assoc. reflexivity.
Qed.

Lemma j_push_fold rs l :
  jtokens (fold_left j_push_result_token rs l) = jtokens l ++ map jresult_token rs /\
  jerrors (fold_left j_push_result_token rs l) = jerrors l ++ jresult_errors rs.
Proof.
  revert l; induction rs as [|r rs IH]; intros l; cbn [fold_left map jresult_errors].
  - rewrite !app_nil_r. auto.
  - destruct (IH (j_push_result_token l r)) as [H1 H2]. rewrite H1, H2.
    destruct r as [t|e]; simpl; rewrite <- ?app_assoc; auto.
Qed.

Definition jis_invalid (t : jtoken) : bool := jkind_eqb (jtkind t) JINVALID_TOKEN.
Definition jsame_place (t : jtoken) (e : jlex_error) : Prop := jtspan t = jespan e /\ jtrange t = jerange e.

Lemma jkind_eqb_eq a b : jkind_eqb a b = true <-> a = b.
Proof. destruct a, b; simpl; split; intros; auto; discriminate. Qed.

Lemma jlex_correct seg source : seg [] = [] ->
  exists l lx, jlex seg source = Some lx /\ jwords source l /\
    jtokens lx = jplace_all [] l ++ [jeof source] /\
    Forall2 jsame_place (filter jis_invalid (jtokens lx)) (jerrors lx).
Proof.
  intros Hs. unfold jlex.
  assert (HA : at_pos [] (cursor_new source)) by (repeat split; reflexivity).
  destruct (j_tokenize_spec (S (length source)) [] (cursor_new source) ltac:(simpl; lia) HA) as (rs & l & T1 & T2 & T3 & T4 & T5 & T6).
  rewrite T1. cbn [cursor_new rest coff cpos app] in T2, T5, T6. rewrite T5, T6, drop_bytes_all, Hs.
  exists l. eexists. split; [reflexivity|]. split; [exact T2|]. destruct (j_push_fold rs (MkJLexed [] [])) as [P1 P2]. cbn [jtokens jerrors app] in *.
  rewrite P1, P2, T3. split.
  - f_equal. f_equal. unfold jeof, jplaced, jplace. cbn [fst snd]. rewrite app_nil_r. unfold rel_of_clusters. cbn [rel_of_clusters_from]. rewrite pos_add_zero.
    unfold range_new. rewrite pos_leb_refl. reflexivity.
  - rewrite filter_app. cbn. rewrite app_nil_r, <- T3. clear - T3 T4. revert l T3 T4. generalize (@nil N) as b.
    induction rs as [|r rs IH]; intros b l T3 T4; [constructor|]. destruct l as [|kw l]; [inversion T4|].
    cbn [map] in *. inversion T4 as [|? ? ? ? HK HF]; subst. cbn [jplace_all] in T3. injection T3 as T3 T3'.
    cbn [filter jresult_errors]. destruct r as [t|e]; cbn [jresult_token] in *.
    + destruct (jis_invalid t) eqn:Ei; [|eapply IH; eauto]. unfold jis_invalid in Ei. apply jkind_eqb_eq in Ei. rewrite T3 in Ei. cbn in Ei.
      destruct HK. contradiction.
    + change (jis_invalid (JTok JINVALID_TOKEN (jespan e) (jerange e))) with true. cbn iota. constructor; [split; reflexivity|]. eapply IH; eauto.
Qed.
