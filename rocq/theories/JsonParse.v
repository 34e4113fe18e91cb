(** The JSON parser reads exactly the texts of the grammar. *)
From Coq Require Import String Ascii List NArith ZArith Bool Arith Lia.
From Verif Require Import Base TextModel Regex LexerModel LexerSpec LexerProofs NumberSpec LexScalars JsonModel JsonSpec JsonLex JsonWords JsonNumbers.
Import ListNotations.
Open Scope N_scope.
Open Scope list_scope.

(** * What the words of a text look like *)
Definition word_of (k : jkind) (w : str) : Prop :=
  match k with
  | JSTRING => exists body, w = [34] ++ body ++ [34] /\ lexok JNormal body
  | JNUMBER => exists neg m x, jnumber_text true w neg m x
  | JNULL => w = lit "null"
  | JBOOLEAN => w = lit "true" \/ w = lit "false"
  | JCOMMA => w = [44]
  | JCOLON => w = [58]
  | JBRACKET_START => w = [91]
  | JBRACKET_END => w = [93]
  | JBRACE_START => w = [123]
  | JBRACE_END => w = [125]
  | JEOF => False
  | _ => True
  end.

Lemma take_nonsep_colon r : ~ In 58 (take_while nonsep r).
Proof.
  intros H. assert (HF := take_while_all nonsep r). rewrite forallb_forall in HF. apply HF in H. discriminate.
Qed.

Lemma jword_of x r k w r' : jword x r = (k, w, r') -> word_of k w.
Proof.
  unfold jword, jskip. intros H.
  destruct (j_is_whitespace x); [injection H as <- <- <-; exact I|].
  destruct (j_is_line_break x).
  { destruct (x =? 13); [destruct r as [|y r]; [|destruct (y =? 10)]|]; injection H as <- <- <-; exact I. }
  do 6 (match goal with H : context [N.eqb x ?n] |- _ => destruct (N.eqb_spec x n) as [->|?]; [injection H as <- <- <-; reflexivity|] end).
  destruct (N.eqb_spec x 34) as [->|H34].
  { destruct (jscan r JNormal false) as [[[|] w0] r0] eqn:ES; injection H as <- <- <-; [|exact I].
    apply jscan_sound in ES as (body & -> & _ & HL). exists body. auto. }
  destruct (is_ascii_digit x || (x =? 45)) eqn:ED.
  { destruct (_ || _) eqn:EN in H; injection H as <- <- <-; [|exact I]. apply number_words; auto.
    intros [Hx|Hx]; [subst x; discriminate|]. eapply take_nonsep_colon; eauto. }
  destruct (N.eqb_spec x 116) as [->|H116].
  { destruct (str_eqb (firstn 3 r) (lit "rue")) eqn:EK.
    - apply str_eqb_eq in EK. rewrite EK in H. injection H as <- <- <-. left. reflexivity.
    - destruct r; injection H as <- <- <-; exact I. }
  destruct (N.eqb_spec x 102) as [->|H102].
  { destruct (str_eqb (firstn 4 r) (lit "alse")) eqn:EK.
    - apply str_eqb_eq in EK. rewrite EK in H. injection H as <- <- <-. right. reflexivity.
    - destruct r; injection H as <- <- <-; exact I. }
  destruct (N.eqb_spec x 110) as [->|H110].
  { destruct (str_eqb (firstn 3 r) (lit "ull")) eqn:EK.
    - apply str_eqb_eq in EK. rewrite EK in H. injection H as <- <- <-. reflexivity.
    - destruct r; injection H as <- <- <-; exact I. }
  destruct r; injection H as <- <- <-; exact I.
Qed.

Lemma jwords_cons s k w l : jwords s ((k, w) :: l) -> exists x r r', s = x :: r /\ jword x r = (k, w, r') /\ jwords r' l.
Proof. intros H. inversion H; subst. eauto 7. Qed.

(** * The state of the parser *)
Definition head_trivia (l : list (jkind * str)) : bool := match l with [] => false | (k, _) :: _ => jtrivia k end.
Section State.
Context (S : str).
Definition toks (b : str) (l : list (jkind * str)) : list jtoken := jplace_all b l ++ [jeof S].
Definition at_ (b : str) (l : list (jkind * str)) : Prop := S = b ++ jtext l /\ jwords (jtext l) l.

Lemma jtext_cons k w l : jtext ((k, w) :: l) = w ++ jtext l.
Proof. reflexivity. Qed.
Lemma jtext_app a b : jtext (a ++ b) = jtext a ++ jtext b.
Proof. unfold jtext. rewrite map_app, concat_app. reflexivity. Qed.

Lemma at_tail b k w l : at_ b ((k, w) :: l) -> word_of k w /\ at_ (b ++ w) l.
Proof.
  intros [HS HW]. apply jwords_cons in HW as (x & r & r' & _ & H1 & H2). split; [eapply jword_of; eauto|].
  pose proof (jwords_text _ _ H2) as HT. rewrite HT in H2. split; [|exact H2]. rewrite HS, jtext_cons, app_assoc. reflexivity.
Qed.
Lemma at_slice b k w l : at_ b ((k, w) :: l) -> slice S (jtspan (jplaced b (k, w))) = Some w.
Proof. intros [HS _]. rewrite HS, jtext_cons. cbn [jplaced jtspan fst snd]. apply slice_app. Qed.

Lemma at_app l1 : forall b l2, at_ b (l1 ++ l2) -> at_ (b ++ jtext l1) l2.
Proof.
  induction l1 as [|[k w] l1 IH]; intros b l2 H; cbn [app] in H.
  - unfold jtext. cbn. rewrite app_nil_r. exact H.
  - apply at_tail in H as [_ H]. apply IH in H. rewrite jtext_cons, app_assoc. exact H.
Qed.

Lemma skip_trivia l : forall b, exists l1 l2, l = l1 ++ l2 /\ all_trivia l1 /\ head_trivia l2 = false /\
  j_skip_trivia (toks b l) = toks (b ++ jtext l1) l2.
Proof.
  induction l as [|[k w] l IH]; intros b.
  - exists [], []. split; [reflexivity|]; split; [constructor|]; split; [reflexivity|]. reflexivity.
  - destruct (jtrivia k) eqn:E.
    + destruct (IH (b ++ w)) as (l1 & l2 & -> & HT & HH & HS). exists ((k, w) :: l1), l2. repeat split; auto.
      * constructor; auto.
      * unfold toks, j_skip_trivia in *. cbn [jplace_all app drop_while snd]. cbn [jtkind jplaced fst snd]. rewrite E.
        rewrite jtext_cons, app_assoc. exact HS.
    + exists [], ((k, w) :: l). repeat split; auto; [constructor|].
      unfold toks, j_skip_trivia. cbn [jplace_all app drop_while snd]. cbn [jtkind jplaced fst snd]. rewrite E. unfold jtext. cbn [map concat]. rewrite app_nil_r. reflexivity.
Qed.
Lemma skip_none b l : head_trivia l = false -> j_skip_trivia (toks b l) = toks b l.
Proof.
  destruct l as [|[k w] l]; intros H; [reflexivity|]. unfold toks, j_skip_trivia. cbn [jplace_all app drop_while]. cbn [jtkind jplaced fst snd].
  cbn in H. rewrite H. reflexivity.
Qed.
Lemma skip_exact l1 : forall b l2, all_trivia l1 -> head_trivia l2 = false -> j_skip_trivia (toks b (l1 ++ l2)) = toks (b ++ jtext l1) l2.
Proof.
  induction l1 as [|[k w] l1 IH]; intros b l2 HT HH; cbn [app].
  - unfold jtext. cbn. rewrite app_nil_r. apply skip_none. exact HH.
  - unfold toks, j_skip_trivia in *. cbn [jplace_all app drop_while snd]. cbn [jtkind jplaced fst snd]. pose proof (Forall_inv HT) as Hk. cbn in Hk. rewrite Hk.
    rewrite (IH (b ++ w) l2 (Forall_inv_tail HT) HH). rewrite jtext_cons, app_assoc. reflexivity.
Qed.

Lemma advance_step b k w l : exists l1 l2, l = l1 ++ l2 /\ all_trivia l1 /\ head_trivia l2 = false /\
  j_advance (toks b ((k, w) :: l)) = toks (b ++ w ++ jtext l1) l2.
Proof.
  destruct (skip_trivia l (b ++ w)) as (l1 & l2 & H1 & H2 & H3 & H4). exists l1, l2. repeat split; auto.
  rewrite app_assoc, <- H4. reflexivity.
Qed.

Lemma trivia_ws b l1 l2 : at_ b (l1 ++ l2) -> all_trivia l1 -> jws_tombi (jtext l1).
Proof. intros [_ HW] HT. eapply jwords_trivia_text; eauto. Qed.

Lemma place_range a c : range_new (position_after a) (position_after (a ++ c)) = jplace a c.
Proof. unfold jplace. rewrite position_after_app. apply range_new_run. Qed.

(** * Soundness, and no panics *)
(** [l] begins with words that spell [w], then trivia, and [ts'] is the state after them *)
Definition moved (b : str) (l : list (jkind * str)) (w : str) (ts' : list jtoken) : Prop :=
  exists l1 lt l2, l = l1 ++ lt ++ l2 /\ jtext l1 = w /\ all_trivia lt /\ head_trivia l2 = false /\
    ts' = toks (b ++ w ++ jtext lt) l2.

Definition ok_value (d : nat) (b : str) (l : list (jkind * str)) (res : jres (jnode * list jtoken)) : Prop :=
  match res with
  | JPanic => False
  | JOk (n, ts') => exists w, moved b l w ts' /\ jvalue_text tombi_json (128 - d) b w n
  | _ => True
  end.
Definition ok_items (d : nat) (start : position) (items : list jnode) (b : str) (l : list (jkind * str)) (res : jres (jnode * list jtoken)) : Prop :=
  match res with
  | JPanic => False
  | JOk (n, ts') => exists w ns, moved b l (w ++ [93]) ts' /\ jitems_text tombi_json (128 - Datatypes.S d) b w ns /\
      n = JArrayNode (items ++ ns) (range_new start (position_after (b ++ w ++ [93])))
  | _ => True
  end.
Definition ok_members (d : nat) (start : position) (ps : list ((str * range) * jnode)) (b : str) (l : list (jkind * str)) (res : jres (jnode * list jtoken)) : Prop :=
  match res with
  | JPanic => False
  | JOk (n, ts') => exists w qs, moved b l (w ++ [125]) ts' /\ jmembers_text tombi_json (128 - Datatypes.S d) b w qs /\
      (NoDup (map jname ps) -> NoDup (map jname (ps ++ qs))) /\
      n = JObjectNode (ps ++ qs) (range_new start (position_after (b ++ w ++ [125])))
  | _ => True
  end.

Lemma moved_one b k w l : moved b ((k, w) :: l) w (j_advance (toks b ((k, w) :: l))).
Proof.
  destruct (advance_step b k w l) as (l1 & l2 & -> & HT & HH & HA). exists [(k, w)], l1, l2. repeat split; auto.
  unfold jtext. cbn. apply app_nil_r.
Qed.

Lemma toks_head b l t ts : toks b l = t :: ts -> (l = [] /\ t = jeof S /\ ts = []) \/ exists k w l', l = (k, w) :: l' /\ t = jplaced b (k, w).
Proof.
  destruct l as [|[k w] l]; unfold toks; cbn [jplace_all app]; intros H; injection H as <- <-; [left; auto|right; eauto].
Qed.

Definition ok_string (b : str) (l : list (jkind * str)) (res : jres ((str * range) * list jtoken)) : Prop :=
  match res with
  | JPanic => False
  | JOk ((v, r), ts') => exists w, moved b l w ts' /\ jstring_text w v /\ r = jplace b w
  | _ => True
  end.
Lemma string_ok b l : at_ b l -> ok_string b l (j_parse_string S (toks b l)).
Proof.
  intros HA. destruct l as [|[k w] l]; [exact I|]. unfold j_parse_string. unfold toks at 1. cbn [jplace_all app].
  destruct (jkind_eqb (jtkind (jplaced b (k, w))) JSTRING) eqn:E; [|exact I]. apply jkind_eqb_eq in E. cbn in E. subst k.
  rewrite (at_slice _ _ _ _ HA). pose proof (at_tail _ _ _ _ HA) as [(body & Hw & HL) _]. rewrite Hw, inner_text_quoted, <- Hw.
  destruct (j_unescape_all (Datatypes.S (length body)) body) as [v|e| |] eqn:EU; cbn [jbind ok_string]; auto.
  - exists w. split; [apply moved_one|]. split; [|reflexivity]. rewrite Hw. constructor. eapply unescape_sound; eauto.
  - eapply (proj2 (unescape_total _ _ _)); exact EU. Unshelve. lia.
Qed.

Lemma moved_at b l w ts' : at_ b l -> moved b l w ts' ->
  exists s l2, at_ (b ++ w ++ s) l2 /\ head_trivia l2 = false /\ jws_tombi s /\ ts' = toks (b ++ w ++ s) l2 /\
    exists l1 lt, l = l1 ++ lt ++ l2 /\ jtext l1 = w /\ jtext lt = s /\ all_trivia lt.
Proof.
  intros HA (l1 & lt & l2 & -> & <- & HT & HH & ->). exists (jtext lt), l2.
  pose proof (at_app _ _ _ HA) as HA1. pose proof (at_app _ _ _ HA1) as HA2. rewrite <- app_assoc in HA2. repeat split; auto.
  - apply HA2.
  - apply HA2.
  - eapply trivia_ws; eauto.
  - exists l1, lt. auto.
Qed.

(** composition of two moves *)
Lemma moved_trans b l w s u l2 ts' l1 lt : l = l1 ++ lt ++ l2 -> jtext l1 = w -> jtext lt = s ->
  moved (b ++ w ++ s) l2 u ts' -> moved b l (w ++ s ++ u) ts'.
Proof.
  intros -> <- <- (m1 & mt & m2 & -> & <- & HT & HH & ->). exists (l1 ++ lt ++ m1), mt, m2. repeat split; auto.
  - rewrite <- !app_assoc. reflexivity.
  - rewrite !jtext_app. reflexivity.
  - rewrite <- !app_assoc. reflexivity.
Qed.

Lemma sub_succ d : (d < 128)%nat -> (128 - d = Datatypes.S (128 - Datatypes.S d))%nat.
Proof. lia. Qed.

Lemma expect_ok k b l t ts : j_expect k (toks b l) = JOk (t, ts) -> exists w l', l = (k, w) :: l' /\ t = jplaced b (k, w) /\ ts = j_advance (toks b l) \/ (k = JEOF).
Proof.
  unfold j_expect. destruct l as [|[k' w] l]; unfold toks at 1; cbn [jplace_all app].
  - destruct (jkind_eqb _ _) eqn:E; [|discriminate]. apply jkind_eqb_eq in E. cbn in E. intros _. exists [], []. right. auto.
  - destruct (jkind_eqb (jtkind (jplaced b (k', w))) k) eqn:E; [|discriminate]. apply jkind_eqb_eq in E. cbn in E. subst k'. intros H. injection H as <- <-.
    exists w, l. left. auto.
Qed.

Lemma place_end b w : rend (jtrange (jplaced b w)) = position_after (b ++ snd w).
Proof. reflexivity. Qed.

Lemma contains_key_spec k ps : j_contains_key k ps = false <-> ~ In k (map jname ps).
Proof.
  unfold j_contains_key, jname. induction ps as [|p ps IH]; cbn [existsb map In]; [tauto|].
  rewrite orb_false_iff, IH, str_eqb_neq. tauto.
Qed.

Lemma nodup_snoc {A} (l : list A) x : NoDup l -> ~ In x l -> NoDup (l ++ [x]).
Proof.
  induction 1 as [|y l HN HD IH]; intros HX; cbn [app]; [constructor; [intros []|constructor]|].
  constructor.
  - intros HI. apply in_app_iff in HI as [HI|[HI|[]]]; [auto|]. subst. apply HX. left. reflexivity.
  - apply IH. intros HI. apply HX. right. exact HI.
Qed.

Lemma parse_sound : forall fuel,
  (forall d b l, at_ b l -> ok_value d b l (j_parse_value S fuel d (toks b l))) /\
  (forall d start items b l, at_ b l -> ok_items d start items b l (j_parse_items S fuel d start items (toks b l))) /\
  (forall d start ps b l, at_ b l -> ok_members d start ps b l (j_parse_members S fuel d start ps (toks b l))).
Proof.
  induction fuel as [|fuel (IHv & IHi & IHm)]; [repeat split; intros; exact I|]. split; [|split].
  - intros d b l HA. destruct l as [|[k w] l]; [exact I|]. pose proof (at_tail _ _ _ _ HA) as [HW HA1].
    cbn [j_parse_value]. unfold toks at 1. cbn [jplace_all app]. cbn [jtkind jplaced fst snd].
    pose proof (at_slice _ _ _ _ HA) as HS.
    destruct k; try exact I.
    + (* [ *)
      destruct (Nat.leb_spec MAX_RECURSION_DEPTH d) as [HD|HD]; [exact I|]. unfold MAX_RECURSION_DEPTH in HD.
      cbn [word_of] in HW. subst w.
      change (j_expect JBRACKET_START (toks b ((JBRACKET_START, [91]) :: l)))
        with (JOk (jplaced b (JBRACKET_START, [91]), j_advance (toks b ((JBRACKET_START, [91]) :: l)))). cbn [jbind].
      destruct (moved_at _ _ _ _ HA (moved_one b JBRACKET_START [91] l)) as (s & l2 & HA2 & HH & Hs & -> & l1 & lt & EL & EW & ES & HT).
      assert (HI : ok_value d b ((JBRACKET_START, [91]) :: l) (j_parse_items S fuel d (rstart (jtrange (jplaced b (JBRACKET_START, [91])))) [] (toks (b ++ [91] ++ s) l2))).
      { specialize (IHi d (rstart (jtrange (jplaced b (JBRACKET_START, [91])))) [] (b ++ [91] ++ s) l2 HA2).
        destruct (j_parse_items _ _ _ _ _ _) as [[n ts']|e| |]; auto. destruct IHi as (u & ns & HM & HG & ->).
        exists ([91] ++ s ++ u ++ [93]). split; [eapply moved_trans; eauto|]. cbn [app]. rewrite (sub_succ d HD).
        replace (range_new _ _) with (jplace b ([91] ++ s ++ u ++ [93])).
        2: { rewrite <- place_range. cbn [jplaced jtrange fst snd jplace rstart]. rewrite <- !app_assoc. reflexivity. }
        apply JV_array; auto. }
      destruct l2 as [|[k2 w2] l2]; [exact HI|]. unfold toks at 1. cbn [jplace_all app].
      destruct (jkind_eqb (jtkind (jplaced (b ++ 91 :: s) (k2, w2))) JBRACKET_END) eqn:E2; [|exact HI].
      apply jkind_eqb_eq in E2. cbn in E2. subst k2. pose proof (at_tail _ _ _ _ HA2) as [HW2 _]. cbn [word_of] in HW2. subst w2.
      exists ([91] ++ s ++ [93]). split; [eapply moved_trans; eauto; apply moved_one|]. rewrite (sub_succ d HD).
      replace (range_new _ _) with (jplace b ([91] ++ s ++ [93])).
      2: { rewrite <- place_range. cbn [jplaced jtrange fst snd jplace rstart rend]. cbn [app]. rewrite <- app_assoc. reflexivity. }
      apply JV_array_empty; auto.
    + (* { *)
      destruct (Nat.leb_spec MAX_RECURSION_DEPTH d) as [HD|HD]; [exact I|]. unfold MAX_RECURSION_DEPTH in HD.
      cbn [word_of] in HW. subst w.
      change (j_expect JBRACE_START (toks b ((JBRACE_START, [123]) :: l)))
        with (JOk (jplaced b (JBRACE_START, [123]), j_advance (toks b ((JBRACE_START, [123]) :: l)))). cbn [jbind].
      destruct (moved_at _ _ _ _ HA (moved_one b JBRACE_START [123] l)) as (s & l2 & HA2 & HH & Hs & -> & l1 & lt & EL & EW & ES & HT).
      assert (HI : ok_value d b ((JBRACE_START, [123]) :: l) (j_parse_members S fuel d (rstart (jtrange (jplaced b (JBRACE_START, [123])))) [] (toks (b ++ [123] ++ s) l2))).
      { specialize (IHm d (rstart (jtrange (jplaced b (JBRACE_START, [123])))) [] (b ++ [123] ++ s) l2 HA2).
        destruct (j_parse_members _ _ _ _ _ _) as [[n ts']|e| |]; auto. destruct IHm as (u & ns & HM & HG & HN & ->).
        exists ([123] ++ s ++ u ++ [125]). split; [eapply moved_trans; eauto|]. cbn [app]. rewrite (sub_succ d HD).
        replace (range_new _ _) with (jplace b ([123] ++ s ++ u ++ [125])).
        2: { rewrite <- place_range. cbn [jplaced jtrange fst snd jplace rstart]. rewrite <- !app_assoc. reflexivity. }
        apply JV_object; auto. intros _. apply HN. constructor. }
      destruct l2 as [|[k2 w2] l2]; [exact HI|]. unfold toks at 1. cbn [jplace_all app].
      destruct (jkind_eqb (jtkind (jplaced (b ++ 123 :: s) (k2, w2))) JBRACE_END) eqn:E2; [|exact HI].
      apply jkind_eqb_eq in E2. cbn in E2. subst k2. pose proof (at_tail _ _ _ _ HA2) as [HW2 _]. cbn [word_of] in HW2. subst w2.
      exists ([123] ++ s ++ [125]). split; [eapply moved_trans; eauto; apply moved_one|]. rewrite (sub_succ d HD).
      replace (range_new _ _) with (jplace b ([123] ++ s ++ [125])).
      2: { rewrite <- place_range. cbn [jplaced jtrange fst snd jplace rstart rend]. cbn [app]. rewrite <- app_assoc. reflexivity. }
      apply JV_object_empty; auto.
    + (* number *)
      rewrite HS. cbn [word_of] in HW. destruct HW as (neg & m & x & HN). destruct (f64_parse_number _ _ _ _ _ HN) as (v & -> & HV).
      cbn [ok_value]. exists w. split; [apply moved_one|]. rewrite HV. apply JV_number. exact HN.
    + (* string *)
      pose proof (string_ok _ _ HA) as HO. destruct (j_parse_string S (toks b ((JSTRING, w) :: l))) as [[[v r] ts']|e| |]; cbn [jbind]; auto.
      destruct HO as (u & HM & HT & ->). exists u. split; [exact HM|]. apply JV_string. exact HT.
    + (* boolean *)
      rewrite HS. cbn [ok_value]. exists w. split; [apply moved_one|]. cbn [word_of] in HW. destruct HW as [-> | ->]; cbn [str_eqb]; constructor.
    + (* null *)
      cbn [ok_value]. exists w. split; [apply moved_one|]. cbn [word_of] in HW. subst w. constructor.
  - intros d start items b l HA. cbn [j_parse_items].
    specialize (IHv (Datatypes.S d) b l HA) as HV. destruct (j_parse_value S fuel (Datatypes.S d) (toks b l)) as [[n ts1]|e| |]; cbn [jbind]; auto.
    destruct HV as (w & HM & HG). destruct (moved_at _ _ _ _ HA HM) as (s & l2 & HA2 & HH & Hs & -> & l1 & lt & EL & EW & ES & HT).
    destruct l2 as [|[k2 w2] l2]; [exact I|]. unfold toks at 1. cbn [jplace_all app]. cbn [jtkind jplaced fst snd].
    pose proof (at_tail _ _ _ _ HA2) as [HW2 _].
    destruct k2; try exact I; cbn [word_of] in HW2; subst w2.
    + (* comma *)
      destruct (moved_at _ _ _ _ HA2 (moved_one _ JCOMMA [44] l2)) as (s2 & l3 & HA3 & HH3 & Hs2 & -> & m1 & mt & EL2 & EW2 & ES2 & HT2).
      assert (HI : ok_items d start items b l (j_parse_items S fuel d start (items ++ [n]) (toks ((b ++ w ++ s) ++ [44] ++ s2) l3))).
      { specialize (IHi d start (items ++ [n]) _ l3 HA3). destruct (j_parse_items _ _ _ _ _ _) as [[n' ts']|e| |]; auto. destruct IHi as (u & ns & HM3 & HG3 & ->).
        exists (w ++ s ++ [44] ++ s2 ++ u), (n :: ns). split.
        - replace ((w ++ s ++ [44] ++ s2 ++ u) ++ [93]) with (w ++ s ++ ([44] ++ s2 ++ (u ++ [93]))) by (rewrite <- !app_assoc; reflexivity).
          eapply moved_trans; eauto. eapply moved_trans; eauto.
        - split.
          + apply JI_more; auto. replace (b ++ w ++ s ++ [44] ++ s2) with ((b ++ w ++ s) ++ [44] ++ s2) by (rewrite <- !app_assoc; reflexivity). exact HG3.
          + rewrite <- app_assoc. cbn [app]. f_equal. f_equal. rewrite <- !app_assoc. cbn [app]. rewrite <- !app_assoc. reflexivity. }
      destruct l3 as [|[k3 w3] l3]; [exact HI|]. unfold toks at 1. cbn [jplace_all app].
      destruct (jkind_eqb (jtkind (jplaced ((b ++ w ++ s) ++ 44 :: s2) (k3, w3))) JBRACKET_END) eqn:E3; [|exact HI].
      apply jkind_eqb_eq in E3. cbn in E3. subst k3. pose proof (at_tail _ _ _ _ HA3) as [HW3 _]. cbn [word_of] in HW3. subst w3.
      cbn [ok_items]. exists (w ++ s ++ [44] ++ s2), [n]. split.
      * replace ((w ++ s ++ [44] ++ s2) ++ [93]) with (w ++ s ++ ([44] ++ s2 ++ [93])) by (rewrite <- !app_assoc; reflexivity).
        eapply moved_trans; eauto. eapply moved_trans; eauto. apply moved_one.
      * split; [apply JI_last_comma; auto|]. f_equal. f_equal. rewrite place_end. cbn [snd]. rewrite <- !app_assoc. cbn [app]. rewrite <- ?app_assoc. reflexivity.
    + (* ] *)
      cbn [ok_items]. exists (w ++ s), [n]. split.
      * rewrite <- app_assoc. eapply moved_trans; eauto. apply moved_one.
      * split; [apply JI_last; auto|]. f_equal. f_equal. rewrite place_end. cbn [snd]. rewrite <- !app_assoc. reflexivity.
  - intros d start ps b l HA. cbn [j_parse_members].
    destruct l as [|[k w] l]; [exact I|]. unfold toks at 1. cbn [jplace_all app]. cbn [jtkind jplaced fst snd].
    destruct (jkind_eqb k JSTRING) eqn:EK; [|exact I]. cbn [negb]. apply jkind_eqb_eq in EK. subst k.
    pose proof (string_ok _ _ HA) as HO. destruct (j_parse_string S (toks b ((JSTRING, w) :: l))) as [[[key r] ts1]|e| |]; cbn [jbind]; auto.
    destruct HO as (kt & HMk & HKT & ->). cbn [fst].
    destruct (j_contains_key key ps) eqn:EC; [exact I|]. apply contains_key_spec in EC.
    destruct (moved_at _ _ _ _ HA HMk) as (s1 & l2 & HA2 & HH & Hs1 & -> & l1 & lt & EL & EW & ES & HT).
    destruct (j_expect JCOLON (toks (b ++ kt ++ s1) l2)) as [[t ts2]|e| |] eqn:EX; cbn [jbind]; try exact I.
    2: { unfold j_expect in EX. destruct (toks _ _); [discriminate|]. destruct (jkind_eqb _ _); discriminate. }
    apply expect_ok in EX as (w2 & l2' & [(EL2 & -> & ->)|?]); [|discriminate]. subst l2.
    pose proof (at_tail _ _ _ _ HA2) as [HW2 _]. cbn [word_of] in HW2. subst w2.
    destruct (moved_at _ _ _ _ HA2 (moved_one _ JCOLON [58] l2')) as (s2 & l3 & HA3 & HH3 & Hs2 & -> & m1 & mt & EL2 & EW2 & ES2 & HT2).
    specialize (IHv (Datatypes.S d) _ l3 HA3) as HV. destruct (j_parse_value S fuel (Datatypes.S d) (toks _ l3)) as [[n ts3]|e| |]; cbn [jbind]; auto.
    destruct HV as (u & HM & HG). destruct (moved_at _ _ _ _ HA3 HM) as (s3 & l4 & HA4 & HH4 & Hs3 & -> & p1 & pt & EL3 & EW3 & ES3 & HT3).
    set (mem := kt ++ s1 ++ [58] ++ s2 ++ u).
    assert (HMem : jmember_text tombi_json (128 - Datatypes.S d) b mem ((key, jplace b kt), n)).
    { apply JMember; auto. replace (b ++ kt ++ s1 ++ [58] ++ s2) with ((b ++ kt ++ s1) ++ [58] ++ s2) by (rewrite <- !app_assoc; reflexivity). exact HG. }
    assert (HB : ((b ++ kt ++ s1) ++ [58] ++ s2) ++ u ++ s3 = b ++ mem ++ s3) by (unfold mem; rewrite <- !app_assoc; reflexivity).
    rewrite HB in *.
    assert (HMv : forall v ts', moved (b ++ mem ++ s3) l4 v ts' -> moved b ((JSTRING, w) :: l) (mem ++ s3 ++ v) ts').
    { intros v ts' HV. rewrite <- HB in HV. unfold mem.
      replace ((kt ++ s1 ++ [58] ++ s2 ++ u) ++ s3 ++ v) with (kt ++ s1 ++ ([58] ++ s2 ++ (u ++ s3 ++ v))) by (rewrite <- !app_assoc; reflexivity).
      eapply moved_trans; eauto. eapply moved_trans; eauto. eapply moved_trans; eauto. }
    destruct l4 as [|[k4 w4] l4]; [exact I|]. unfold toks at 1. cbn [jplace_all app]. cbn [jtkind jplaced fst snd].
    pose proof (at_tail _ _ _ _ HA4) as [HW4 _].
    destruct k4; try exact I; cbn [word_of] in HW4; subst w4.
    + (* comma *)
      destruct (moved_at _ _ _ _ HA4 (moved_one _ JCOMMA [44] l4)) as (s4 & l5 & HA5 & HH5 & Hs4 & -> & q1 & qt & EL5 & EW5 & ES5 & HT5).
      assert (HI : ok_members d start ps b ((JSTRING, w) :: l) (j_parse_members S fuel d start (ps ++ [((key, jplace b kt), n)]) (toks ((b ++ mem ++ s3) ++ [44] ++ s4) l5))).
      { specialize (IHm d start (ps ++ [((key, jplace b kt), n)]) _ l5 HA5). destruct (j_parse_members _ _ _ _ _ _) as [[n' ts']|e| |]; auto. destruct IHm as (v & qs & HM5 & HG5 & HN5 & ->).
        exists (mem ++ s3 ++ [44] ++ s4 ++ v), (((key, jplace b kt), n) :: qs). split; [|split; [|split]].
        - replace ((mem ++ s3 ++ [44] ++ s4 ++ v) ++ [125]) with (mem ++ s3 ++ ([44] ++ s4 ++ (v ++ [125]))) by (rewrite <- !app_assoc; reflexivity).
          apply HMv. eapply moved_trans; eauto.
        - apply JM_more; auto. replace (b ++ mem ++ s3 ++ [44] ++ s4) with ((b ++ mem ++ s3) ++ [44] ++ s4) by (rewrite <- !app_assoc; reflexivity). exact HG5.
        - intros HN. rewrite <- app_assoc in HN5. apply HN5. rewrite map_app. apply nodup_snoc; auto.
        - rewrite <- app_assoc. cbn [app]. f_equal. f_equal. rewrite <- !app_assoc. cbn [app]. rewrite <- !app_assoc. reflexivity. }
      destruct l5 as [|[k5 w5] l5]; [exact HI|]. unfold toks at 1. cbn [jplace_all app].
      destruct (jkind_eqb (jtkind (jplaced ((b ++ mem ++ s3) ++ 44 :: s4) (k5, w5))) JBRACE_END) eqn:E5; [|exact HI].
      apply jkind_eqb_eq in E5. cbn in E5. subst k5. pose proof (at_tail _ _ _ _ HA5) as [HW5 _]. cbn [word_of] in HW5. subst w5.
      cbn [ok_members]. exists (mem ++ s3 ++ [44] ++ s4), [((key, jplace b kt), n)]. split; [|split; [|split]].
      * replace ((mem ++ s3 ++ [44] ++ s4) ++ [125]) with (mem ++ s3 ++ ([44] ++ s4 ++ [125])) by (rewrite <- !app_assoc; reflexivity).
        apply HMv. eapply moved_trans; eauto. apply moved_one.
      * apply JM_last_comma; auto.
      * intros HN. rewrite map_app. apply nodup_snoc; auto.
      * f_equal. f_equal. rewrite place_end. cbn [snd]. rewrite <- !app_assoc. cbn [app]. rewrite <- ?app_assoc. reflexivity.
    + (* } *)
      cbn [ok_members]. exists (mem ++ s3), [((key, jplace b kt), n)]. split; [|split; [|split]].
      * rewrite <- app_assoc. apply HMv. apply moved_one.
      * apply JM_last; auto.
      * intros HN. rewrite map_app. apply nodup_snoc; auto.
      * f_equal. f_equal. rewrite place_end. cbn [snd]. rewrite <- !app_assoc. reflexivity.
Qed.
End State.
