(** * C29: JSON lexing and parsing *)
From Coq Require Import String Ascii List NArith ZArith Bool Arith Lia.
From Verif Require Import Base TextModel Regex LexerModel LexerSpec LexerProofs NumberSpec DateTimeModel DateTimeProofs JsonModel JsonSpec JsonLex JsonWords JsonNumbers JsonParse JsonComplete JsonRound.
Import ListNotations.
Open Scope N_scope.
Open Scope list_scope.

(** ** Specification of the lexer *)
(** The tokens cut [source] into non-empty pieces, one after the other and nothing left out; each piece carries
    the byte offsets and the lines and columns of its two ends.  The last token is the end of the file. *)
Inductive jtiles (source : str) : str -> list jtoken -> Prop :=
| JT_end t : jtkind t = JEOF -> jtspan t = MkSpan (len_bytes source) (len_bytes source) ->
    jtrange t = MkRange (position_after source) (position_after source) -> jtiles source source [t]
| JT_token before w t ts : w <> [] -> jtkind t <> JEOF ->
    jtspan t = MkSpan (len_bytes before) (len_bytes (before ++ w)) ->
    jtrange t = MkRange (position_after before) (position_after (before ++ w)) ->
    jtiles source (before ++ w) ts -> jtiles source before (t :: ts).

Lemma tiles_all source : forall l before, source = before ++ jtext l -> jwords (jtext l) l -> jtiles source before (jplace_all before l ++ [jeof source]).
Proof.
  induction l as [|[k w] l IH]; intros before HS HW.
  - unfold jtext in HS. cbn in HS. rewrite app_nil_r in HS. subst. apply JT_end; [reflexivity| |]; unfold jeof, jplaced, jplace; cbn [jtspan jtrange fst snd]; rewrite app_nil_r; reflexivity.
  - apply jwords_cons in HW as (x & r & r' & _ & HJ & HW). destruct (jword_split _ _ _ _ _ HJ) as (_ & HN & HK).
    pose proof (jwords_text _ _ HW) as HT. cbn [jplace_all app snd]. eapply JT_token; [exact HN|exact HK|reflexivity|reflexivity|].
    apply IH; [|rewrite <- HT; exact HW]. rewrite HS, jtext_cons, app_assoc. reflexivity.
Qed.

(** ** Lexing: never fails or panics, loses nothing, and every error is an invalid token at the same place *)
Theorem C29_json_lex_lossless seg source : seg [] = [] -> exists lx, jlex seg source = Some lx /\ jtiles source [] (jtokens lx) /\
  Forall2 (fun t e => jtspan t = jespan e /\ jtrange t = jerange e) (filter jis_invalid (jtokens lx)) (jerrors lx).
Proof.
  intros Hs. destruct (jlex_correct seg source Hs) as (l & lx & H1 & H2 & H3 & H4). exists lx. split; [exact H1|]. split.
  - rewrite H3. pose proof (jwords_text _ _ H2) as HT. apply tiles_all; [exact HT|rewrite <- HT; exact H2].
  - clear - H4. induction H4 as [|t e ts es H HF IH]; constructor; auto.
Qed.
Print Assumptions C29_json_lex_lossless.

(** ** Parsing *)
Theorem C29_json_total seg source : seg [] = [] -> (exists n, jparse seg source = JOk n) \/ (exists e, jparse seg source = JErr e).
Proof.
  intros Hs. destruct (jlex_correct seg source Hs) as (l & lx & H1 & H2 & H3 & _). unfold jparse. rewrite H1, H3.
  pose proof (words_at source [] source l eq_refl H2) as HA. destruct (skip_trivia source l []) as (l1 & l2 & HL & HT & HH & HK).
  unfold toks in HK at 1. rewrite HK. rewrite HL in HA. apply at_app in HA.
  set (ts := toks source ([] ++ jtext l1) l2) in *.
  pose proof (proj1 (parse_sound source (S (2 * length ts))) 0%nat _ _ HA) as HP. fold ts in HP.
  pose proof (proj1 (parse_fuel source (S (2 * length ts))) 0%nat ts ltac:(lia)) as HF.
  destruct (j_parse_value source _ 0 ts) as [[n ts']|e| |]; cbn [jbind].
  - destruct (j_skip_trivia ts') as [|t ts2]; [eauto|]. destruct (jkind_eqb _ _); eauto.
  - eauto.
  - destruct HP.
  - destruct (HF eq_refl).
Qed.
Print Assumptions C29_json_total.

(** exactly the texts of the dialect [tombi_json], nested at most 128 deep; the node has the value and the places
    that the grammar gives *)
Theorem C29_json_exact seg source n : seg [] = [] -> jparse seg source = JOk n <-> json_text tombi_json 128 source n.
Proof.
  intros Hs. destruct (jlex_correct seg source Hs) as (l & lx & H1 & H2 & H3 & _). unfold jparse. rewrite H1, H3.
  pose proof (words_at source [] source l eq_refl H2) as HA. split.
  - destruct (skip_trivia source l []) as (l1 & l2 & HL & HT & HH & HK). unfold toks in HK at 1. rewrite HK.
    assert (Hs1 : jws_tombi (jtext l1)) by (rewrite HL in HA; eapply trivia_ws; eauto).
    rewrite HL in HA. apply at_app in HA. set (ts := toks source ([] ++ jtext l1) l2) in *.
    pose proof (proj1 (parse_sound source (S (2 * length ts))) 0%nat _ _ HA) as HP. fold ts in HP.
    destruct (j_parse_value source _ 0 ts) as [[n' ts']|e| |]; cbn [jbind]; try discriminate.
    destruct HP as (w & HM & HG). destruct (moved_at _ _ _ _ _ HA HM) as (s & l3 & HA3 & HH3 & Hs3 & -> & _).
    rewrite skip_none by exact HH3. destruct l3 as [|[k3 w3] l3].
    + intros H. injection H as <-. destruct HA3 as [HS _]. unfold jtext in HS at 2. cbn [map concat] in HS. rewrite app_nil_r in HS. cbn [app] in HS.
      rewrite HS. constructor; auto.
    + unfold toks. cbn [jplace_all app]. destruct (jkind_eqb (jtkind (jplaced _ (k3, w3))) JEOF) eqn:E; [|discriminate].
      apply jkind_eqb_eq in E. cbn in E. subst k3. apply at_tail in HA3 as [[] _].
  - intros H. destruct H as [s1 w s2 n Hs1 HG Hs2].
    destruct (jwords_ws_complete _ s1 (w ++ s2) l (le_n _) Hs1 (value_starts _ _ _ _ _ _ HG) H2) as (l1 & l2 & -> & HT & HE & H4).
    assert (HK : j_skip_trivia (jplace_all [] (l1 ++ l2) ++ [jeof (s1 ++ w ++ s2)]) = toks (s1 ++ w ++ s2) s1 l2).
    { change (j_skip_trivia (toks (s1 ++ w ++ s2) [] (l1 ++ l2)) = toks (s1 ++ w ++ s2) s1 l2). rewrite skip_exact; auto.
      - rewrite HE. reflexivity.
      - eapply words_head; [|exact H4]. eapply value_starts; eauto. }
    rewrite HK. set (ts := toks (s1 ++ w ++ s2) s1 l2).
    assert (HX : s1 ++ w ++ s2 = s1 ++ w ++ s2 ++ []) by (rewrite app_nil_r; reflexivity).
    rewrite <- (app_nil_r s2) in H4.
    destruct (parse_complete (s1 ++ w ++ s2) 128 s1 w n HG 0%nat s2 [] l2 ltac:(lia) HX Hs2 eq_refl I H4) as (l3 & f0 & H5 & HF).
    fold ts in HF.
    assert (HR : j_parse_value (s1 ++ w ++ s2) (S (2 * length ts)) 0 ts = JOk (n, toks (s1 ++ w ++ s2) (s1 ++ w ++ s2) l3)).
    { pose proof (proj1 (parse_fuel (s1 ++ w ++ s2) (S (2 * length ts))) 0%nat ts ltac:(lia)) as HNF.
      destruct (Nat.le_ge_cases f0 (S (2 * length ts))) as [Hle|Hge]; [apply HF; exact Hle|].
      destruct (proj1 (parse_mono (s1 ++ w ++ s2) _ _ Hge) 0%nat ts) as [HFu|HEq]; [contradiction|]. rewrite HEq. apply HF. lia. }
    rewrite HR. cbn [jbind]. inversion H5; subst. reflexivity.
Qed.
Print Assumptions C29_json_exact.

Definition seg1 (s : str) : list str := map (fun c => [c]) s.
Example C29_exact_example : exists n, jparse seg1 (lit " { ""a"": [1, -2.5e1, ""xA\n""], ""b"": {} } ") = JOk n /\
  j_value n = JObject [(lit "a", JArray [JNumber (JInteger 1); JNumber (JInteger (-25)); JString (lit "xA" ++ [10])]); (lit "b", JObject [])].
Proof. eexists. split; vm_compute; reflexivity. Qed.

(** ** RFC 8259 *)
Definition ends_ok (r : str) : Prop := hd 0 r <> 10.
Lemma cr_suffix a b : cr_before_lf (a ++ b) -> cr_before_lf b.
Proof. intros H u v E. apply (H (a ++ u) v). rewrite E, <- app_assoc. reflexivity. Qed.
Lemma ws_rfc_tombi : forall n s r, (length s <= n)%nat -> jws_rfc s -> cr_before_lf (s ++ r) -> ends_ok r -> jws_tombi s.
Proof.
  induction n as [|n IH]; intros s r HN HS HC HR; destruct s as [|c s]; try constructor; [cbn in HN; lia|].
  pose proof (Forall_inv HS) as Hc. pose proof (Forall_inv_tail HS) as HS'. cbn [length] in HN.
  assert (HT : jws_tombi s) by (apply (IH s r); auto; [lia|]; apply (cr_suffix [c]); exact HC).
  destruct Hc as [->|[->|[->| ->]]].
  - apply JW_space; auto.
  - apply JW_tab; auto.
  - apply (JW_lf 0); auto.
  - pose proof (HC [] (s ++ r) eq_refl) as H10. destruct s as [|c2 s]; [cbn [app] in H10; contradiction|]. cbn in H10. subst c2. apply JW_crlf.
    apply (IH s r); auto; [cbn [length] in HN; lia|exact (Forall_inv_tail HS')|]. apply (cr_suffix [13; 10]). exact HC.
Qed.
Lemma starts_ends r : starts_ws r = false -> ends_ok r.
Proof. destruct r as [|c r]; intros H; [discriminate|]. intros E. cbn in E. subst c. discriminate. Qed.

Definition Qv (d : nat) (b w : str) (n : jnode) : Prop := forall D r, (d <= D)%nat -> cr_before_lf (w ++ r) -> jvalue_text tombi_json D b w n.
Definition Qi (d : nat) (b w : str) (ns : list jnode) : Prop := forall D r, (d <= D)%nat -> cr_before_lf (w ++ [93] ++ r) -> jitems_text tombi_json D b w ns.
Definition Qm (d : nat) (b w : str) (ps : list ((str * range) * jnode)) : Prop := forall D r, (d <= D)%nat -> cr_before_lf (w ++ [125] ++ r) -> jmembers_text tombi_json D b w ps.
Definition Qp (d : nat) (b w : str) (p : (str * range) * jnode) : Prop := forall D r, (d <= D)%nat -> cr_before_lf (w ++ r) -> jmember_text tombi_json D b w p.

Lemma number_zeros z w neg m x : jnumber_text z w neg m x -> jnumber_text true w neg m x.
Proof. intros [neg0 i f fd xt xv Hf Hx [HI|(_ & HI)]]; constructor; auto. Qed.

Lemma rfc_tombi d b w n : jvalue_text rfc_distinct d b w n -> Qv d b w n.
Proof.
  apply (jvalue_text_min rfc_distinct Qv Qi Qm Qp); clear d b w n; unfold Qv, Qi, Qm, Qp.
  - intros. constructor.
  - intros. constructor.
  - intros. constructor.
  - intros. apply JV_number. eapply number_zeros; eauto.
  - intros. apply JV_string. auto.
  - intros d b s Hs [|D] r HD HC; [lia|]. rewrite <- !app_assoc in HC. apply cr_suffix in HC. apply JV_array_empty.
    eapply ws_rfc_tombi; [apply le_n|exact Hs|exact HC|discriminate].
  - intros d b s w ns Hs HG IH [|D] r HD HC; [lia|]. rewrite <- !app_assoc in HC. apply cr_suffix in HC. apply JV_array.
    + eapply ws_rfc_tombi; [apply le_n|exact Hs|exact HC|]. apply starts_ends. eapply items_starts; eauto.
    + apply cr_suffix in HC. eapply IH; [lia|exact HC].
  - intros d b s Hs [|D] r HD HC; [lia|]. rewrite <- !app_assoc in HC. apply cr_suffix in HC. apply JV_object_empty.
    eapply ws_rfc_tombi; [apply le_n|exact Hs|exact HC|discriminate].
  - intros d b s w ns Hs HG IH HND [|D] r HD HC; [lia|]. rewrite <- !app_assoc in HC. apply cr_suffix in HC. apply JV_object; auto.
    + eapply ws_rfc_tombi; [apply le_n|exact Hs|exact HC|]. apply starts_ends. eapply members_starts; eauto.
    + apply cr_suffix in HC. eapply IH; [lia|exact HC].
  - intros d b w n s HV IH Hs D r HD HC. rewrite <- !app_assoc in HC. apply JI_last; [eapply IH; eauto|]. apply cr_suffix in HC.
    eapply ws_rfc_tombi; [apply le_n|exact Hs|exact HC|discriminate].
  - discriminate.
  - intros d b w n s1 s2 u ns HV IH Hs1 Hs2 HG IHs D r HD HC. rewrite <- !app_assoc in HC. apply JI_more; [eapply IH; eauto| | |].
    + apply cr_suffix in HC. eapply ws_rfc_tombi; [apply le_n|exact Hs1|exact HC|discriminate].
    + do 3 apply cr_suffix in HC. eapply ws_rfc_tombi; [apply le_n|exact Hs2|exact HC|]. apply starts_ends. eapply items_starts; eauto.
    + do 4 apply cr_suffix in HC. eapply IHs; eauto.
  - intros d b w n s HV IH Hs D r HD HC. rewrite <- !app_assoc in HC. apply JM_last; [eapply IH; eauto|]. apply cr_suffix in HC.
    eapply ws_rfc_tombi; [apply le_n|exact Hs|exact HC|discriminate].
  - discriminate.
  - intros d b w n s1 s2 u ns HV IH Hs1 Hs2 HG IHs D r HD HC. rewrite <- !app_assoc in HC. apply JM_more; [eapply IH; eauto| | |].
    + apply cr_suffix in HC. eapply ws_rfc_tombi; [apply le_n|exact Hs1|exact HC|discriminate].
    + do 3 apply cr_suffix in HC. eapply ws_rfc_tombi; [apply le_n|exact Hs2|exact HC|]. apply starts_ends. eapply members_starts; eauto.
    + do 4 apply cr_suffix in HC. eapply IHs; eauto.
  - intros d b k key s1 s2 w n HT Hs1 Hs2 HV IH D r HD HC. rewrite <- !app_assoc in HC. apply JMember; [exact HT| | |].
    + apply cr_suffix in HC. eapply ws_rfc_tombi; [apply le_n|exact Hs1|exact HC|discriminate].
    + do 3 apply cr_suffix in HC. eapply ws_rfc_tombi; [apply le_n|exact Hs2|exact HC|]. apply starts_ends. eapply value_starts; eauto.
    + do 4 apply cr_suffix in HC. eapply IH; eauto.
Qed.

(** Every JSON text of RFC 8259 is read as RFC 8259 says, if its objects have distinct names, it is nested at most
    128 deep and every carriage return in it is followed by a line feed.  Missing for the whole claim: single carriage
    returns, and the other direction (see the refutation). *)
Theorem C29_json_rfc_partial seg source d n : seg [] = [] -> json_text rfc_distinct d source n -> (d <= 128)%nat -> cr_before_lf source ->
  jparse seg source = JOk n.
Proof.
  intros Hs H HD HC. apply C29_json_exact; [exact Hs|]. destruct H as [s1 w s2 n Hs1 HG Hs2]. constructor.
  - eapply ws_rfc_tombi; [apply le_n|exact Hs1|exact HC|]. apply starts_ends. eapply value_starts; eauto.
  - apply cr_suffix in HC. eapply rfc_tombi; eauto.
  - do 2 apply cr_suffix in HC. rewrite <- (app_nil_r s2) in HC. eapply ws_rfc_tombi; [apply le_n|exact Hs2|exact HC|discriminate].
Qed.
Print Assumptions C29_json_rfc_partial.

Example C29_json_rfc_example : exists n, json_text rfc_distinct 2 (lit "[true ,{""k"":""""}]") n /\ cr_before_lf (lit "[true ,{""k"":""""}]").
Proof.
  eexists. split.
  - eapply (JsonText rfc_distinct 2 [] (lit "[true ,{""k"":""""}]") []); [constructor| |constructor].
    eapply (JV_array rfc_distinct 1 [] [] (lit "true ,{""k"":""""}")); [constructor|].
    eapply (JI_more rfc_distinct 1 [91] (lit "true") _ [32] [] (lit "{""k"":""""}")); [constructor|apply Forall_cons; [auto|constructor]|constructor|].
    eapply (JI_last rfc_distinct 1 _ (lit "{""k"":""""}") _ []); [|constructor].
    eapply (JV_object rfc_distinct 0 _ [] (lit """k"":""""")); [constructor| |].
    + eapply (JM_last rfc_distinct 0 _ (lit """k"":""""") _ []); [|constructor].
      eapply (JMember rfc_distinct 0 _ (lit """k""") (lit "k") [] [] (lit """""")); [|constructor|constructor|].
      * apply (JStringText (lit "k") (lit "k")). apply JC_plain; [discriminate|discriminate|discriminate|constructor].
      * apply JV_string. apply (JStringText [] []). constructor.
    + intros _. repeat constructor. intros [].
  - intros a b E. exfalso. assert (HI : In 13 (lit "[true ,{""k"":""""}]")) by (rewrite E; apply in_app_iff; right; left; reflexivity).
    vm_compute in HI. repeat destruct HI as [HI|HI]; try discriminate. exact HI.
Qed.

Lemma value_first D d b w n : jvalue_text D d b w n -> exists c w', w = c :: w' /\
  (c = 110 /\ w = lit "null" \/ c = 116 \/ c = 102 \/ (48 <= c <= 57 \/ c = 45) /\ (exists neg m x, jnumber_text (d_zeros D) w neg m x) \/ c = 34 \/ c = 91 \/ c = 123).
Proof.
  intros H. destruct H; try (eexists; eexists; split; [reflexivity|tauto]).
  - destruct (number_chars _ _ _ _ _ H) as (_ & c & w' & -> & Hc). exists c, w'. split; [reflexivity|]. do 3 right. left. eauto.
  - inversion H; subst. eexists; eexists; split; [reflexivity|tauto].
Qed.
(** white space before something that is not white space *)
Lemma ws_nil s r c t : jws_rfc s -> s ++ r = c :: t -> c <> 32 -> c <> 9 -> c <> 10 -> c <> 13 -> s = [] /\ r = c :: t.
Proof.
  intros HS HE. destruct s as [|x s]; [auto|]. cbn in HE. injection HE as -> _. apply Forall_inv in HS. intros. exfalso. lia.
Qed.
Lemma items_inv D d b w ns : jitems_text D d b w ns -> exists w0 n, jvalue_text D d b w0 n /\
  ((exists s, w = w0 ++ s /\ d_ws D s) \/ d_trailing_comma D = true \/
   (exists s1 s2 u b' ns', w = w0 ++ s1 ++ [44] ++ s2 ++ u /\ d_ws D s1 /\ d_ws D s2 /\ jitems_text D d b' u ns')).
Proof. 
  intros H. destruct H as [d b w n s H1 H2|d b w n s1 s2 H1 H2 H3 H4|d b w n s1 s2 u ns H1 H2 H3 H4]; exists w, n; (split; [exact H1|]).
  - left. eauto.
  - right. left. exact H4.
  - right. right. exists s1, s2, u, (b ++ w ++ s1 ++ [44] ++ s2), ns. auto.
Qed.
Lemma items_first D d b w ns : jitems_text D d b w ns -> exists w0 n u, w = w0 ++ u /\ jvalue_text D d b w0 n.
Proof. intros H. destruct H; eauto. Qed.
Lemma comma_not_rfc d n : ~ json_text rfc d (lit "[null,]") n.
Proof.
  intros H. inversion H as [s1 w s2 n0 Hs1 HV Hs2 HE]. clear H. change (lit "[null,]") with (91 :: lit "null,]") in HE.
  apply ws_nil in HE as [-> HE]; [|exact Hs1|discriminate|discriminate|discriminate|discriminate].
  inversion HV; subst; try discriminate.
  - destruct (number_chars _ _ _ _ _ H) as (_ & c & w' & -> & HC). injection HE as -> _. lia.
  - inversion H as [s0 v0 _ HX]. subst w. discriminate.
  - rewrite <- !app_assoc in HE. injection HE as HE. apply ws_nil in HE as [_ HE]; try discriminate. exact H.
  - rewrite <- !app_assoc in HE. injection HE as HE.
    assert (HW : forall d b w n r t, jvalue_text rfc d b w n -> w ++ r = 110 :: t -> w = lit "null").
    { clear. intros d b w n r t HV HE. destruct (value_first _ _ _ _ _ HV) as (c & w' & -> & HC). injection HE as -> _. destruct HC as [[_ HC]|HC]; [exact HC|]. repeat destruct HC as [HC|HC]; try lia. }
    assert (HI : exists c t, w0 = c :: t /\ c <> 32 /\ c <> 9 /\ c <> 10 /\ c <> 13).
    { pose proof (items_starts _ _ _ _ _ [] H0) as HI. rewrite app_nil_r in HI. destruct w0 as [|c t].
      - destruct (items_first _ _ _ _ _ H0) as (w & n1 & u & HX & HV0). destruct (value_first _ _ _ _ _ HV0) as (? & ? & -> & _). discriminate.
      - exists c, t. split; [reflexivity|]. repeat split; intros ->; discriminate. }
    destruct HI as (c & t & -> & HI1 & HI2 & HI3 & HI4).
    destruct s as [|x s]; [|exfalso; cbn in HE; injection HE as HE _; apply Forall_inv in H; rewrite HE in H; lia].
    cbn [app] in HE, H0. remember (c :: t) as u eqn:EU. clear HI1 HI2 HI3 HI4.
    assert (HE' : u ++ [93] ++ s2 = lit "null,]") by (rewrite EU; exact HE). clear HE EU c t.
    destruct (items_inv _ _ _ _ _ H0) as (w & n1 & HV0 & [(s & -> & Hs)|[HX|(s3 & s4 & v & b' & ns' & -> & Hs3 & Hs4 & HIs)]]).
    + rewrite <- !app_assoc in HE'. pose proof (HW _ _ _ _ _ _ HV0 HE'). subst w. cbn [lit app] in HE'. injection HE' as HE'.
      apply ws_nil in HE' as [_ HE']; try discriminate. exact Hs.
    + discriminate.
    + rewrite <- !app_assoc in HE'. pose proof (HW _ _ _ _ _ _ HV0 HE'). subst w. cbn [lit app] in HE'. injection HE' as HE'.
      apply ws_nil in HE' as [_ HE']; try discriminate; [|exact Hs3]. injection HE' as HE'. apply ws_nil in HE' as [_ HE']; try discriminate; [|exact Hs4].
      destruct (items_first _ _ _ _ _ HIs) as (w & n2 & u & -> & HV1).
      destruct (value_first _ _ _ _ _ HV1) as (c & ? & -> & HC); injection HE' as -> _; repeat destruct HC as [HC|HC]; lia.
Qed.
Lemma zeros_not_rfc d n : ~ json_text rfc d (lit "00.5") n.
Proof.
  intros H. inversion H as [s1 w s2 n0 Hs1 HV Hs2 HE]. clear H. change (lit "00.5") with (48 :: lit "0.5") in HE.
  apply ws_nil in HE as [-> HE]; [|exact Hs1|discriminate|discriminate|discriminate|discriminate].
  destruct (value_first _ _ _ _ _ HV) as (c & w' & EW & HC). rewrite EW in HE. injection HE as -> HE.
  assert (HN : exists neg m x, jnumber_text false w neg m x) by (destruct HC as [[HC _]|[HC|[HC|[[_ HC]|HC]]]]; [lia|lia|lia|exact HC|lia]).
  destruct HN as (neg & m & x & HN). inversion HN as [neg0 i f fd xt xv Hf Hx HI]. subst. destruct HI as [[HI1 HI2]|[HI _]]; [|discriminate].
  destruct neg; [discriminate|]. cbn [app] in H. destruct i as [|c i]; [destruct HI1 as [HI1 _]; contradiction|]. injection H as -> EW.
  specialize (HI2 eq_refl). injection HI2 as ->. cbn [app] in EW. subst w'.
  destruct Hf as [|f Hf]; [|discriminate]. destruct Hx as [|? ? [->| ->] _|? ? [->| ->] _|? ? [->| ->] _]; try discriminate.
  cbn [app] in HE. rewrite HE in Hs2. apply Forall_inv in Hs2. cbn in Hs2. lia.
Qed.

(** a single carriage return is white space of RFC 8259 and is rejected; a trailing comma and zeros before a fraction
    are accepted *)
Theorem C29_json_rfc_refuted :
  (exists n, json_text rfc_distinct 1 (lit "[" ++ [13] ++ lit "]") n /\ exists e, jparse seg1 (lit "[" ++ [13] ++ lit "]") = JErr e) /\
  (exists n, jparse seg1 (lit "[null,]") = JOk n /\ forall d n', ~ json_text rfc d (lit "[null,]") n') /\
  (exists n, jparse seg1 (lit "00.5") = JOk n /\ forall d n', ~ json_text rfc d (lit "00.5") n').
Proof.
  split; [|split].
  - exists (JArrayNode [] (jplace [] ([91] ++ [13] ++ [93]))). split; [|eexists; vm_compute; reflexivity].
    change (lit "[" ++ [13] ++ lit "]") with ([] ++ ([91] ++ [13] ++ [93]) ++ []). constructor; [constructor| |constructor].
    apply JV_array_empty. apply Forall_cons; [auto|apply Forall_nil].
  - eexists. split; [vm_compute; reflexivity|]. intros d n'. apply comma_not_rfc.
  - eexists. split; [vm_compute; reflexivity|]. intros d n'. apply zeros_not_rfc.
Qed.
Print Assumptions C29_json_rfc_refuted.

(** ** Numbers *)
(** the decimal number [m * 10^x] as a fraction *)
Definition dec_num (m : N) (x : Z) : N := m * 10 ^ Z.to_N x.
Definition dec_den (x : Z) : N := 10 ^ Z.to_N (- x).
(** [k] is plus or minus [M * 2^E], as an integer if it is whole and in the range of [i64] *)
Definition number_is (neg : bool) (M : N) (E : Z) (k : jnumber) : Prop :=
  match k with
  | JFloat v => v = Fin neg M E
  | JInteger z =>
      (- 2 ^ 63 <= z < 2 ^ 63)%Z /\
      (M * 2 ^ Z.to_N (E + 1074) = Z.abs_N z * 2 ^ 1074 /\ (z <> 0 -> (z < 0 <-> neg = true))%Z
       (* [value as i64] saturates *)
       \/ M * 2 ^ Z.to_N (E + 1074) = 2 ^ 63 * 2 ^ 1074 /\ neg = false /\ z = (2 ^ 63 - 1)%Z)
  end.

Lemma whole_spec M E w : (-1074 <= E)%Z -> f64_whole M E = Some w -> M * 2 ^ Z.to_N (E + 1074) = w * 2 ^ 1074.
Proof.
  intros HE. unfold f64_whole. destruct (Z.leb_spec 0 E) as [H|H].
  - intros HW. injection HW as <-. rewrite <- N.mul_assoc, <- N.pow_add_r. do 2 f_equal. lia.
  - cbn zeta. destruct (N.eqb_spec (M mod 2 ^ Z.to_N (- E)) 0) as [HM|HM]; [|discriminate]. intros HW. injection HW as <-.
    replace (2 ^ 1074) with (2 ^ Z.to_N (- E) * 2 ^ Z.to_N (E + 1074)) by (rewrite <- N.pow_add_r; f_equal; lia).
    rewrite N.mul_assoc. f_equal. pose proof (pow_pos (Z.to_N (- E))) as HP.
    pose proof (N.div_mod M (2 ^ Z.to_N (- E)) ltac:(lia)) as HD. lia.
Qed.
Lemma whole_exact M E w : (-1074 <= E)%Z -> M * 2 ^ Z.to_N (E + 1074) = w * 2 ^ 1074 -> f64_whole M E = Some w.
Proof.
  intros HE HW. unfold f64_whole. destruct (Z.leb_spec 0 E) as [H|H].
  - f_equal. apply (N.mul_cancel_r _ _ (2 ^ 1074)); [pose proof (pow_pos 1074); lia|]. rewrite <- HW, <- N.mul_assoc, <- N.pow_add_r. do 2 f_equal. lia.
  - cbn zeta. assert (HM : M = w * 2 ^ Z.to_N (- E)).
    { apply (N.mul_cancel_r _ _ (2 ^ Z.to_N (E + 1074))); [pose proof (pow_pos (Z.to_N (E + 1074))); lia|]. rewrite HW, <- N.mul_assoc, <- N.pow_add_r. do 2 f_equal. lia. }
    pose proof (pow_pos (Z.to_N (- E))) as HP. rewrite HM, N.mod_mul by lia. cbn [N.eqb]. rewrite N.div_mul by lia. reflexivity.
Qed.
Lemma from_f64_is neg M E : (-1074 <= E)%Z -> number_is neg M E (number_from_f64 (Fin neg M E)).
Proof.
  intros HE. unfold number_from_f64. destruct (f64_whole M E) as [w|] eqn:EW; [|reflexivity]. apply whole_spec in EW; [|exact HE].
  cbn zeta. destruct (_ && _)%Z eqn:EB; [|reflexivity]. apply andb_true_iff in EB as [E1 E2]. apply Z.leb_le in E1, E2. cbn [number_is].
  destruct neg.
  - split; [lia|]. left. rewrite EW. split; [f_equal; lia|lia].
  - split; [lia|]. destruct (Z.eq_dec (Z.of_N w) (2 ^ 63)) as [HX|HX].
    + right. rewrite EW. split; [f_equal; lia|]. split; [reflexivity|lia].
    + left. rewrite EW. split; [f_equal; lia|lia].
Qed.

(** A number of a JSON text is the nearest [f64] (of two equally near ones the one with an even mantissa); a number
    that is too large for an [f64] is read as the integer zero. *)
Theorem C29_number_rounding seg w neg m x : seg [] = [] -> jnumber_text false w neg m x -> 0 < m ->
  exists k, jparse seg w = JOk (JNumberNode k (jplace [] w)) /\
  ((2 ^ 54 - 1) * 2 ^ 971 * dec_den x <= 2 * dec_num m x /\ k = JInteger 0 \/
   2 * dec_num m x < (2 ^ 54 - 1) * 2 ^ 971 * dec_den x /\
   exists M E, f64_finite M E /\ number_is neg M E k /\
     forall M' E', f64_finite M' E' ->
       f64_dist (dec_num m x) (dec_den x) M E <= f64_dist (dec_num m x) (dec_den x) M' E' /\
       (f64_dist (dec_num m x) (dec_den x) M E = f64_dist (dec_num m x) (dec_den x) M' E' ->
        M' * 2 ^ Z.to_N (E' + 1074) = M * 2 ^ Z.to_N (E + 1074) \/ N.even M = true)).
Proof.
  intros Hs HN Hm. exists (jnumber_value neg m x). split.
  - apply C29_json_exact; [exact Hs|]. replace (json_text tombi_json 128 w) with (json_text tombi_json 128 ([] ++ w ++ [])) by (rewrite app_nil_r; reflexivity).
    constructor; [constructor| |constructor]. apply JV_number. eapply number_zeros; eauto.
  - unfold jnumber_value, f64_of_decimal. fold (dec_num m x) (dec_den x).
    assert (H10 : forall k, 0 < 10 ^ k) by (intros; apply N.neq_0_lt_0, N.pow_nonzero; discriminate).
    assert (Ha : 0 < dec_num m x) by (unfold dec_num; apply N.mul_pos_pos; auto).
    assert (Hb : 0 < dec_den x) by apply H10.
    pose proof (f64_round_nearest neg _ _ Ha Hb) as HR. destruct (f64_round neg (dec_num m x) (dec_den x)) as [s M E|s].
    + destruct HR as (-> & HF & HD & HB). right. split; [exact HB|]. exists M, E. split; [exact HF|]. split; [|exact HD].
      apply from_f64_is. apply HF.
    + destruct HR as [-> HB]. left. auto.
Qed.
Print Assumptions C29_number_rounding.
Example C29_number_rounding_example : jnumber_text false (lit "-1.5e3") true 15 2 /\
  jparse seg1 (lit "-1.5e3") = JOk (JNumberNode (JInteger (-1500)) (jplace [] (lit "-1.5e3"))) /\
  jparse seg1 (lit "0.1") = JOk (JNumberNode (JFloat (Fin false 7205759403792794 (-56))) (jplace [] (lit "0.1"))).
Proof.
  split; [|split; vm_compute; reflexivity].
  apply (JNumberText false true [49] [46; 53] [53] [101; 51] 3).
  - apply JF_some. split; [discriminate|]. repeat constructor; lia.
  - apply (JX_plain 101 [51]); [auto|]. split; [discriminate|]. repeat constructor; lia.
  - left. split; [split; [discriminate|repeat constructor; lia]|]. cbn. discriminate.
Qed.

Lemma from_f64_exact neg M E w : (-1074 <= E)%Z -> M * 2 ^ Z.to_N (E + 1074) = w * 2 ^ 1074 -> w <= 2 ^ 53 ->
  number_from_f64 (Fin neg M E) = JInteger (if neg then - Z.of_N w else Z.of_N w).
Proof.
  intros HE HW Hw. unfold number_from_f64. rewrite (whole_exact M E w HE HW). cbn zeta.
  assert (Hz : (- 2 ^ 53 <= (if neg then - Z.of_N w else Z.of_N w) <= 2 ^ 53)%Z) by (destruct neg; lia).
  rewrite (proj2 (Z.leb_le _ _)) by lia. rewrite (proj2 (Z.leb_le _ _)) by lia. cbn [andb]. f_equal. lia.
Qed.

(** a number whose value is an integer of at most 2^53 is read exactly *)
Lemma value_exact neg m x z : z <= 2 ^ 53 -> dec_num m x = z * dec_den x -> jnumber_value neg m x = JInteger (if neg then - Z.of_N z else Z.of_N z).
Proof.
  intros Hz HV. unfold jnumber_value, f64_of_decimal. fold (dec_num m x) (dec_den x).
  assert (Hb : 0 < dec_den x) by (unfold dec_den; apply N.neq_0_lt_0, N.pow_nonzero; discriminate).
  destruct (N.eq_dec z 0) as [->|Hz0].
  { rewrite HV. cbn [N.mul]. unfold f64_round. cbn [N.eqb]. destruct neg; vm_compute; reflexivity. }
  assert (Ha : 0 < dec_num m x) by (rewrite HV; apply N.mul_pos_pos; lia).
  pose proof (f64_round_nearest neg _ _ Ha Hb) as HR. destruct (f64_round neg (dec_num m x) (dec_den x)) as [s M E|s].
  - destruct HR as (-> & HF & HD & _). apply from_f64_exact; [apply HF| |exact Hz].
    assert (HZ : exists M' E', f64_finite M' E' /\ M' * 2 ^ Z.to_N (E' + 1074) = z * 2 ^ 1074).
    { destruct (N.eq_dec z (2 ^ 53)) as [->|HZ].
      - exists (2 ^ 52), 1%Z. split; [split; [reflexivity|lia]|]. rewrite <- !N.pow_add_r. f_equal.
      - exists z, 0%Z. split; [split; [lia|lia]|reflexivity]. }
    destruct HZ as (M' & E' & HF' & HE'). destruct (HD M' E' HF') as [HD1 _]. unfold f64_dist in HD1. rewrite HE', HV in HD1.
    replace (z * dec_den x * 2 ^ 1074) with (dec_den x * (z * 2 ^ 1074)) in HD1 by (generalize (2 ^ 1074); intros; lia).
    rewrite !(ndist_mul (dec_den x)) in HD1. revert HD1. generalize (z * 2 ^ 1074) (M * 2 ^ Z.to_N (E + 1074)). intros A B HD1.
    assert (H0 : ndist A A = 0) by (unfold ndist; lia). rewrite H0, N.mul_0_r in HD1.
    assert (ndist A B = 0) by (apply N.le_0_r, N.eq_mul_0_r in HD1; lia). unfold ndist in H. lia.
  - exfalso. destruct HR as [_ HR]. rewrite HV in HR.
    assert (2 ^ 54 * (2 * dec_den x) <= 2 ^ 54 * (2 * dec_den x)) by lia.
    assert (HB : 2 * z < (2 ^ 54 - 1) * 2 ^ 971) by (apply N.le_lt_trans with (2 * 2 ^ 53); [lia|reflexivity]).
    revert HR HB. generalize ((2 ^ 54 - 1) * 2 ^ 971). intros p HR HB. nia.
Qed.

(** Integers of at most 2^53 are read exactly, whatever way they are written ("1e3" is 1000).  Missing for the whole
    claim: larger integers, which are first rounded (see the refutation). *)
Theorem C29_integer_exact_partial seg w neg m x z : seg [] = [] -> jnumber_text false w neg m x ->
  dec_num m x = z * dec_den x -> z <= 2 ^ 53 ->
  jparse seg w = JOk (JNumberNode (JInteger (if neg then - Z.of_N z else Z.of_N z)) (jplace [] w)).
Proof.
  intros Hs HN HV Hz. apply C29_json_exact; [exact Hs|].
  replace (json_text tombi_json 128 w) with (json_text tombi_json 128 ([] ++ w ++ [])) by (rewrite app_nil_r; reflexivity).
  constructor; [constructor| |constructor]. rewrite <- (value_exact neg m x z Hz HV). apply JV_number. eapply number_zeros; eauto.
Qed.
Print Assumptions C29_integer_exact_partial.
(** [9007199254740993] is read as [9007199254740992], [1e999] as [0] and [9223372036854775808] as [9223372036854775807] *)
Theorem C29_integer_exact_refuted :
  (exists r, jparse seg1 (lit "9007199254740993") = JOk (JNumberNode (JInteger 9007199254740992) r)) /\
  (exists r, jparse seg1 (lit "1e999") = JOk (JNumberNode (JInteger 0) r)) /\
  (exists r, jparse seg1 (lit "9223372036854775808") = JOk (JNumberNode (JInteger 9223372036854775807) r)).
Proof. repeat split; eexists; vm_compute; reflexivity. Qed.
Print Assumptions C29_integer_exact_refuted.

(** ** Printing *)
(** values whose text is JSON: no objects and no floating-point numbers, integers of at most 2^53, strings without
    control characters, quotes and backslashes; [d] is the nesting depth *)
Inductive printable : nat -> jvalue -> Prop :=
| P_null d : printable d JNull
| P_bool d b : printable d (JBool b)
| P_int d z : (- 2 ^ 53 <= z <= 2 ^ 53)%Z -> printable d (JNumber (JInteger z))
| P_string d s : Forall (fun c => 32 <= c /\ c <> 34 /\ c <> 92) s -> printable d (JString s)
| P_array d vs : Forall (printable d) vs -> printable (S d) (JArray vs).

Lemma plain_chars s : Forall (fun c => 32 <= c /\ c <> 34 /\ c <> 92) s -> jchars s s.
Proof. induction 1 as [|c s (H1 & H2 & H3) H IH]; constructor; auto. Qed.

Lemma positional_hd (w : str) : Forall (fun c => 48 <= c <= 57) w -> w <> [] -> (length w = 1%nat \/ 10 ^ N.of_nat (length w - 1) <= positional 10 w) -> hd 0 w = 48 -> w = [48].
Proof.
  intros HF HN HL H0. destruct w as [|c w]; [contradiction|]. cbn in H0. subst c. destruct w as [|c w]; [reflexivity|]. exfalso.
  destruct HL as [HL|HL]; [discriminate|]. cbn [length] in HL. replace (N.of_nat (S (S (length w)) - 1)) with (N.of_nat (length (c :: w))) in HL by (cbn [length]; lia).
  rewrite positional_cons in HL by (try lia; exact (Forall_inv_tail HF)). change (48 - 48) with 0 in HL. rewrite N.mul_0_l, N.add_0_l in HL.
  pose proof (positional_bound10 (c :: w) (Forall_inv_tail HF)) as HB. lia.
Qed.
Lemma show_Z_text z : jnumber_text false (show_Z z) (z <? 0)%Z (Z.abs_N z) 0.
Proof.
  unfold show_Z. assert (HD : forall n, jint_text (decimal n) /\ positional 10 (decimal n) = n).
  { intros n. destruct (decimal_spec n) as (w & -> & HN & HF & HP & HL). split; [|exact HP]. split; [split; assumption|]. intros H. apply positional_hd; auto. rewrite HP. exact HL. }
  destruct (Z.ltb_spec z 0) as [H|H].
  - replace (Z.abs_N z) with (Z.to_N (- z)) by lia. destruct (HD (Z.to_N (- z))) as [H1 H2].
    pose proof (JNumberText false true (decimal (Z.to_N (- z))) [] [] [] 0 JF_none JX_none (or_introl H1)) as HX. rewrite !app_nil_r, H2 in HX. exact HX.
  - replace (Z.abs_N z) with (Z.to_N z) by lia. destruct (HD (Z.to_N z)) as [H1 H2].
    pose proof (JNumberText false false (decimal (Z.to_N z)) [] [] [] 0 JF_none JX_none (or_introl H1)) as HX. rewrite !app_nil_r, H2 in HX. exact HX.
Qed.

(** induction on nodes *)
Fixpoint jnode_size (n : jnode) : nat :=
  match n with
  | JArrayNode xs _ => S (list_sum (map jnode_size xs))
  | JObjectNode ps _ => S (list_sum (map (fun p => jnode_size (snd p)) ps))
  | _ => 1
  end.
Lemma size_in x xs : In x xs -> (jnode_size x <= list_sum (map jnode_size xs))%nat.
Proof. induction xs as [|y xs IH]; intros H; [destruct H|]. destruct H as [->|H]; cbn [map list_sum fold_right]; [lia|]. apply IH in H. unfold list_sum in *. lia. Qed.

Lemma show_text show_f64 : forall k n d, (jnode_size n <= k)%nat -> printable d (j_value n) ->
  forall b, exists n', jvalue_text tombi_json d b (j_show show_f64 n) n' /\ j_value n' = j_value n.
Proof.
  induction k as [|k IH]; intros n d HK HP b; [destruct n; cbn [jnode_size] in HK; lia|].
  destruct n as [r|v r|v r|v r|xs r|ps r]; cbn [j_value] in HP |- *.
  - eexists. split; [constructor|reflexivity].
  - destruct v; eexists; (split; [constructor|reflexivity]).
  - inversion HP as [| |d0 z HZ| |]; subst. cbn [j_show show_number].
    pose proof (number_zeros _ _ _ _ _ (show_Z_text z)) as HT. eexists. split; [apply JV_number; exact HT|]. cbn [j_value]. f_equal.
    rewrite (value_exact _ _ _ (Z.abs_N z)); [|lia|reflexivity]. f_equal. destruct (Z.ltb_spec z 0); lia.
  - inversion HP as [| | |d0 s HS|]; subst. cbn [j_show]. eexists. split; [apply JV_string; constructor; apply plain_chars; exact HS|reflexivity].
  - inversion HP as [| | | |d0 vs HF]; subst. cbn [j_show]. destruct xs as [|x xs].
    + exists (JArrayNode [] (jplace b ([91] ++ [] ++ [93]))). split; [apply (JV_array_empty tombi_json d0 b []); constructor|reflexivity].
    + assert (HI : forall xs x b, (forall y, In y (x :: xs) -> (jnode_size y <= k)%nat) -> Forall (printable d0) (map j_value (x :: xs)) ->
        exists ns, jitems_text tombi_json d0 b (j_join (lit ", ") (map (j_show show_f64) (x :: xs))) ns /\ map j_value ns = map j_value (x :: xs)).
      { clear - IH. induction xs as [|y xs IHx]; intros x b HS HF.
        - destruct (IH x d0) with (b := b) as (n' & H1 & H2); [apply HS; left; reflexivity|exact (Forall_inv HF)|].
          exists [n']. cbn [map j_join]. split; [|rewrite H2; reflexivity]. rewrite <- (app_nil_r (j_show show_f64 x)). apply JI_last; [exact H1|constructor].
        - destruct (IH x d0) with (b := b) as (n' & H1 & H2); [apply HS; left; reflexivity|exact (Forall_inv HF)|].
          destruct (IHx y (b ++ j_show show_f64 x ++ [] ++ [44] ++ [32])) as (ns & H3 & H4).
          { intros z HZ. apply HS. right. exact HZ. }
          { exact (Forall_inv_tail HF). }
          exists (n' :: ns). split; [|cbn [map] in H4 |- *; rewrite H2, H4; reflexivity].
          change (j_join (lit ", ") (map (j_show show_f64) (x :: y :: xs))) with (j_show show_f64 x ++ [] ++ [44] ++ [32] ++ j_join (lit ", ") (map (j_show show_f64) (y :: xs))).
          apply JI_more; [exact H1|constructor|apply JW_space; constructor|exact H3]. }
      destruct (HI xs x (b ++ [91] ++ [])) as (ns & H1 & H2); [|exact HF|].
      { intros y HY. apply size_in in HY. cbn [jnode_size] in HK. lia. }
      eexists. split; [apply (JV_array tombi_json d0 b [] _ ns); [constructor|exact H1]|]. cbn [j_value]. rewrite H2. reflexivity.
  - inversion HP.
Qed.

(** What is printed from a value is read as the same value.  Missing: objects, floating-point numbers, and strings
    that need escapes (see the refutation). *)
Theorem C29_display_partial show_f64 seg n : seg [] = [] -> printable 128 (j_value n) ->
  exists n', jparse seg (j_show show_f64 n) = JOk n' /\ j_value n' = j_value n.
Proof.
  intros Hs HP. destruct (show_text show_f64 (jnode_size n) n 128 (le_n _) HP []) as (n' & H1 & H2). exists n'. split; [|exact H2].
  apply C29_json_exact; [exact Hs|]. replace (json_text tombi_json 128 (j_show show_f64 n)) with (json_text tombi_json 128 ([] ++ j_show show_f64 n ++ [])) by (rewrite app_nil_r; reflexivity).
  constructor; [constructor|exact H1|constructor].
Qed.
Print Assumptions C29_display_partial.
Example C29_display_example : forall show_f64, exists n, jparse seg1 (lit "[null,[-7,""x""],true]") = JOk n /\ printable 128 (j_value n) /\
  j_show show_f64 n = lit "[null, [-7, ""x""], true]".
Proof.
  intros show. eexists. split; [vm_compute; reflexivity|]. split; [|reflexivity]. cbn [j_value map].
  repeat (constructor; try lia). all: try discriminate.
Qed.

(** [{"a":1}] is printed as [{a: 1}] and the string of one quote as three quotes; neither can be read *)
Theorem C29_display_refuted show_f64 :
  (exists n, jparse seg1 (lit "{""a"":1}") = JOk n /\ exists e, jparse seg1 (j_show show_f64 n) = JErr e) /\
  (exists n, jparse seg1 (lit """\""""") = JOk n /\ exists e, jparse seg1 (j_show show_f64 n) = JErr e).
Proof.
  split; (eexists; split; [vm_compute; reflexivity|]).
  - change (j_show show_f64 _) with (lit "{a: 1}"). eexists. vm_compute. reflexivity.
  - change (j_show show_f64 _) with (lit """"""""). eexists. vm_compute. reflexivity.
Qed.
Print Assumptions C29_display_refuted.
