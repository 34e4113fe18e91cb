(** A text that is a layout of a document is read as that document. *)
From Coq Require Import String Ascii List NArith ZArith Bool Arith Lia.
From Verif Require Import Base SyntaxKind TextModel LexerModel LexerSpec DateTimeModel DateTimeSpec DateTimeTokens LexerProofs LexSound ParserModel ParserInv ParserPrims ParserProps ParserAccepts ParserAcceptsProps AstModel FormatPieces FormatterModel FormatterLayout FormatterSpec
  FormatterProofs FormatterProps FormatterTextProps TomlGrammar LexLocal FormatterRelex FormatterRelexProps ParseBack ParseBackProofs ReadBack TextTreeModel TextTreeProofs.
Import ListNotations.
Open Scope N_scope.
Open Scope list_scope.

(** Keys and literals are written as they are, and there are no comments. *)
Definition no_comment (c c' : str) : Prop := False.
Definition as_key (k : fkey) (p : piece) : Prop := p = k /\ key_kind (fst k) = true.
Definition as_literal (k : kind) (w : str) (p : piece) : Prop := p = (k, w).

Lemma content_good p : content_ok p -> good_token p.
Proof.
  destruct p as [k w]. unfold good_token. cbn [fst snd]. intros H.
  assert (V : value_text k w -> text_ok k w).
  { intros HV. apply lexable_text. exists (cursor_new w), []. split; [cbn; rewrite app_nil_r; reflexivity|]. apply (relex_value k w []); [exact HV|exact I|destruct k; exact I|cbn; rewrite app_nil_r; reflexivity]. }
  destruct k; unfold content_ok in H; cbn [fst snd] in H; try (right; apply V; exact H); try (left; reflexivity); right; cbn [text_ok].
  all: try (destruct H as (x & HS & ->); injection HS as <-; reflexivity).
  all: try contradiction. all: try exact I.
  apply text_comment_iff. exact H.
Qed.

Lemma contents_layout limit gap rgap d qs : wf_doc d = true -> lay_root [10] limit no_comment as_key as_literal gap rgap d qs -> good_tokens (doc_content d) -> filter is_content qs = doc_content d.
Proof.
  intros HW HL HG. enough (HF : Forall2 eq (doc_content d) (filter is_content qs)) by (symmetry; clear -HF; induction HF; [reflexivity|f_equal; assumption]).
  eapply root_content; [| | | |exact HL|exact HW|exact HG].
  - intros c c' _ [].
  - intros k p Hk _ [-> _]. split; [reflexivity|]. destruct k as [k w]. cbn [fst] in Hk. destruct k; try discriminate Hk; reflexivity.
  - intros k s p Hk _ ->. split; [reflexivity|]. destruct k; try discriminate Hk; reflexivity.
  - reflexivity.
Qed.

(** * Documents with the same data have the same bare keys *)
Lemma same_punct p : fst p = DOT \/ fst p = EQUAL -> same_token p p.
Proof. unfold same_token. intros [-> | ->]; reflexivity. Qed.
Lemma same_opening b : same_token (opening b) (opening b). Proof. destruct b; reflexivity. Qed.
Lemma same_closing b : same_token (closing b) (closing b). Proof. destruct b; reflexivity. Qed.
Lemma keys_paired ks ks' : Forall2 same_token ks ks' -> Forall2 same_token (keys_content ks) (keys_content ks').
Proof.
  induction 1 as [|k k' ks ks' H1 H2 IH]; [constructor|]. cbn [keys_content]. destruct H2 as [|k1 k1' ks ks' H2 H3]; [constructor; [exact H1|constructor]|].
  constructor; [exact H1|]. constructor; [reflexivity|exact IH].
Qed.
Definition paired (x : fval) : Prop := forall x', same_value x x' -> Forall2 same_token (vpieces x) (vpieces x').
Lemma items_paired its : Forall (fun i => paired (ival i)) its -> forall its', Forall2 same_item its its' -> Forall2 same_token (bpieces its) (bpieces its').
Proof.
  induction 1 as [|i its HA HF IH]; intros its' H; inversion H as [|i0 i' its0 its'' H1 H2]; subst; [constructor|]. clear H. unfold bpieces. cbn [flat_map]. apply Forall2_app; [|exact (IH _ H2)].
  inversion H1 as [l ks r x c l' ks' r' x' c' K1 K2]; subst. cbn [ival] in HA. specialize (HA _ K2). destruct K1 as [|k k' ks ks' K1 K3]; [exact HA|]. unfold ipieces.
  apply Forall2_app; [apply keys_paired; constructor; assumption|]. constructor; [reflexivity|exact HA].
Qed.
Lemma value_paired x : paired x.
Proof.
  induction x as [lead k w tc|table lead otc gs tc HG] using fval_ind'; intros x' H.
  - inversion H as [l0 k0 w0 t0 lead' k' w' tc' HS|]; subst. constructor; [exact HS|constructor].
  - inversion H as [|t0 l0 o0 g0 c0 lead' otc' gs' tc' HS]; subst. rewrite !vpieces_box. constructor; [apply same_opening|]. apply Forall2_app; [apply (items_paired _ (all_items _ _ HG) _ HS)|]. constructor; [apply same_closing|constructor].
Qed.
Lemma body_paired its its' : Forall2 same_item its its' -> Forall2 same_token (bpieces its) (bpieces its').
Proof. apply items_paired. apply Forall_forall. intros i _. apply value_paired. Qed.
Lemma tables_paired ts ts' : Forall2 same_table ts ts' -> Forall2 same_token (flat_map tpieces ts) (flat_map tpieces ts').
Proof.
  induction 1 as [|t t' ts ts' (H1 & H2 & H3) HF IH]; [constructor|]. cbn [flat_map]. apply Forall2_app; [|exact IH]. unfold tpieces. rewrite <- H1.
  apply Forall2_app; [destruct (t_array t); repeat (apply Forall2_cons; [reflexivity|]); apply Forall2_nil|]. apply Forall2_app; [apply keys_paired; exact H2|].
  apply Forall2_app; [destruct (t_array t); repeat (apply Forall2_cons; [reflexivity|]); apply Forall2_nil|]. apply body_paired. exact H3.
Qed.
Lemma forall2_in {A B} (R : A -> B -> Prop) l l' b : Forall2 R l l' -> In b l' -> exists a, In a l /\ R a b.
Proof. induction 1 as [|x y l l' H HF IH]; intros HI; [destruct HI|]. destruct HI as [-> |HI]; [exists x; split; [left; reflexivity|exact H]|]. destruct (IH HI) as (a & H1 & H2). exists a. split; [right; exact H1|exact H2]. Qed.
Lemma same_bare_keys d d' w : wf_doc d = true -> wf_doc d' = true -> same_data d d' -> In (BARE_KEY, w) (doc_content d') -> In (BARE_KEY, w) (doc_content d).
Proof.
  intros HW HW' [H1 H2] HI. assert (HI' : In (BARE_KEY, w) (filter plain (doc_content d'))) by (apply filter_In; split; [exact HI|reflexivity]). rewrite plain_doc in HI' by exact HW'.
  destruct (forall2_in _ _ _ _ (Forall2_app (body_paired _ _ H1) (tables_paired _ _ H2)) HI') as (p & HP & HS). rewrite <- plain_doc in HP by exact HW. apply filter_In in HP as [HP _].
  destruct p as [k u]. unfold same_token in HS. cbn [fst snd] in HS. destruct k; first [discriminate HS|destruct HS as [HS _]; discriminate HS|destruct HS as [[HS|HS] _]; discriminate HS|injection HS as <-; exact HP].
Qed.
Lemma same_refl p : content_ok p -> same_token p p.
Proof.
  intros HC. pose proof (content_good p HC) as HG. destruct p as [k w]. unfold same_token, good_token in *. cbn [fst snd] in *. destruct HG as [-> |HG]; [reflexivity|].
  assert (HD : dt_kind k -> k = k /\ exists a c c' b, w = a ++ [c] ++ b /\ w = a ++ [c'] ++ b /\ length a = 10%nat /\ date_time_delimiter c /\ date_time_delimiter c').
  { intros HK. split; [reflexivity|]. destruct (formatted_shape k w DelimT HK HG) as (a & c & c' & b & E1 & _ & L & _ & D & _).
    assert (D' : date_time_delimiter c) by (unfold delim, date_time_delimiter in *; lia). exists a, c, c, b. auto 7. }
  destruct k; try reflexivity; first [apply HD; unfold dt_kind; auto|split; [auto|split; [exact HG|reflexivity]]|split; [reflexivity|split; [exact HC|reflexivity]]].
Qed.
Lemma toml_key_bare w : toml_key w -> toml_bare_key w.
Proof.
  intros [HN HF]. split; [exact HN|]. apply Forall_forall. intros c Hc. rewrite forallb_forall in HF. specialize (HF c Hc). revert HF. unfold bare_char, in_range. rewrite ?orb_true_iff, ?andb_true_iff, ?N.leb_le, ?N.eqb_eq. lia.
Qed.

(** the comments of a reading are those of the tokens *)
Lemma comments_in ps qs c : reading ps qs -> In (COMMENT, c) qs -> In (COMMENT, c) ps.
Proof.
  induction 1 as [|p ps qs H IH|k w ps qs HK HD H IH|u w ps qs HU HV H IH]; intros HC; [destruct HC| | |].
  - destruct HC as [-> |HC]; [left; reflexivity|right; exact (IH HC)].
  - destruct HC as [E|HC]; [discriminate E|right; exact (IH HC)].
  - destruct HC as [E|[E|[E|HC]]]; try discriminate E. right. exact (IH HC).
Qed.
Lemma comments_out ps qs c : reading ps qs -> In (COMMENT, c) ps -> In (COMMENT, c) qs.
Proof.
  induction 1 as [|p ps qs H IH|k w ps qs HK HD H IH|u w ps qs HU HV H IH]; intros HC; [destruct HC| | |].
  - destruct HC as [-> |HC]; [left; reflexivity|right; exact (IH HC)].
  - destruct HC as [E|HC]; [injection E as -> _; cbn in HK; intuition discriminate|right; exact (IH HC)].
  - destruct HC as [E|HC]; [discriminate E|]. right. right. right. exact (IH HC).
Qed.

(** * A layout is read *)
Theorem layout_read seg stack limit gap rgap d qs : seg [] = [] -> (128 < stack)%nat -> wf_doc d = true -> (dnest d <= MAX_RECURSION_DEPTH)%nat ->
  lay_root [10] limit no_comment as_key as_literal gap rgap d qs -> Forall content_ok (doc_content d) -> match qs with [] => True | p :: _ => fst p <> WHITESPACE end ->
  exists l crlf d', lex seg (ptext (if nonempty qs then qs ++ [nl [10]] else [])) = Some l /\ ~ float_after_blanks (ptext (if nonempty qs then qs ++ [nl [10]] else [])) (tokens l) /\
    read seg stack (ptext (if nonempty qs then qs ++ [nl [10]] else [])) = Done (Some (crlf, d')) /\ same_data d d' /\ (forall w, In (BARE_KEY, w) (doc_content d') -> toml_bare_key w) /\
    (forall c, In (COMMENT, c) (doc_content d') -> In (COMMENT, c) (doc_content d)).
Proof.
  intros Hs Hst HW HD HLY HC HQ. assert (HG : good_tokens (doc_content d)) by (eapply Forall_impl; [|exact HC]; exact content_good).
  pose proof (contents_layout _ _ _ _ _ HW HLY HG) as EC. set (ps := if nonempty qs then qs ++ [nl [10]] else []).
  assert (EC' : filter is_content ps = doc_content d) by (unfold ps; destruct (nonempty qs) eqn:EN; [rewrite filter_app, EC; cbn; apply app_nil_r|destruct qs; [exact EC|discriminate EN]]).
  assert (HN : neat [10] ps).
  { unfold ps. destruct (nonempty qs); [|exact I]. eapply root_neat; [| |exact HLY|exact HW|split; [reflexivity|exact I]|exact I].
    - intros k p [-> Hk]. exact Hk.
    - intros k s p Hk ->. exact Hk. }
  assert (HS : csafe ps).
  { unfold ps. destruct (nonempty qs); [|exact I]. eapply root_comments; [| |exact HLY|exact HW| |reflexivity].
    - intros k p [-> Hk] E. rewrite E in Hk. discriminate Hk.
    - intros k s p Hk -> E. cbn in E. subst k. discriminate Hk.
    - split; [discriminate|exact I]. }
  assert (HCO : contents_ok ps) by (unfold contents_ok; rewrite EC'; exact HC).
  destruct (relexed [10] (or_introl eq_refl) (length ps) ps (le_n _) HN HS HCO (cursor_new (ptext ps)) eq_refl) as (ts & HT & HR).
  destruct (toks_lex seg (ptext ps) ts Hs HT) as (HSP & l & HL & HE). pose proof (toks_no_eof _ _ HT) as HNE.
  assert (HP : exists B S, sig (tokens l) = B ++ S ++ [(EOF, false)] /\ alines B /\ asections S).
  { assert (HM : map tkind (tokens l) = map fst ts ++ [EOF]).
    { unfold source_pieces in HSP. rewrite HL in HSP. apply (f_equal (map fst)) in HSP. rewrite map_map, map_app in HSP. exact HSP. }
    assert (HKR : kr (sig (tokens l)) ps) by (exists ts; split; [exact HR|]; rewrite ksig_sig, HM; reflexivity).
    destruct (good_doc d HW HD) as [G1 G2]. unfold ps in HKR. destruct (nonempty qs) eqn:EN; [|apply kr_nil in HKR; exists [], []; split; [exact HKR|]; split; [apply al_gaps; constructor|constructor]]. eapply root_back; [| |exact HLY|exact G1|exact G2|exact HKR].
    - intros k p [-> Hk] _. exact Hk.
    - intros k s p -> Hk. exact Hk. }
  destruct HP as (B & S & HK' & HB & HSS).
  assert (HQ' : match ps with [] => True | p :: _ => fst p <> WHITESPACE end) by (unfold ps; destruct qs; [exact I|exact HQ]).
  assert (HF : float_after_blanks (ptext ps) (tokens l) -> False).
  { intros (a & b & t & r & ET & Hb & Hbf & Ht & Ha). unfold source_pieces in HSP. rewrite HL in HSP. rewrite ET, !map_app in HSP. cbn [map] in HSP. destruct Ht as (Ek & w & Ew & Hw). rewrite Ek, Ew in HSP.
    set (g := fun t : LexerModel.token => (tkind t, match slice (ptext ps) (tspan t) with Some w => w | None => [] end)) in *.
    assert (HX : exists C, ts = map g a ++ map g b ++ (FLOAT, w) :: C).
    { destruct (map g r) as [|y r1]; [exfalso; rewrite !app_assoc in HSP; apply app_inj_tail in HSP as [_ HSP]; discriminate HSP|]. destruct (@exists_last _ (y :: r1)) as (C & x & EX); [discriminate|]. rewrite EX in HSP. exists C.
      assert (HS2 : (map g a ++ map g b ++ (FLOAT, w) :: C) ++ [x] = ts ++ [(EOF, [])]) by (rewrite <- HSP, <- !app_assoc; reflexivity). apply app_inj_tail in HS2 as [HS2 _]. symmetry. exact HS2. }
    destruct HX as [C ->]. refine (no_float_hazard _ ps (map g a) (map g b) w C HN HQ' HR _ _ _).
    - intros Eb. apply map_eq_nil in Eb. contradiction.
    - apply Forall_map. exact Hbf.
    - destruct Ha as [-> |(a' & t' & -> & Ek' & w' & Ew' & Hw')]; [left; reflexivity|right]. exists (map g a'), w'. rewrite map_app. cbn [map]. unfold g at 2. rewrite Ek', Ew'. auto. }
  destruct (parse_accepts false seg stack (ptext ps) l B S false Hs Hst HL HE HF HK' HB ltac:(discriminate) HSS) as (t & HTR & _). destruct (C31_readable seg stack (ptext ps) t Hs HTR) as (d' & ER).
  exists l, (has_crlf t), d'. split; [exact HL|]. split; [exact HF|]. split; [exact ER|]. destruct (read_inv _ _ _ _ _ Hs ER) as (HW' & _ & HR').
  assert (HSR : reading (source_content seg (ptext ps)) (filter is_content ps)).
  { apply respaced_reading in HR. replace (source_content seg (ptext ps)) with (filter is_content ts).
    - rewrite <- (solid_content ts), <- (solid_content ps).
      apply (reading_filter (fun k => is_content (k, []))); [|reflexivity|reflexivity|exact HR]. intros k Hk. cbn in Hk. repeat (destruct Hk as [<- |Hk]; [reflexivity|]). destruct Hk.
    - unfold source_content. rewrite HSP, filter_app. cbn [filter is_content fst kind_eqb]. rewrite app_nil_r. apply filter_ext_in. intros [k w] Hp. rewrite Forall_forall in HNE. specialize (HNE _ Hp). cbn [fst] in *.
        rewrite (proj2 (kind_eqb_neq k EOF) HNE), andb_true_r. reflexivity. }
  assert (HSD : same_data d d').
  { apply (doc_unique d d' (filter is_content ps) (source_content seg (ptext ps)) HW HW'); [|exact HSR|exact HR']. rewrite EC'. clear -HC. induction HC as [|p l HP HC IH]; constructor; [apply same_refl; exact HP|exact IH]. }
  split; [exact HSD|]. split; [|intros c Hc; rewrite <- EC'; exact (comments_out _ _ c HSR (comments_in _ _ c HR' Hc))]. intros w Hw. apply (same_bare_keys d d' w HW HW' HSD) in Hw. rewrite Forall_forall in HC. destruct (HC _ Hw) as [HK _]. cbn [snd] in HK. apply toml_key_bare. exact HK.
Qed.
