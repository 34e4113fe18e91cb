(** Formatting the content of a directive, which has no line break, writes none. *)
From Coq Require Import String Ascii List NArith Bool Arith Lia.
From Verif Require Import Base SyntaxKind TextModel LexerModel LexerSpec LexerProofs LexSound TomlTextModel ParserModel ParserInv ParserBuild ParserProps AstModel
  FormatPieces FormatPiecesProofs FormatPiecesProps DateTimeModel DateTimeSpec DateTimeTokens FormatterModel FormatterLayout FormatterSpec FormatterProofs FormatterEdit
  ParserYield ParserShape ParserTree ViewShape ViewContent FormatterProps.
Import ListNotations.
Open Scope N_scope.
Open Scope list_scope.

(** * Kinds of a text of one line *)
(** No line break, and a comment only at the end *)
Fixpoint onel (ks : list kind) : Prop :=
  match ks with [] => True | k :: ks' => k <> LINE_BREAK /\ (k = COMMENT -> ks' = []) /\ onel ks' end.
Lemma onel_l a b : onel (a ++ b) -> onel a.
Proof. induction a as [|k a IH]; cbn [app onel]; [auto|]. intros (H1 & H2 & H3). split; [exact H1|]. split; [intros H; apply H2 in H; apply app_eq_nil in H; apply H|auto]. Qed.
Lemma onel_r a b : onel (a ++ b) -> onel b.
Proof. induction a as [|k a IH]; cbn [app onel]; [auto|]. intros (H1 & H2 & H3). auto. Qed.
Lemma onel_last a b : onel (a ++ COMMENT :: b) -> b = [].
Proof. intros H. apply onel_r in H. destruct H as (_ & H & _). auto. Qed.

Definition calm_kind (k : kind) : Prop := k <> LINE_BREAK /\ k <> COMMENT.
Inductive krel : list kind -> list kind -> Prop :=
| kr_nil : krel [] []
| kr_same k a b : krel a b -> krel (k :: a) (k :: b)
| kr_other x xs y ys a b : Forall calm_kind (y :: ys) -> krel a b -> krel (x :: xs ++ a) (y :: ys ++ b).
Lemma krel_app a b c d : krel a b -> krel c d -> krel (a ++ c) (b ++ d).
Proof. induction 1; intros HC; cbn [app]; auto; [constructor; auto|rewrite <- !app_assoc; constructor; auto]. Qed.
Lemma krel_onel a b : krel a b -> onel a -> onel b.
Proof.
  induction 1 as [|k a b H IH|x xs y ys a b HF H IH]; intros HO; auto.
  - destruct HO as (H1 & H2 & H3). split; [exact H1|]. split; [|auto]. intros HK. specialize (H2 HK). subst a. inversion H. reflexivity.
  - change (x :: xs ++ a) with ((x :: xs) ++ a) in HO. apply onel_r in HO. specialize (IH HO). change (y :: ys ++ b) with ((y :: ys) ++ b). clear -HF IH.
    induction HF as [|k l [K1 K2] HF IHF]; [exact IH|]. cbn [app onel]. split; [exact K1|]. split; [congruence|exact IHF].
Qed.
Lemma shaped_krel src tr ts cs : shaped src tr ts cs -> krel (map tkind (sign ts)) (lkinds cs).
Proof.
  induction 1 as [|t tr ts cs HT H IH|k n grp tr ts cs HF HL HK H IH|k tr1 ts1 cs1 tr ts cs HT H1 IH1 H IH].
  - constructor.
  - cbn [sign filter]. rewrite HT. exact IH.
  - rewrite sign_app, (sign_all _ HF), map_app. change (lkinds (TToken k (wtexts src grp) :: cs)) with ([k] ++ lkinds cs).
    assert (HC : forall k, k <> LINE_BREAK -> k <> COMMENT -> Forall calm_kind [k]) by (intros; constructor; [split; auto|constructor]).
    destruct HK as [t|t HR|t u K1 K2|t u K1 K2]; cbn [map app].
    + constructor. exact IH.
    + apply (kr_other _ [] BARE_KEY []); auto. apply HC; discriminate.
    + apply (kr_other _ [tkind u] DOUBLE_BRACKET_START []); auto. apply HC; discriminate.
    + apply (kr_other _ [tkind u] DOUBLE_BRACKET_END []); auto. apply HC; discriminate.
  - rewrite sign_app, map_app. change (lkinds (TNode k cs1 :: cs)) with (lkinds cs1 ++ lkinds cs). apply krel_app; auto.
Qed.
Lemma reads_krel src c n : reads src c n -> krel (map tkind (sign c)) (map tkind (sign n)).
Proof.
  induction 1 as [|t c n H IH|t u v x y z c n HK HS HU HV [K1 S1] [K2 S2] [K3 S3] H IH]; [constructor| |].
  - cbn [sign filter]. destruct (triv t); cbn [negb map]; [exact IH|]. constructor. exact IH.
  - assert (HX : forall k t, tkind t = k -> k <> WHITESPACE -> triv t = false) by (intros k t' <- HN; unfold triv, is_trivia; apply kind_eqb_neq; exact HN).
    cbn [sign filter]. rewrite (HX _ _ HK), (HX _ _ K1), (HX _ _ K2), (HX _ _ K3) by discriminate. cbn [negb map].
    rewrite HK, K1, K2, K3. apply (kr_other FLOAT [] BARE_KEY [DOT; BARE_KEY]); [|exact IH]. repeat constructor; discriminate.
Qed.
(** The leaves of the tree of a text without line breaks *)
Lemma tame_onel ts : tame ts -> Forall (fun t => tkind t <> LINE_BREAK) ts -> onel (map tkind (filter (fun t => negb (kind_eqb (tkind t) EOF)) (sign ts))).
Proof.
  intros HT HF. induction ts as [|t ts IH]; [exact I|]. assert (HT' : tame ts) by (apply (tame_suffix [t]); exact HT).
  specialize (IH HT' (Forall_inv_tail HF)). cbn [sign filter]. destruct (triv t); cbn [negb filter]; [exact IH|].
  destruct (kind_eqb (tkind t) EOF) eqn:EE; cbn [negb map onel]; [exact IH|]. split; [exact (Forall_inv HF)|]. split; [|exact IH].
  intros HC. destruct ts as [|u ts]; [reflexivity|]. destruct HT as [_ HT2 HT3]. destruct (HT3 [] t u ts eq_refl HC) as [E|E].
  - exfalso. revert E. exact (Forall_inv (Forall_inv_tail HF)).
  - rewrite (HT2 [t] u ts eq_refl E) in *. cbn [sign filter triv]. unfold triv, is_trivia. rewrite E. change (kind_eqb EOF WHITESPACE) with false. cbn [negb filter]. rewrite E. reflexivity.
Qed.

Lemma drop_incl s : forall n w, drop_bytes n s = Some w -> incl w s.
Proof.
  induction s as [|c s IH]; intros n w; cbn [drop_bytes].
  - destruct (N.eqb n 0); [|discriminate]. intros E. injection E as <-. apply incl_refl.
  - destruct (N.eqb n 0); [intros E; injection E as <-; apply incl_refl|]. destruct (n <? len_utf8 c); [discriminate|]. intros E. apply incl_tl. eapply IH. exact E.
Qed.
Lemma take_incl s : forall n w, take_bytes n s = Some w -> incl w s.
Proof.
  induction s as [|c s IH]; intros n w; cbn [take_bytes].
  - destruct (N.eqb n 0); [|discriminate]. intros E. injection E as <-. apply incl_refl.
  - destruct (N.eqb n 0); [intros E; injection E as <-; apply incl_nil_l|]. destruct (n <? len_utf8 c); [discriminate|].
    destruct (take_bytes _ s) as [u|] eqn:EU; [|discriminate]. intros E. injection E as <-. apply incl_cons; [left; reflexivity|]. apply incl_tl. eapply IH. exact EU.
Qed.
Lemma slice_incl source sp w : slice source sp = Some w -> incl w source.
Proof.
  unfold slice. destruct (drop_bytes _ source) as [s|] eqn:ED; [|discriminate]. intros E. eapply incl_tran; [eapply take_incl; exact E|eapply drop_incl; exact ED].
Qed.
Lemma no_break_incl a b : incl a b -> no_break b -> no_break a.
Proof. intros H. unfold no_break. rewrite !Forall_forall. auto. Qed.
Lemma source_pieces_incl seg source p : In p (source_pieces seg source) -> incl (snd p) source.
Proof.
  unfold source_pieces. destruct (lex seg source) as [l|]; [|intros []]. rewrite in_map_iff. intros (t & <- & _). cbn [snd].
  destruct (slice source (tspan t)) as [w|] eqn:E; [eapply slice_incl; exact E|apply incl_nil_l].
Qed.
Lemma reading_incl ps qs s : reading ps qs -> Forall (fun p => incl (snd p) s) ps -> Forall (fun p => incl (snd p) s) qs.
Proof.
  induction 1 as [|p ps qs H IH|k w ps qs HK HD H IH|u w ps qs HU HV H IH]; intros HF; auto; inversion HF as [|? ? H1 H2]; subst; cbn [snd] in *.
  - constructor; auto.
  - constructor; auto.
  - constructor; [|constructor; [|constructor; auto]]; cbn [snd]; intros x Hx; apply H1; apply in_or_app; cbn; auto. destruct Hx as [<- |[]]. auto.
Qed.
Lemma content_incl seg source ps : reading (source_content seg source) ps -> Forall (fun p => incl (snd p) source) ps.
Proof.
  intros H. eapply reading_incl; [exact H|]. apply Forall_forall. intros p Hp. apply filter_In in Hp as [Hp _]. eapply source_pieces_incl. exact Hp.
Qed.

(** * What is written on one line *)
Section Calm.
Context (cfg : defs) (gr : str -> N) (dir : str -> option str) (HD : one_line dir).
Definition calm (m : fm) : Prop := forall f f', f_single_line f = true -> m f = Some f' ->
  f_single_line f' = true /\ (no_break (ptext (f_buf f)) -> no_break (ptext (f_buf f'))).
Lemma calm_ret : calm m_ret. Proof. intros f f' H E. injection E as <-. auto. Qed.
Lemma calm_none : calm (fun _ => None). Proof. intros f f' _ E. discriminate. Qed.
Lemma calm_seq a b : calm a -> calm b -> calm (m_seq a b).
Proof.
  intros HA HB f f' H E. unfold m_seq in E. destruct (a f) as [g|] eqn:EA; [|discriminate]. destruct (HA _ _ H EA) as [H1 H2]. destruct (HB _ _ H1 E) as [H3 H4]. auto.
Qed.
Lemma calm_when c a : (c = true -> calm a) -> calm (m_when c a).
Proof. intros H. unfold m_when. destruct c; [auto|apply calm_ret]. Qed.
Lemma calm_iter {A} (g : A -> fm) l : Forall (fun a => calm (g a)) l -> calm (m_iter g l).
Proof. induction 1; cbn [m_iter]; [apply calm_ret|apply calm_seq; auto]. Qed.
Lemma calm_iter_first {A} (g : bool -> A -> fm) l : Forall (fun a => forall b, calm (g b a)) l -> forall b, calm (m_iter_first g b l).
Proof. induction 1; intros b; cbn [m_iter_first]; [apply calm_ret|apply calm_seq; auto]. Qed.
Lemma calm_write k s : no_break s -> calm (write k s).
Proof.
  intros HS f f' H E. unfold write in E. injection E as <-. cbn [f_single_line f_buf]. split; [exact H|]. intros HB. destruct (nonempty s || _); [|exact HB].
  unfold ptext. rewrite flat_map_app. cbn [flat_map snd]. rewrite app_nil_r. apply no_break_app. auto.
Qed.
Lemma blank_calm c n : c <> 10 /\ c <> 13 -> no_break (repeat c n).
Proof. intros H. induction n; constructor; auto. Qed.
Lemma calm_spaces n : calm (write_spaces n).
Proof. apply calm_write. apply blank_calm. split; discriminate. Qed.
Lemma calm_set_skip b : calm (set_skip b). Proof. intros f f' H E. injection E as <-. auto. Qed.
Lemma calm_set_depth b : calm (set_depth b). Proof. intros f f' H E. injection E as <-. auto. Qed.
Lemma calm_indent : calm (write_indent cfg).
Proof.
  intros f f' H E. unfold write_indent in E. destruct (f_skip_indent f); [eapply calm_set_skip; eauto|]. unfold write_opt in E.
  destruct (indent cfg (f_depth f)) as [s|] eqn:ES; [|discriminate]. eapply calm_write; [|exact H|exact E]. unfold indent in ES.
  destruct (f_indent_tab cfg); [injection ES as <-; apply blank_calm; split; discriminate|]. destruct (_ <? 256); [|discriminate]. injection ES as <-. apply blank_calm. split; discriminate.
Qed.
Lemma calm_inc : calm inc_indent.
Proof. intros f f' H E. unfold inc_indent in E. destruct (_ <? 255); [|discriminate]. eapply calm_set_depth; eauto. Qed.
Lemma calm_dec : calm dec_indent.
Proof. intros f f' H E. unfold dec_indent in E. eapply calm_set_depth; eauto. Qed.
Lemma calm_skip : calm skip_indent. Proof. apply calm_set_skip. Qed.

(** A key, value or comment without a line break *)
Definition fine (p : piece) : Prop := good_token p /\ no_break (snd p).
Lemma requote_calm s q t : no_break s -> (q = 34 \/ q = 39) -> requote_string s q = Some t -> no_break t.
Proof.
  intros HS HQ. unfold requote_string. destruct (_ || _); [intros E; injection E as <-; exact HS|]. destruct (TomlTextModel.strip 1 s) as [b|] eqn:EB; [|discriminate]. intros E. injection E as <-.
  assert (HB : incl b s).
  { unfold TomlTextModel.strip in EB. destruct (_ <? _); [discriminate|]. destruct (_ <? _); [discriminate|]. eapply slice_incl. exact EB. }
  constructor; [destruct HQ; subst; split; discriminate|]. apply no_break_app. split; [eapply no_break_incl; eauto|]. constructor; [destruct HQ; subst; split; discriminate|constructor].
Qed.
Lemma quote_calm s q t : no_break s -> format_basic_string_quote_style s q = Some t \/ format_literal_string_quote_style s q = Some t -> no_break t.
Proof.
  intros HS [E|E]; destruct q; cbn [format_basic_string_quote_style format_literal_string_quote_style] in E; try (injection E as <-; exact HS); (eapply requote_calm; [exact HS| |exact E]); auto.
Qed.
Lemma key_calm k : no_break (snd k) -> calm (write_piece (key_piece cfg k)).
Proof.
  intros HB. destruct (key_piece cfg k) as [[k' s]|] eqn:E; [|apply calm_none]. cbn [write_piece]. apply calm_write. unfold key_piece in E.
  destruct k as [k t]. cbn [fst snd] in *. destruct k; try (injection E as _ <-; exact HB).
  - destruct (format_basic_string_quote_style t _) eqn:EQ; [|discriminate]. injection E as _ <-. eapply quote_calm; eauto.
  - destruct (format_literal_string_quote_style t _) eqn:EQ; [|discriminate]. injection E as _ <-. eapply quote_calm; eauto.
Qed.
Lemma literal_calm k s : literal_kind k = true -> fine (k, s) -> calm (write_piece (literal_piece cfg k s)).
Proof.
  intros HK [HG HB]. cbn [snd] in HB. destruct (literal_piece cfg k s) as [[k' t]|] eqn:E; [|apply calm_none]. cbn [write_piece]. apply calm_write. unfold literal_piece in E.
  assert (HDT : dt_kind k -> format_date_time (f_date_time_delimiter cfg) s = Some t -> no_break t).
  { intros HDT EF. assert (HT : text_ok k s) by (destruct HG as [HG|HG]; [cbn in HG; subst k; discriminate|exact HG]).
    destruct (formatted_shape k s (f_date_time_delimiter cfg) HDT HT) as (a & c & c' & b & E1 & E2 & L & _ & D & D' & _). rewrite E2 in EF. injection EF as <-. subst s.
    apply no_break_app in HB as [B1 HB]. apply no_break_app in HB as [B2 B3]. apply no_break_app. split; [exact B1|]. constructor; [|exact B3]. unfold delim in D'. lia. }
  destruct k; try discriminate; try (injection E as _ <-; exact HB).
  - destruct (format_basic_string_quote_style s _) eqn:EQ; [|discriminate]. injection E as _ <-. eapply quote_calm; eauto.
  - destruct (format_literal_string_quote_style s _) eqn:EQ; [|discriminate]. injection E as _ <-. eapply quote_calm; eauto.
  - destruct (format_date_time _ s) eqn:EF; [|discriminate]. injection E as _ <-. apply HDT; auto. left; reflexivity.
  - destruct (format_date_time _ s) eqn:EF; [|discriminate]. injection E as _ <-. apply HDT; auto. right; reflexivity.
Qed.
Lemma comment_calm strip c : fine (COMMENT, c) -> calm (fmt_comment cfg dir strip c).
Proof.
  intros [HG _]. unfold fmt_comment, write_opt. destruct (comment_text cfg dir strip c) as [t|] eqn:E; [|apply calm_none]. apply calm_write.
  destruct (comment_same cfg dir c t HD HG (ex_intro _ strip E)) as (_ & (b & E2 & Hb) & _). cbn [snd] in E2. subst t. constructor; [split; discriminate|exact Hb].
Qed.
Lemma calm_state (m : fmt -> fm) : (forall f, calm (m f)) -> calm (fun f => m f f).
Proof. intros H f f' HS E. eapply H; eauto. Qed.
Lemma calm_alignment al : calm (write_alignment_space gr al).
Proof. destruct al as [w|]; [|apply calm_ret]. apply (calm_state (fun f => write_spaces (w - current_line_width gr f))). intros. apply calm_spaces. Qed.
Lemma calm_trailing al tc : (forall c, tc = Some c -> fine (COMMENT, c)) -> calm (fmt_trailing_opt cfg gr dir al tc).
Proof.
  intros H. destruct tc as [c|]; [|apply calm_ret]. apply calm_seq; [apply calm_alignment|]. unfold fmt_trailing.
  apply (calm_state (fun f => m_when (negb (f_skip_comment f)) (write_spaces (f_trailing_comment_space cfg) ;; fmt_comment cfg dir true c))).
  intros f. apply calm_when. intros _. apply calm_seq; [apply calm_spaces|]. apply comment_calm. auto.
Qed.
Lemma calm_no_leading : calm (fmt_leading cfg dir []).
Proof.
  apply (calm_state (fun f => m_when (negb (f_skip_comment f)) m_ret)). intros f. apply calm_when. intros _. apply calm_ret.
Qed.
Lemma calm_keys w ks : Forall (fun k : fkey => no_break (snd k)) ks -> calm (fmt_keys cfg gr w ks).
Proof.
  intros H. assert (HW : calm (write_keys cfg ks)).
  { unfold write_keys. apply calm_iter_first. eapply Forall_impl; [|exact H]. intros k Hk b. apply calm_seq; [apply calm_when; intros _; apply calm_write; repeat constructor; discriminate|apply key_calm; exact Hk]. }
  unfold fmt_keys. destruct w as [w|]; [|exact HW]. intros f f' HS E. destruct (opt_all _ ks) as [ps|]; [|discriminate]. destruct (alignment_width gr _) as [n|]; [|discriminate]. destruct (w <? n); [discriminate|].
  eapply (calm_seq _ _ HW (calm_spaces _)); eauto.
Qed.

(** * The trees of one line *)
Definition leaf_fine (p : piece) : Prop := key_kind (fst p) || literal_kind (fst p) || kind_eqb (fst p) COMMENT = true -> fine p.
Definition quiet (cs : list tree) : Prop := onel (lkinds cs) /\ Forall leaf_fine (leaves cs).
Lemma leaves_app a b : leaves (a ++ b) = leaves a ++ leaves b. Proof. apply flat_map_app. Qed.
Lemma quiet_l a b : quiet (a ++ b) -> quiet a.
Proof. intros [H1 H2]. rewrite lkinds_app in H1. rewrite leaves_app in H2. apply Forall_app in H2 as [H2 _]. split; [eapply onel_l; exact H1|exact H2]. Qed.
Lemma quiet_r a b : quiet (a ++ b) -> quiet b.
Proof. intros [H1 H2]. rewrite lkinds_app in H1. rewrite leaves_app in H2. apply Forall_app in H2 as [_ H2]. split; [eapply onel_r; exact H1|exact H2]. Qed.
Lemma quiet_node k c cs : quiet (TNode k c :: cs) -> quiet (c ++ cs).
Proof.
  intros [H1 H2]. split; [rewrite lkinds_app; exact H1|]. rewrite leaves_app. exact H2.
Qed.
Lemma quiet_lead l lead t r : sh_lead l lead -> quiet (l ++ t :: r) -> lkinds [t] <> [] -> l = [] /\ lead = [].
Proof.
  intros [HF HE] [H1 _] HN. destruct HF as [|u l (w & [-> | ->]) HF]; [cbn in HE; auto| |]; exfalso; cbn in H1.
  - destruct H1 as (_ & H1 & _). specialize (H1 eq_refl). fold (lkinds (l ++ t :: r)) in H1. change (t :: r) with ([t] ++ r) in H1. rewrite !lkinds_app in H1. apply app_eq_nil in H1 as [_ H1]. apply app_eq_nil in H1 as [H1 _]. contradiction.
  - destruct H1 as (H1 & _). congruence.
Qed.
Lemma quiet_trail tr tc : sh_trail tr tc -> quiet tr -> forall c, tc = Some c -> fine (COMMENT, c).
Proof.
  intros HT [_ H] c ->. cbn in HT. subst tr. apply Forall_inv in H. apply H. reflexivity.
Qed.
Lemma quiet_keys kts ks : sh_keys kts ks -> Forall leaf_fine (leaves kts) -> Forall (fun k : fkey => no_break (snd k)) ks /\ lkinds kts <> [].
Proof.
  assert (HX : forall t k l, sh_key t k -> Forall leaf_fine (leaves (t :: l)) -> no_break (snd k)).
  { intros t k l [k0 w HK] HF. apply Forall_inv in HF. apply HF. cbn [fst]. rewrite HK. reflexivity. }
  induction 1 as [t k H|t k d ts ks H HDOT HK IH]; intros HF.
  - split; [constructor; [eapply HX; eauto|constructor]|]. destruct H. discriminate.
  - assert (HF' : Forall leaf_fine (leaves ts)) by (change (t :: d :: ts) with ([t; d] ++ ts) in HF; rewrite leaves_app in HF; apply Forall_app in HF; apply HF).
    destruct (IH HF') as [I1 _]. split; [constructor; [eapply HX; eauto|exact I1]|]. destruct H. discriminate.
Qed.
Lemma fmt_lit al lead k tok tc : fmt_value cfg gr dir al (FLit lead k tok tc) = fmt_literal cfg gr dir al lead k tok tc.
Proof. reflexivity. Qed.
Definition calm_item (i : item fval) : Prop := (forall ea al, calm (fmt_item cfg gr dir (fmt_value cfg gr dir) ea al i)) /\
  forall al, calm (fmt_line_comma cfg gr dir al (is_some (vtc (ival i))) (icomma i)).
Definition calm_group (g : group (item fval)) : Prop := match g with GD _ cs => Forall (fun c => fine (COMMENT, c)) cs /\ (length cs <= 1)%nat | GI _ its => Forall calm_item its end.
Lemma calm_single al table gs : Forall calm_group gs -> forall b, calm (fmt_single_groups cfg gr dir (fmt_value cfg gr dir) al table b gs).
Proof.
  induction 1 as [|g gs H HF IH]; intros b; cbn [fmt_single_groups]; [apply calm_ret|]. destruct g as [n cs|n its]; [apply IH|]. apply calm_seq; [|apply IH].
  unfold fmt_single_items. apply calm_iter_first. eapply Forall_impl; [|exact H]. intros i [Hi _] c.
  apply calm_seq; [apply calm_when; intros _; apply calm_seq; [apply calm_write; repeat constructor; discriminate|apply calm_spaces]|]. apply calm_seq; [apply calm_skip|apply Hi].
Qed.
Lemma calm_box al table otc gs tc : Forall calm_group gs -> (forall c, tc = Some c -> fine (COMMENT, c)) -> calm (fmt_value cfg gr dir al (FBox table [] otc gs tc)).
Proof.
  intros HG HT f f' HS E. cbn [fmt_value] in E. rewrite HS in E. revert E. revert f f' HS. change (calm (fmt_single cfg gr dir (fmt_value cfg gr dir) al table [] gs tc)).
  assert (HO : calm (write_piece (Some (open_piece table)))) by (destruct table; apply calm_write; repeat constructor; discriminate).
  assert (HC : calm (write_piece (Some (close_piece table)))) by (destruct table; apply calm_write; repeat constructor; discriminate).
  unfold fmt_single. apply calm_seq; [apply calm_no_leading|]. apply calm_seq; [apply calm_indent|]. apply calm_seq; [|apply calm_trailing; exact HT].
  destruct (nonempty (items_of gs)); repeat (apply calm_seq); auto using calm_spaces, calm_single.
Qed.
Definition ends_comment (v : fval) (cs : list tree) : Prop := vtc v <> None -> exists a, lkinds cs = a ++ [COMMENT].
Lemma comma_quiet t v cs c : sh_comma cs c -> quiet (t :: cs) -> ends_comment v [t] -> forall al, calm (fmt_line_comma cfg gr dir al (is_some (vtc v)) c).
Proof.
  intros HC HQ HE al. destruct HC as [|l lead w tr tc HL HT]; [apply calm_ret|].
  pose proof (quiet_node _ _ _ (quiet_r [t] _ HQ)) as HQ'. rewrite app_nil_r in HQ'. destruct (quiet_lead _ _ _ _ HL HQ') as [-> ->]; [discriminate|]. cbn [app] in *.
  assert (EV : vtc v = None).
  { destruct (vtc v) as [x|] eqn:EV; [|reflexivity]. exfalso. unfold ends_comment in HE. rewrite EV in HE. destruct HE as (a & EA); [discriminate|]. destruct HQ as [HO _].
    change (t :: ?x) with ([t] ++ x) in HO. rewrite lkinds_app, EA, <- app_assoc in HO. apply onel_last in HO. discriminate. }
  rewrite EV. cbn [is_some fmt_line_comma nonempty negb andb m_when]. destruct tc as [x|]; [|apply calm_ret]. apply calm_trailing.
  eapply quiet_trail; [exact HT|]. apply (quiet_r [TToken COMMA w]). exact HQ'.
Qed.
Lemma quiet_shapes :
  (forall t v, sh_value t v -> quiet [t] -> (forall al, calm (fmt_value cfg gr dir al v)) /\ ends_comment v [t]) /\
  (forall table cs i, sh_item table cs i -> quiet cs -> calm_item i) /\
  (forall table cs is, sh_items table cs is -> quiet cs -> Forall calm_item is) /\
  (forall gk table n es gs m, sh_body gk table n es gs m -> quiet es -> Forall calm_group gs).
Proof.
  assert (HTR : forall v a k w tr, sh_trail tr (vtc v) -> ends_comment v [TNode k (a ++ w :: tr)]).
  { intros v a k w tr HT HN. destruct (vtc v) as [c|]; [|congruence]. cbn in HT. subst tr. exists (lkinds (a ++ [w])). change (w :: [TToken COMMENT c]) with ([w] ++ [TToken COMMENT c]).
    rewrite app_assoc. change (lkinds [TNode k ((a ++ [w]) ++ [TToken COMMENT c])]) with (lkinds ((a ++ [w]) ++ [TToken COMMENT c]) ++ []). rewrite app_nil_r, lkinds_app. reflexivity. }
  apply sh_ind.
  - intros l lead k w tr tc HL HK HT HQ. split; [|apply HTR; exact HT]. apply quiet_node in HQ. rewrite app_nil_r in HQ. destruct (quiet_lead _ _ _ _ HL HQ) as [-> ->]; [discriminate|]. cbn [app] in HQ.
    intros al. rewrite fmt_lit. unfold fmt_literal. apply calm_seq; [apply calm_no_leading|]. apply calm_seq; [apply calm_indent|]. apply calm_seq.
    + apply literal_calm; [exact HK|]. destruct HQ as [_ HQ]. apply Forall_inv in HQ. apply HQ. cbn [fst]. rewrite HK, orb_true_r. reflexivity.
    + apply calm_trailing. eapply quiet_trail; [exact HT|]. apply (quiet_r [TToken k w]). exact HQ.
  - intros table l lead wo otr otc es gs wc tr tc n HL HO HB IH HT HQ. split.
    2:{ change (TToken (open_kind table) wo :: otr ++ es ++ TToken (close_kind table) wc :: tr) with ([TToken (open_kind table) wo] ++ otr ++ es ++ TToken (close_kind table) wc :: tr).
        rewrite !app_assoc. apply (HTR (FBox table lead otc gs tc)). exact HT. }
    apply quiet_node in HQ. rewrite app_nil_r in HQ. destruct (quiet_lead _ _ _ _ HL HQ) as [-> ->]; [discriminate|]. cbn [app] in HQ. apply (quiet_r [_]) in HQ. apply quiet_r in HQ.
    intros al. apply calm_box; [apply IH; apply quiet_l in HQ; exact HQ|]. apply quiet_r in HQ. apply (quiet_r [_]) in HQ. eapply quiet_trail; eauto.
  - intros t v cs c HV IH HC HQ. destruct (IH (quiet_l [t] _ HQ)) as [I1 I2]. split; [intros ea al; apply I1|]. apply (comma_quiet t v cs c); auto.
  - intros l lead kts ks raw we t v cs c HL HK HV IH HE HC HQ.
    assert (HQN : quiet (l ++ [TNode KEYS kts; TToken EQUAL we; t])) by (apply (quiet_l [_]) in HQ; apply quiet_node in HQ; rewrite app_nil_r in HQ; exact HQ).
    assert (HF : Forall leaf_fine (leaves kts)) by (apply quiet_r in HQN; apply quiet_node in HQN; apply quiet_l in HQN; apply HQN).
    destruct (quiet_keys _ _ HK HF) as [HKB HKN]. destruct (quiet_lead _ _ _ _ HL HQN) as [-> ->].
    { change (lkinds [TNode KEYS kts]) with (lkinds kts ++ []). rewrite app_nil_r. exact HKN. }
    cbn [app] in *. destruct (IH (quiet_r [_; _] _ HQN)) as [I1 I2]. split.
    + intros ea al. assert (HNE : ks <> []) by (destruct HK; discriminate). destruct ks as [|k ks]; [congruence|]. cbn [fmt_item].
      repeat apply calm_seq; auto using calm_no_leading, calm_indent, calm_keys, calm_spaces, calm_skip. apply calm_write. repeat constructor; discriminate.
    + cbn [ival icomma]. apply (comma_quiet (TNode KEY_VALUE [TNode KEYS kts; TToken EQUAL we; t]) v cs c); auto.
      intros HN. destruct (I2 HN) as (a & EA). exists (lkinds [TNode KEYS kts; TToken EQUAL we] ++ a). rewrite <- app_assoc, <- EA, <- lkinds_app.
      change (lkinds [TNode KEY_VALUE [TNode KEYS kts; TToken EQUAL we; t]]) with (lkinds [TNode KEYS kts; TToken EQUAL we; t] ++ []). rewrite app_nil_r. reflexivity.
  - constructor.
  - intros table a i b is HI IH HB IHB HQ. constructor; [apply IH; eapply quiet_l; exact HQ|apply IHB; eapply quiet_r; exact HQ].
  - constructor.
  - intros gk table n w es gs m HB IH HQ. apply IH. apply (quiet_r [_]) in HQ. exact HQ.
  - intros gk table n ds cs es gs m HL HN HB IH HQ. constructor; [|apply IH; apply (quiet_r [_]) in HQ; exact HQ]. apply (quiet_l [_]) in HQ. apply quiet_node in HQ. rewrite app_nil_r in HQ.
    destruct HL as [HF <-]. destruct HQ as [HO HQ]. destruct HF as [|t ds (w & [-> | ->]) HF]; [cbn; split; [constructor|lia]| |].
    + destruct HO as (_ & HO & _). specialize (HO eq_refl). destruct HF as [|t ds (w' & [-> | ->]) HF]; try discriminate. cbn. split; [|lia]. constructor; [|constructor]. apply Forall_inv in HQ. apply HQ. reflexivity.
    + destruct HO as (HO & _). congruence.
  - intros gk table n its is es gs m HI IHI HN HB IH HQ. constructor; [|apply IH; apply (quiet_r [_]) in HQ; exact HQ]. apply (quiet_l [_]) in HQ. apply quiet_node in HQ. rewrite app_nil_r in HQ. apply IHI. exact HQ.
Qed.

Lemma alone t cs : lined (t :: cs) -> onel (lkinds (t :: cs)) -> lkinds [t] <> [] -> lkinds cs = [].
Proof.
  intros HL HO HN. change (t :: cs) with ([t] ++ cs) in HO. rewrite lkinds_app in HO. destruct (HL [t] cs eq_refl) as [H|[H|[(a & H)|(a & H)]]]; [contradiction|exact H| |]; exfalso.
  - rewrite H in HO. apply onel_l in HO. apply onel_r in HO. destruct HO as (HO & _). congruence.
  - rewrite H in HO. apply onel_r in HO. destruct HO as (HO & _). congruence.
Qed.
Lemma lined_tl t cs : lined (t :: cs) -> lkinds [t] = [] -> lined cs.
Proof.
  intros HL HN a b ->. destruct (HL (t :: a) b eq_refl) as [H|H]; unfold junction.
  - change (t :: a) with ([t] ++ a) in H. rewrite lkinds_app in H. apply app_eq_nil in H as [_ H]. auto.
  - change (t :: a) with ([t] ++ a) in H. rewrite lkinds_app, HN in H. auto.
Qed.
Lemma value_leaves t v : sh_value t v -> lkinds [t] <> [].
Proof. intros H. destruct H; change (lkinds [TNode ?k ?x]) with (lkinds x ++ []); rewrite app_nil_r, lkinds_app; destruct (lkinds l); discriminate. Qed.
Lemma item_leaves table cs i : sh_item table cs i -> lkinds cs <> [].
Proof.
  intros H. destruct H as [t v cs c HV HC|l lead kts ks raw we t v cs c HL HK HV HE HC].
  - change (t :: cs) with ([t] ++ cs). rewrite lkinds_app. pose proof (value_leaves _ _ HV). destruct (lkinds [t]); [congruence|discriminate].
  - change (TNode ?k ?x :: cs) with ([TNode k x] ++ cs). rewrite lkinds_app. change (lkinds [TNode ?k ?x]) with (lkinds x ++ []). rewrite app_nil_r, lkinds_app.
    change [TNode KEYS kts; TToken EQUAL we; t] with ([TNode KEYS kts] ++ [TToken EQUAL we; t]). rewrite lkinds_app. destruct (lkinds l); [|discriminate]. destruct (lkinds [TNode KEYS kts]); discriminate.
Qed.
Lemma items_leaves table cs is : sh_items table cs is -> is <> [] -> lkinds cs <> [].
Proof. intros [|table0 a i b is0 HI HB] H; [congruence|]. rewrite lkinds_app. pose proof (item_leaves _ _ _ HI). destruct (lkinds a); [congruence|discriminate]. Qed.
Lemma body_none gk table n es gs m : sh_body gk table n es gs m -> lkinds es = [] -> es = [] /\ gs = [].
Proof.
  intros H. destruct H as [|gk table n w es gs m H|gk table n ds cs es gs m HL HN H|gk table n its is es gs m HI HN H]; [auto|discriminate| |]; intros E; exfalso.
  - change (TNode DANGLING_COMMENT_GROUP ds :: es) with ([TNode DANGLING_COMMENT_GROUP ds] ++ es) in E. rewrite lkinds_app in E. apply app_eq_nil in E as [E _]. change (lkinds ds ++ [] = []) in E. rewrite app_nil_r in E.
    destruct HL as [HF HC]. destruct HF as [|t l (w & [-> | ->]) HF]; [cbn in HC; congruence|discriminate|discriminate].
  - change (TNode gk its :: es) with ([TNode gk its] ++ es) in E. rewrite lkinds_app in E. apply app_eq_nil in E as [E _]. change (lkinds its ++ [] = []) in E. rewrite app_nil_r in E. revert E. eapply items_leaves; eauto.
Qed.
Lemma tables_none n es ts : sh_tables n es ts -> lkinds es = [] -> es = [] /\ ts = [].
Proof.
  intros H. destruct H as [|n w es ts H|array n l lead wo kts ks wc tr tc body gs m es ts HL HK HT HS HB H]; [auto|discriminate|]. intros E. exfalso.
  change (TNode ?k ?x :: es) with ([TNode k x] ++ es) in E. rewrite lkinds_app in E. apply app_eq_nil in E as [E _]. change (lkinds [TNode ?k ?x]) with (lkinds x ++ []) in E. rewrite app_nil_r, lkinds_app in E. apply app_eq_nil in E as [_ E]. discriminate.
Qed.
(** The groups of one line: one, of one comment or one key/value *)
Definition one_group (g : group (item fval)) : Prop := match g with GD _ cs => exists c, cs = [c] | GI _ its => exists i, its = [i] end.
Lemma one_item table its is : sh_items table its is -> table = true -> kv_lined its -> onel (lkinds its) -> is <> [] -> exists i, is = [i].
Proof.
  intros HI HT HK HO HN. destruct HI as [|table a i b is HI HB]; [congruence|]. destruct HB as [|table b j c is HJ HB]; [eauto|]. exfalso.
  inversion HJ as [|l lead kts ks raw we t v cs cm HL HKS HV HE HC]; subst; [discriminate|].
  assert (HA : a <> []) by (intros ->; apply item_leaves in HI; apply HI; reflexivity).
  destruct (HK a _ (cs ++ c) eq_refl HA) as (r & ER). cbn [app] in HO. change (TNode KEY_VALUE ?x :: ?y) with ([TNode KEY_VALUE x] ++ y) in HO. rewrite !lkinds_app in HO.
  apply onel_r in HO. apply onel_l in HO. change (lkinds [TNode KEY_VALUE ?x]) with (tkinds (TNode KEY_VALUE x) ++ []) in HO. rewrite ER in HO. destruct HO as (HO & _). congruence.
Qed.
Lemma one_body n es gs m r : sh_body KEY_VALUE_GROUP true n es gs m -> lined (es ++ r) -> Forall line_tree es -> quiet (es ++ r) ->
  (es = [] /\ gs = []) \/ (exists g, gs = [g] /\ one_group g) /\ lkinds r = [].
Proof.
  intros HB HL HT HQ. inversion HB as [|gk table n' w es' gs' m' H|gk table n' ds cs es' gs' m' HLD HN H|gk table n' its is es' gs' m' HI HN H]; subst; [auto|exfalso|right|right].
  - destruct HQ as [(HO & _) _]. congruence.
  - assert (HD1 : lkinds [TNode DANGLING_COMMENT_GROUP ds] <> []).
    { change (lkinds [TNode DANGLING_COMMENT_GROUP ds]) with (lkinds ds ++ []). rewrite app_nil_r. destruct HLD as [HF HC]. destruct HF as [|t l (w & [-> | ->]) HF]; [cbn in HC; congruence|discriminate|discriminate]. }
    cbn [app] in HL, HQ. pose proof (alone _ _ HL (proj1 HQ) HD1) as HE. rewrite lkinds_app in HE. apply app_eq_nil in HE as [HE ->]. destruct (body_none _ _ _ _ _ _ H HE) as [-> ->]. split; [|reflexivity].
    eexists. split; [reflexivity|]. assert (HBD : sh_body KEY_VALUE_GROUP true n [TNode DANGLING_COMMENT_GROUP ds] [GD (blanks n) cs] 0) by (apply sh_body_dangling; auto; constructor).
    apply quiet_shapes in HBD; [|apply (quiet_l [_]) in HQ; exact HQ]. apply Forall_inv in HBD. destruct HBD as [_ HLN]. destruct cs as [|c [|c' cs]]; [congruence|exists c; reflexivity|cbn in HLN; lia].
  - assert (HD1 : lkinds [TNode KEY_VALUE_GROUP its] <> []).
    { change (lkinds [TNode KEY_VALUE_GROUP its]) with (lkinds its ++ []). rewrite app_nil_r. eapply items_leaves; eauto. }
    cbn [app] in HL, HQ. pose proof (alone _ _ HL (proj1 HQ) HD1) as HE. rewrite lkinds_app in HE. apply app_eq_nil in HE as [HE ->]. destruct (body_none _ _ _ _ _ _ H HE) as [-> ->]. split; [|reflexivity].
    eexists. split; [reflexivity|]. cbn [one_group]. apply Forall_inv in HT. apply (quiet_l [_]) in HQ. apply quiet_node in HQ. rewrite app_nil_r in HQ.
    eapply one_item; [exact HI|reflexivity| |apply HQ|exact HN]. inversion HT as [| |x HX|array]; [assumption|destruct array; discriminate].
Qed.
Lemma calm_one g : calm_group g -> one_group g -> calm (fmt_groups cfg dir (fmt_key_value_group cfg gr dir) false [g]).
Proof.
  intros HC HO. destruct g as [b cs|b its]; cbn [fmt_groups m_when].
  - destruct HO as (c & ->). destruct HC as [HC _]. apply Forall_inv in HC.
    assert (HX : calm (m_ret ;; fmt_dangling cfg dir [c] ;; m_ret)); [|intros f f' HS E; destruct (f_skip_comment f); [injection E as <-; auto|eapply HX; eauto]].
    apply calm_seq; [apply calm_ret|]. apply calm_seq; [|apply calm_ret]. unfold fmt_dangling.
    apply (calm_state (fun f => m_when (negb (f_skip_comment f)) (m_iter_first (fun first c => m_when (negb first) (write_line_ending cfg) ;; write_indent cfg ;; fmt_comment cfg dir first c) true [c]))).
    intros g. apply calm_when. intros _. cbn [m_iter_first negb m_when]. repeat apply calm_seq; auto using calm_ret, calm_indent, comment_calm.
  - destruct HO as (i & ->). destruct (Forall_inv HC) as [HI1 HI2]. apply calm_seq; [apply calm_ret|]. apply calm_seq; [|apply calm_ret].
    intros f f' HS E. unfold fmt_key_value_group in E. destruct (key_value_equal_alignment_width cfg gr [i]) as [ea|]; [|discriminate]. destruct (trailing_comment_alignment_width cfg gr dir ea [i] f) as [al|]; [|discriminate].
    revert f f' HS E. match goal with |- forall f f', _ -> ?m f = _ -> _ => change (calm m) end. cbn [m_iter_first negb m_when]. repeat apply calm_seq; auto using calm_ret.
Qed.
Lemma calm_table before t : t_lead t = [] -> t_groups t = [] -> Forall (fun k : fkey => no_break (snd k)) (t_keys t) -> (forall c, t_tc t = Some c -> fine (COMMENT, c)) -> calm (fmt_table cfg gr dir before t).
Proof.
  intros HL HG HK HT. unfold fmt_table. rewrite HL, HG. cbn [nonempty m_when].
  assert (HI : forall n m, calm m -> calm (m_iter (fun _ => m) (repeat tt n))) by (intros n m Hm; apply calm_iter; apply Forall_forall; auto).
  assert (HW : forall k, calm (write k [91])) by (intros; apply calm_write; repeat constructor; discriminate).
  assert (HW' : forall k, calm (write k [93])) by (intros; apply calm_write; repeat constructor; discriminate).
  repeat apply calm_seq; auto using calm_inc, calm_dec, calm_no_leading, calm_indent, calm_ret, calm_when, calm_keys, calm_trailing.
Qed.
Lemma one_line_root cs d : sh_doc (TNode ROOT cs) d -> lined cs -> Forall line_tree cs -> quiet cs -> calm (fmt_root cfg gr dir d).
Proof.
  intros HS HL HT HQ. inversion HS as [es gs n ts tables HB HTB]; subst. unfold fmt_root. cbn [d_groups d_tables]. apply calm_seq; [apply calm_set_depth|].
  apply Forall_app in HT as [HT1 HT2]. destruct (one_body _ _ _ _ _ HB HL HT1 HQ) as [[-> ->]|[(g & -> & HG) HN]].
  - apply calm_seq; [apply calm_ret|]. apply calm_seq; [destruct tables; apply calm_ret|]. cbn [app] in *.
    inversion HTB as [|n' w es' ts' H|array n' l lead wo kts ks wc tr tc body gs m' es' ts' HLD HK HTR HST HBD H]; subst; [apply calm_ret|destruct HQ as [(HO & _) _]; congruence|].
    match type of HL with lined (?t :: _) => assert (HD1 : lkinds [t] <> []) end.
    { change (lkinds [TNode ?k ?x]) with (lkinds x ++ []). rewrite app_nil_r, lkinds_app. destruct (lkinds l); discriminate. }
    pose proof (alone _ _ HL (proj1 HQ) HD1) as HE. destruct (tables_none _ _ _ H HE) as [-> ->]. cbn [fmt_tables]. apply calm_seq; [apply calm_ret|]. apply calm_seq; [|apply calm_ret].
    apply quiet_node in HQ. rewrite app_nil_r in HQ. destruct (quiet_lead _ _ _ _ HLD HQ) as [-> ->]; [discriminate|]. cbn [app] in HQ. apply (quiet_r [_]) in HQ.
    assert (HB0 : body = []).
    { destruct body as [|[k c0|k w] body]; [reflexivity|cbn in HST; contradiction|]. exfalso. cbn in HST. apply (quiet_r [_; _]) in HQ. apply quiet_r in HQ. destruct HQ as [(HO & _) _]. destruct k; try contradiction. }
    subst body. assert (gs = []) as -> by (inversion HBD; reflexivity). rewrite app_nil_r in HQ.
    destruct (quiet_keys _ _ HK) as [HKB _]; [apply (quiet_l [_]) in HQ; apply quiet_node in HQ; rewrite app_nil_r in HQ; apply HQ|].
    apply calm_table; cbn [t_lead t_groups t_keys t_tc]; auto. eapply quiet_trail; [exact HTR|]. apply (quiet_r [_; _]) in HQ. exact HQ.
  - destruct (tables_none _ _ _ HTB HN) as [-> ->]. apply calm_seq; [|apply calm_seq; apply calm_ret]. apply calm_one; [|exact HG]. apply quiet_l in HQ. apply quiet_shapes in HB; [|exact HQ]. apply Forall_inv in HB. exact HB.
Qed.
End Calm.

(** * The content of a directive *)
Lemma parse_onel seg source l x ws eof new tr ts c : seg [] = [] -> no_break source -> lex seg source = Some l -> errors l = [] ->
  tokens l = x ++ ws ++ [eof] -> tkind eof = EOF -> reads source x new -> shaped source tr ts c -> significant ts = significant new -> onel (lkinds c).
Proof.
  intros Hs HN HL HE HT HF HR HS HG. destruct (lex_tame seg source l Hs HL HE) as (HTM & _ & _).
  assert (HB : Forall (fun t => tkind t <> LINE_BREAK) (tokens l)).
  { apply Forall_forall. intros t Ht HK. destruct (LexNumbers.lex_token_text seg source l t HL Ht) as (w & W1 & W2); try (rewrite HK; discriminate).
    apply slice_incl in W1. rewrite HK in W2. pose proof (no_break_incl _ _ W1 HN) as HW. destruct W2 as [-> | ->]; inversion HW as [|? ? [H1 H2]]; congruence. }
  pose proof (tame_onel _ HTM HB) as HO.
  assert (HX : Forall (fun t => tkind t <> EOF) x).
  { apply Forall_forall. intros t Ht HK. apply in_split in Ht as (a & b & ->). destruct HTM as [_ H2 _]. specialize (H2 a t (b ++ ws ++ [eof])). rewrite HT, <- app_assoc in H2. specialize (H2 eq_refl HK). destruct b, ws; discriminate. }
  eapply krel_onel; [eapply shaped_krel; exact HS|]. change (sign ts) with (significant ts). rewrite HG. change (significant new) with (sign new). eapply krel_onel; [eapply reads_krel; exact HR|].
  rewrite HT, sign_app, filter_app, map_app in HO. apply onel_l in HO. erewrite <- (filter_ext_in (fun _ => true)) in HO.
  - assert (ET : filter (fun _ : LexerModel.token => true) (sign x) = sign x) by (generalize (sign x); intros y; induction y as [|t y IH]; [reflexivity|cbn; rewrite IH; reflexivity]). rewrite ET in HO. exact HO.
  - intros t Ht. apply filter_In in Ht as [Ht _]. rewrite Forall_forall in HX. symmetry. apply negb_true_iff. apply kind_eqb_neq. apply HX. exact Ht.
Qed.
(** The parser and the formatter of the content of a directive write no line break for a content without one. *)
Theorem directive_one_line cfg gr seg stack : seg [] = [] -> forall n, one_line (directive n cfg gr seg stack).
Proof.
  intros Hs. induction n as [|n IH]; intros s t HN E; cbn [directive] in E; [discriminate|]. destruct (read seg stack s) as [[[crlf d]|]| | |] eqn:ER; try discriminate.
  2:{ injection E as <-. eapply no_break_incl; [intros x; apply trim_incl|exact HN]. }
  destruct (fmt_root cfg gr (directive n cfg gr seg stack) d (initial true)) as [f|] eqn:EF; [|discriminate]. injection E as <-.
  unfold read in ER. destruct (parse seg stack s) as [[t es]| | |] eqn:EP; try discriminate. destruct es; [|discriminate].
  destruct (view_root (height t) (El [] t)) as [d0|] eqn:EV; [|discriminate]. injection ER as _ ->.
  destruct (read_content seg stack s t d Hs EP EV) as (_ & HG & HRD).
  destruct (parse_shape seg stack s t Hs EP) as (l & c & ws & d0 & HL & HE & -> & HGP & HC & HD & HLN & HLT & HX & x & ws' & eof & new & tr & ts & T1 & T2 & T3 & T4 & T5 & T6).
  destruct (root_view c ws d0 HC HGP HD) as (d' & V1 & V2). rewrite V1 in EV. injection EV as ->.
  assert (HO : onel (lkinds (strips c))) by (eapply parse_onel; eauto).
  assert (HQ : quiet (strips c)).
  { split; [exact HO|]. apply Forall_forall. intros p Hp HK. assert (HI : In p (doc_content d)).
    { rewrite <- (doc_content_eq _ _ V2). unfold content. apply in_flat_map. exists p. split; [exact Hp|]. destruct p as [k w]. unfold expand. cbn [fst] in *. destruct k; try discriminate; left; reflexivity. }
    split; [unfold good_tokens in HG; rewrite Forall_forall in HG; apply HG; exact HI|]. pose proof (content_incl _ _ _ HRD) as HCI. rewrite Forall_forall in HCI. eapply no_break_incl; [apply HCI; exact HI|exact HN]. }
  eapply (one_line_root cfg gr (directive n cfg gr seg stack) IH (strips c) d V2 HLN HLT HQ (initial true) f eq_refl EF). constructor.
Qed.
