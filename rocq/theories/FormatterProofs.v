(** Content, comments and commas of layouts. *)
From Coq Require Import String Ascii List NArith Bool Arith Lia ZifyBool.
From Verif Require Import Base SyntaxKind TextModel LexerModel LexerSpec LexSound TomlTextModel ParserModel ParserBuild AstModel
  FormatPieces FormatPiecesProofs FormatPiecesProps DateTimeModel DateTimeTokens FormatterModel FormatterLayout FormatterSpec.
Import ListNotations.
Open Scope N_scope.
Open Scope list_scope.

Lemma text_comment_iff c : text_ok COMMENT c <-> is_comment c.
Proof.
  cbn [text_ok]. unfold is_comment, no_break. split; intros (u & -> & H); exists u; split; auto.
  - apply Forall_forall. intros x Hx. rewrite forallb_forall in H. specialize (H x Hx). unfold is_line_break, c_cr, c_nl in H. lia.
  - apply forallb_forall. intros x Hx. rewrite Forall_forall in H. specialize (H x Hx). unfold is_line_break, c_cr, c_nl. lia.
Qed.
Lemma wf_keys_ne ks : wf_keys ks = true -> ks <> [].
Proof. destruct ks; [discriminate|congruence]. Qed.

(** * Content *)
Section Content.
Context (le : str) (limit : N) (rc : str -> str -> Prop) (rk : fkey -> piece -> Prop) (rl : kind -> str -> piece -> Prop) (same : piece -> piece -> Prop).
Context (Hrc : forall c c', good_token (COMMENT, c) -> rc c c' -> same (COMMENT, c) (COMMENT, c'))
  (Hrk : forall k p, key_kind (fst k) = true -> good_token k -> rk k p -> same k p /\ is_content p = true)
  (Hrl : forall k s p, literal_kind k = true -> good_token (k, s) -> rl k s p -> same (k, s) p /\ is_content p = true)
  (Hp : forall p, In p [(DOT, [46]); (EQUAL, [61]); opening true; opening false; closing true; closing false] -> same p p).
Notation CL := (comment_lines le rc). Notation DG := (dangling le rc). Notation TL := (tail rc).
Notation FC := (filter is_content).
Notation good := good_tokens.
Lemma good_app a b : good (a ++ b) <-> good a /\ good b.
Proof. apply Forall_app. Qed.
Lemma good_cons a b : good (a :: b) <-> good_token a /\ good b.
Proof. apply Forall_cons_iff. Qed.
Lemma fc_app a b : FC (a ++ b) = FC a ++ FC b.
Proof. apply filter_app. Qed.
Lemma fc_blanks b : FormatterLayout.blanks b -> FC b = [].
Proof. induction 1 as [|[k s] b [Hk _] H IH]; [reflexivity|]. cbn in Hk. subst k. exact IH. Qed.
Lemma fc_nls n : FC (repeat (nl le) n) = [].
Proof. induction n; [reflexivity|exact IHn]. Qed.
Lemma fc_sep w b : FC (separator le limit w b) = [].
Proof. unfold separator. destruct w; [apply fc_nls|reflexivity]. Qed.
Lemma content_lines cs ps : CL cs ps -> good (map comment_piece cs) -> Forall2 same (map comment_piece cs) (FC ps).
Proof.
  induction 1 as [|c cs c' b ps Hb Hc H IH]; intros HG; [constructor|]. cbn [map] in *. apply good_cons in HG. destruct HG as [G1 G2].
  rewrite fc_app, (fc_blanks b Hb). cbn. constructor; [apply Hrc; assumption|apply IH; exact G2].
Qed.
Lemma content_dangling cs ps : DG cs ps -> good (map comment_piece cs) -> Forall2 same (map comment_piece cs) (FC ps).
Proof.
  induction 1 as [c c' b Hb Hc|c cs c' b ps Hb Hc H IH]; intros HG; cbn [map] in *; apply good_cons in HG; destruct HG as [G1 G2];
    rewrite fc_app, (fc_blanks b Hb); cbn; constructor; try (apply Hrc; assumption); [constructor|apply IH; exact G2].
Qed.
Lemma content_tail tc ps : TL tc ps -> good (opt_comment tc) -> Forall2 same (opt_comment tc) (FC ps).
Proof.
  induction 1 as [|c c' b Hb Hc]; intros HG; [constructor|]. cbn [opt_comment] in *. apply good_cons in HG. destruct HG as [G1 G2].
  rewrite fc_app, (fc_blanks b Hb). cbn. constructor; [apply Hrc; assumption|constructor].
Qed.
Lemma content_keys ks ps : lay_keys rk ks ps -> forallb (fun k => key_kind (fst k)) ks = true -> good (keys_content ks) -> Forall2 same (keys_content ks) (FC ps).
Proof.
  induction 1 as [k p Hk|k p ks ps Hk H IH]; intros HK HG.
  - cbn in HK, HG |- *. apply good_cons in HG. apply andb_prop in HK. destruct (Hrk k p (proj1 HK) (proj1 HG) Hk) as [H1 ->]. constructor; [exact H1|constructor].
  - cbn [forallb] in HK. apply andb_prop in HK.
    assert (EK : keys_content (k :: ks) = k :: (DOT, [46]) :: keys_content ks) by (inversion H; reflexivity).
    rewrite EK in *. apply good_cons in HG. destruct HG as [G1 G2]. apply good_cons in G2. destruct (Hrk k p (proj1 HK) G1 Hk) as [H1 H2].
    cbn [filter]. rewrite H2. cbn. constructor; [exact H1|]. constructor; [apply Hp; cbn; auto|]. apply IH; [apply HK|apply G2].
Qed.
Lemma content_comma h c ps : lay_comma le rc h c ps -> good (comma_content c) -> Forall2 same (comma_content c) (FC ps).
Proof.
  induction 1 as [h|tc pt Ht|tc b pt Hb Ht|h c cs pl tc b pt Hl Hb Ht]; cbn [comma_content map app]; intros HG.
  - constructor.
  - cbn. apply content_tail; assumption.
  - cbn. rewrite fc_app, (fc_blanks b Hb). cbn [filter comma_piece is_content fst app]. exact (content_tail _ _ Ht HG).
  - rewrite app_comm_cons in HG |- *. apply good_app in HG. cbn [FC nl is_content fst filter]. rewrite !fc_app, (fc_blanks b Hb). cbn. rewrite app_comm_cons.
    apply Forall2_app; [apply (content_lines _ _ Hl); apply HG|apply content_tail; [exact Ht|apply HG]].
Qed.
Lemma content_line_comma h c ps : lay_line_comma le rc h c ps -> good (comma_content c) -> Forall2 same (comma_content c) (FC ps).
Proof.
  induction 1 as [h|h|tc pt Ht|tc b pt Hb Ht|h c cs pl tc b pt Hl Hb Ht]; cbn [comma_content map app]; intros HG.
  - constructor.
  - constructor.
  - apply content_tail; assumption.
  - cbn. rewrite fc_app, (fc_blanks b Hb). cbn [filter comma_piece is_content fst app]. exact (content_tail _ _ Ht HG).
  - rewrite app_comm_cons in HG |- *. apply good_app in HG. cbn [FC nl is_content fst filter]. rewrite !fc_app, (fc_blanks b Hb). cbn. rewrite app_comm_cons.
    apply Forall2_app; [apply (content_lines _ _ Hl); apply HG|apply content_tail; [exact Ht|apply HG]].
Qed.
Definition groups_content (gs : list (group (item fval))) := flat_map group_content gs.
Lemma box_content table lead otc gs tc : value_content (FBox table lead otc gs tc) =
  map comment_piece lead ++ [opening table] ++ opt_comment otc ++ groups_content gs ++ [closing table] ++ opt_comment tc.
Proof.
  assert (E : forall g, (match g with GD _ cs => map comment_piece cs | GI _ its => flat_map (fun i => match i with Item l ks r v c =>
    item_content (fun _ => value_content v) (Item l ks r v c) end) its end) = group_content g).
  { intros [b cs|b its]; [reflexivity|]. cbn [group_content]. apply flat_map_ext. intros [l ks r v c]. destruct ks; reflexivity. }
  cbn [value_content]. unfold groups_content. rewrite (flat_map_ext _ _ E). reflexivity.
Qed.
Lemma opening_eq t : open_piece t = opening t. Proof. reflexivity. Qed.
Lemma closing_eq t : close_piece t = closing t. Proof. reflexivity. Qed.
Lemma same_open t : same (opening t) (opening t). Proof. apply Hp. destruct t; cbn; auto. Qed.
Lemma same_close t : same (closing t) (closing t). Proof. apply Hp. destruct t; cbn; auto 7. Qed.
(** Well-formedness of the parts *)
Definition wfi (i : item fval) : bool :=
  match i with Item lead ks _ v _ => (match ks with [] => negb (nonempty lead) | _ => wf_keys ks end) && wf_value v end.
Definition wfg (g : group (item fval)) : bool := match g with GD _ _ => true | GI _ its => forallb wfi its end.
Lemma wf_item_wfi t i : wf_item t i && wf_value (ival i) = true -> wfi i = true.
Proof.
  destruct i as [lead ks r v c]. cbn [wf_item wfi ival]. intros H. apply andb_prop in H. destruct H as [H ->]. rewrite andb_true_r.
  destruct t; apply andb_prop in H; destruct H as [H1 H2]; [destruct ks; [discriminate|exact H1]|]. destruct ks; [exact H2|discriminate].
Qed.
Lemma wf_box_wfg t lead otc gs tc : wf_value (FBox t lead otc gs tc) = true -> forallb wfg gs = true.
Proof.
  cbn [wf_value]. intros H. apply forallb_forall. intros g Hg. rewrite forallb_forall in H. specialize (H g Hg).
  destruct g as [b cs|b its]; [reflexivity|]. apply andb_prop in H. destruct H as [_ H]. cbn. apply forallb_forall. intros i Hi.
  rewrite forallb_forall in H. specialize (H i Hi). destruct i as [l ks r v c]. apply (wf_item_wfi t). exact H.
Qed.
Lemma wfg_items gs : forallb wfg gs = true -> forallb wfi (items_of gs) = true.
Proof.
  induction gs as [|g gs IH]; [reflexivity|]. cbn [forallb items_of flat_map]. intros H. apply andb_prop in H. destruct H as [H1 H2].
  rewrite forallb_app. apply andb_true_intro. split; [destruct g; [reflexivity|exact H1]|apply IH; exact H2].
Qed.
Lemma items_content gs : forallb (fun g : group (item fval) => match g with GD _ _ => false | GI _ _ => true end) gs = true ->
  groups_content gs = flat_map (item_content value_content) (items_of gs).
Proof.
  induction gs as [|g gs IH]; [reflexivity|]. cbn [forallb]. intros H. apply andb_prop in H. destruct H as [H1 H2]. destruct g as [|b its]; [discriminate|].
  unfold groups_content, items_of in *. cbn [flat_map group_content group_items]. rewrite flat_map_app, IH by exact H2. reflexivity.
Qed.
Definition before_comma (i : item fval) : list piece :=
  match i with
  | Item lead [] _ v _ => map comment_piece lead ++ value_content v
  | Item lead ks _ v _ => map comment_piece lead ++ keys_content ks ++ [(EQUAL, [61])] ++ value_content v
  end.
Lemma item_split i : item_content value_content i = before_comma i ++ comma_content (icomma i).
Proof. destruct i as [l [|k ks] r v c]; cbn [item_content before_comma icomma]; rewrite <- ?app_assoc; reflexivity. Qed.
Lemma quiet_comma i : quiet i -> comma_content (icomma i) = [].
Proof. destruct i as [l ks r v c]. cbn. intros (_ & _ & [-> | ->]); reflexivity. Qed.
Lemma layout_content :
  (forall v ps, lay_value le limit rc rk rl v ps -> wf_value v = true -> good (value_content v) -> Forall2 same (value_content v) (FC ps)) /\
  (forall i ps, lay_item le limit rc rk rl i ps -> wfi i = true -> good (before_comma i) -> Forall2 same (before_comma i) (FC ps)) /\
  (forall its ps, lay_lines le limit rc rk rl its ps -> forallb wfi its = true -> good (flat_map (item_content value_content) its) ->
     Forall2 same (flat_map (item_content value_content) its) (FC ps)) /\
  (forall w gs ps, lay_groups le limit rc rk rl w gs ps -> forallb wfg gs = true -> good (groups_content gs) -> Forall2 same (groups_content gs) (FC ps)) /\
  (forall its ps, lay_line le limit rc rk rl its ps -> forallb wfi its = true -> Forall quiet its -> good (flat_map (item_content value_content) its) ->
     Forall2 same (flat_map (item_content value_content) its) (FC ps)).
Proof.
  apply lay_mutind.
  - intros lead k tok tc pl b p pt Hl Hb Hr Ht HW HG. cbn [value_content] in *. apply good_app in HG. destruct HG as [G1 G2]. apply good_cons in G2. destruct G2 as [G2 G3].
    destruct (Hrl k tok p HW G2 Hr) as [S1 S2]. rewrite !fc_app, (fc_blanks b Hb). cbn [filter app]. rewrite S2.
    apply Forall2_app; [apply content_lines; assumption|]. constructor; [exact S1|apply content_tail; assumption].
  - intros table lead otc gs tc pl b po pg b' pt Hl Hb Ho Hg IH Hb' Ht HW HG. rewrite box_content in *.
    apply good_app in HG. destruct HG as [G1 G2]. apply good_app in G2. destruct G2 as [_ G2]. apply good_app in G2. destruct G2 as [G2 G3].
    apply good_app in G3. destruct G3 as [G3 G4]. apply good_app in G4. destruct G4 as [_ G4].
    assert (IC : is_content (opening table) = true /\ is_content (closing table) = true) by (destruct table; split; reflexivity).
    rewrite !fc_app, (fc_blanks b Hb). cbn [filter app]. change (open_piece table) with (opening table). rewrite (proj1 IC), !fc_app. cbn [filter nl is_content fst].
    rewrite !fc_app. cbn [filter]. rewrite fc_app, (fc_blanks b' Hb'). cbn [filter app nl is_content fst]. change (close_piece table) with (closing table). rewrite (proj2 IC).
    apply Forall2_app; [apply content_lines; assumption|]. constructor; [apply same_open|].
    apply Forall2_app; [apply content_tail; assumption|]. apply Forall2_app; [apply IH; [apply (wf_box_wfg _ _ _ _ _ HW)|exact G3]|].
    constructor; [apply same_close|apply content_tail; assumption].
  - intros table lead gs tc pl b b1 pg b2 pt Hl Hb Hb1 HGI HQ Hg IH Hb2 Ht HW HG. rewrite box_content in *.
    apply good_app in HG. destruct HG as [G1 G2]. apply good_app in G2. destruct G2 as [_ G2]. apply good_app in G2. destruct G2 as [G2 G3].
    apply good_app in G3. destruct G3 as [G3 G4]. apply good_app in G4. destruct G4 as [_ G4].
    assert (IC : is_content (opening table) = true /\ is_content (closing table) = true) by (destruct table; split; reflexivity).
    rewrite !fc_app, (fc_blanks b Hb). cbn [filter app]. change (open_piece table) with (opening table). rewrite (proj1 IC), !fc_app, (fc_blanks b1 Hb1), (fc_blanks b2 Hb2). cbn [filter app opt_comment].
    change (close_piece table) with (closing table). rewrite (proj2 IC). rewrite (items_content gs HGI) in G3 |- *.
    apply Forall2_app; [apply content_lines; assumption|]. constructor; [apply same_open|].
    apply Forall2_app; [apply IH; [apply wfg_items, (wf_box_wfg _ _ _ _ _ HW)|exact HQ|exact G3]|]. constructor; [apply same_close|apply content_tail; assumption].
  - intros raw v c ps Hv IH HW HG. cbn [wfi before_comma map app] in *. apply andb_prop in HW. apply IH; [apply HW|exact HG].
  - intros lead ks raw v c pl b pk b1 b2 pv Hl Hb Hk Hb1 Hb2 Hv IH HW HG. cbn [wfi] in HW. apply andb_prop in HW. destruct HW as [HK HV].
    assert (HN : ks <> []) by (inversion Hk; discriminate). destruct ks as [|k ks]; [contradiction|]. cbn [before_comma] in *.
    apply good_app in HG. destruct HG as [G1 G2]. apply good_app in G2. destruct G2 as [G2 G3]. apply good_app in G3. destruct G3 as [_ G3].
    rewrite !fc_app, (fc_blanks b Hb), (fc_blanks b1 Hb1). cbn [filter app is_content fst]. rewrite fc_app, (fc_blanks b2 Hb2). cbn [app].
    apply Forall2_app; [apply content_lines; assumption|]. apply Forall2_app; [apply content_keys; [exact Hk|apply andb_prop in HK; apply HK|exact G2]|].
    constructor; [apply Hp; cbn; auto|]. apply IH; assumption.
  - intros i pi pc Hi IH Hc HW HG. cbn [flat_map] in *. rewrite app_nil_r in *. rewrite item_split in *. cbn [forallb] in HW. apply andb_prop in HW.
    apply good_app in HG. rewrite fc_app. apply Forall2_app; [apply IH; [apply HW|apply HG]|apply (content_comma _ _ _ Hc); apply HG].
  - intros i its pi pc ps Hi IH Hc Hs IHs HW HG. cbn [flat_map] in *. rewrite item_split in *. cbn [forallb] in HW. apply andb_prop in HW.
    apply good_app in HG. destruct HG as [HG G3]. apply good_app in HG. rewrite !fc_app. cbn [filter nl is_content fst]. rewrite app_assoc.
    apply Forall2_app; [apply Forall2_app; [apply IH; [apply HW|apply HG]|apply (content_comma _ _ _ Hc); apply HG]|apply IHs; [apply HW|exact G3]].
  - intros w _ _. constructor.
  - intros w b cs gs pc ps Hd Hg IH HW HG. unfold groups_content in *. cbn [flat_map group_content] in *. apply good_app in HG. rewrite !fc_app, fc_sep; cbn [app].
    apply Forall2_app; [apply content_dangling; [exact Hd|apply HG]|apply IH; [exact HW|apply HG]].
  - intros w b its gs pi ps Hd IHd Hg IH HW HG. unfold groups_content in *. cbn [flat_map group_content] in *. apply good_app in HG. rewrite !fc_app, fc_sep; cbn [app].
    cbn [forallb] in HW. apply andb_prop in HW. apply Forall2_app; [apply IHd; [apply HW|apply HG]|apply IH; [apply HW|apply HG]].
  - intros _ _ _. constructor.
  - intros i pi Hi IH HW HQ HG. cbn [flat_map] in *. rewrite app_nil_r in *. rewrite item_split, (quiet_comma _ (Forall_inv HQ)), app_nil_r in *.
    cbn [forallb] in HW. apply andb_prop in HW. apply IH; [apply HW|exact HG].
  - intros i its pi b ps Hi IH Hb _ Hs IHs HW HQ HG. cbn [flat_map] in *. rewrite item_split, (quiet_comma _ (Forall_inv HQ)), app_nil_r in *.
    cbn [forallb] in HW. apply andb_prop in HW. apply good_app in HG. rewrite fc_app. cbn [filter comma_piece is_content fst]. rewrite fc_app, (fc_blanks b Hb).
    apply Forall2_app; [apply IH; [apply HW|apply HG]|apply IHs; [apply HW|apply (Forall_inv_tail HQ)|apply HG]].
Qed.
Lemma kvs_content its ps : lay_kvs le limit rc rk rl its ps -> forallb wfi its = true -> good (flat_map (item_content value_content) its) ->
  Forall2 same (flat_map (item_content value_content) its) (FC ps).
Proof.
  destruct layout_content as (_ & HI & _).
  induction 1 as [i pi pc Hi Hc|i its pi pc ps Hi Hc Hs IHs]; intros HW HG; cbn [flat_map] in *; rewrite item_split in *; cbn [forallb] in HW; apply andb_prop in HW.
  - rewrite app_nil_r in *. apply good_app in HG. rewrite fc_app. apply Forall2_app; [apply HI; [exact Hi|apply HW|apply HG]|apply (content_line_comma _ _ _ Hc); apply HG].
  - apply good_app in HG. destruct HG as [HG G3]. apply good_app in HG. rewrite !fc_app. cbn [filter nl is_content fst]. rewrite app_assoc.
    apply Forall2_app; [apply Forall2_app; [apply HI; [exact Hi|apply HW|apply HG]|apply (content_line_comma _ _ _ Hc); apply HG]|apply IHs; [apply HW|exact G3]].
Qed.
Lemma blocks_content w gs ps : lay_blocks le limit rc rk rl w gs ps -> forallb wfg gs = true -> good (groups_content gs) -> Forall2 same (groups_content gs) (FC ps).
Proof.
  induction 1 as [w|w b cs gs pc ps Hd Hg IH|w b its gs pi ps Hd Hg IH]; intros HW HG; [constructor| |];
    unfold groups_content in *; cbn [flat_map group_content] in *; apply good_app in HG; rewrite !fc_app, fc_sep; cbn [app].
  - apply Forall2_app; [apply content_dangling; [exact Hd|apply HG]|apply IH; [exact HW|apply HG]].
  - cbn [forallb] in HW. apply andb_prop in HW. apply Forall2_app; [apply kvs_content; [exact Hd|apply HW|apply HG]|apply IH; [apply HW|apply HG]].
Qed.
Lemma wf_groups_wfg gs : forallb wf_group gs = true -> forallb wfg gs = true.
Proof.
  intros H. apply forallb_forall. intros g Hg. rewrite forallb_forall in H. specialize (H g Hg). destruct g as [|b its]; [reflexivity|].
  cbn in H |- *. apply andb_prop in H. destruct H as [_ H]. apply forallb_forall. intros i Hi. rewrite forallb_forall in H. apply (wf_item_wfi true), H, Hi.
Qed.
Lemma table_content_ok t ps : lay_table le limit rc rk rl t ps -> wf_table t = true -> good (table_content t) -> Forall2 same (table_content t) (FC ps).
Proof.
  induction 1 as [a lead ks tc gs bl pl b pk pt pg Hl Hb Hk Ht Hg]; intros HW HG. unfold table_content in *. cbn [t_lead t_array t_keys t_tc t_groups] in *.
  apply andb_prop in HW. destruct HW as [W1 W2]. cbn [t_keys t_groups] in W1, W2.
  apply good_app in HG. destruct HG as [G1 HG]. apply good_app in HG. destruct HG as [_ HG]. apply good_app in HG. destruct HG as [G2 HG].
  apply good_app in HG. destruct HG as [_ HG]. apply good_app in HG. destruct HG as [G3 G4].
  rewrite !fc_app, (fc_blanks b Hb). cbn [app].
  apply Forall2_app; [apply content_lines; assumption|].
  apply Forall2_app. { destruct a; cbn; repeat constructor; apply (same_open false). }
  apply Forall2_app. { apply content_keys; [exact Hk|apply andb_prop in W1; apply W1|exact G2]. }
  apply Forall2_app. { destruct a; cbn; repeat constructor; apply (same_close false). }
  apply Forall2_app; [apply content_tail; assumption|].
  assert (HB : Forall2 same (groups_content gs) (FC pg)) by (apply (blocks_content _ _ _ Hg); [apply wf_groups_wfg; exact W2|exact G4]).
  destruct gs as [|g gs]; [constructor|]. exact HB.
Qed.
Lemma tables_content gap ts ps : lay_tables le limit rc rk rl gap ts ps -> forallb wf_table ts = true -> good (flat_map table_content ts) ->
  Forall2 same (flat_map table_content ts) (FC ps).
Proof.
  induction 1 as [t ps Ht|t t' ts pt ps Ht Hs IH]; intros HW HG.
  - cbn [flat_map forallb] in *. rewrite app_nil_r in *. apply andb_prop in HW. apply table_content_ok; [exact Ht|apply HW|exact HG].
  - cbn [forallb] in HW. apply andb_prop in HW. change (flat_map table_content (t :: t' :: ts)) with (table_content t ++ flat_map table_content (t' :: ts)) in *.
    apply good_app in HG. rewrite fc_app. cbn [filter nl is_content fst]. rewrite fc_app, fc_nls.
    apply Forall2_app; [apply table_content_ok; [exact Ht|apply HW|apply HG]|apply IH; [apply HW|apply HG]].
Qed.
Lemma root_content gap rgap d ps : lay_root le limit rc rk rl gap rgap d ps -> wf_doc d = true -> good (doc_content d) -> Forall2 same (doc_content d) (FC ps).
Proof.
  intros H HW HG. apply andb_prop in HW. destruct HW as [W1 W2]. unfold doc_content in *. apply good_app in HG. destruct HG as [G1 G2].
  destruct H as [gs ps Hg|gs t ts pg ps Hg Ht]; cbn [d_groups d_tables] in *.
  - rewrite app_nil_r. apply (blocks_content _ _ _ Hg); [apply wf_groups_wfg; exact W1|exact G1].
  - rewrite !fc_app. apply Forall2_app; [apply (blocks_content _ _ _ Hg); [apply wf_groups_wfg; exact W1|exact G1]|].
    replace (FC match gs with [] => [] | _ :: _ => nl le :: repeat (nl le) (rgap gs t) end) with (@nil piece).
    2: { destruct gs; [reflexivity|]. cbn [filter nl is_content fst]. symmetry. apply fc_nls. }
    cbn [app]. apply (tables_content _ _ _ Ht); assumption.
Qed.
End Content.

(** * Comments end their lines *)
Fixpoint csafe (ps : list piece) : Prop :=
  match ps with
  | [] => True
  | (k, _) :: r => (k = COMMENT -> match r with [] => True | (k', _) :: _ => k' = LINE_BREAK end) /\ csafe r
  end.
Definition endc (ps : list piece) : Prop := exists a c, ps = a ++ [(COMMENT, c)].
Definition lb (ps : list piece) : Prop := match ps with [] => True | (k, _) :: _ => k = LINE_BREAK end.
Lemma csafe_spec ps : csafe ps -> comments_end_lines ps.
Proof.
  intros H a c b ->. induction a as [|[k s] a IH]; cbn in H.
  - destruct H as [H _]. specialize (H eq_refl). destruct b as [|[k' s] b]; [auto|]. subst k'. right. eauto.
  - apply IH. apply H.
Qed.
Lemma endc_app a b : b <> [] -> endc (a ++ b) -> endc b.
Proof.
  intros HN (x & c & E). destruct (exists_last HN) as (b' & l & ->). rewrite app_assoc in E. apply app_inj_tail in E. destruct E as [_ ->]. exists b', c. reflexivity.
Qed.
Lemma endc_cons p b : b <> [] -> endc (p :: b) -> endc b.
Proof. apply (endc_app [p] b). Qed.
Lemma endc_one k s : endc [(k, s)] -> k = COMMENT.
Proof. intros (a & c & E). destruct a as [|x a]; [injection E; auto|]. destruct a; discriminate. Qed.
Lemma endc_nil : ~ endc [].
Proof. intros (a & c & E). destruct a; discriminate. Qed.
Lemma csafe_app a b : csafe a -> csafe b -> (endc a -> lb b) -> csafe (a ++ b).
Proof.
  induction a as [|[k s] a IH]; intros HA HB HE; [exact HB|]. cbn in HA |- *. destruct HA as [H1 H2]. split.
  - intros ->. specialize (H1 eq_refl). destruct a as [|[k' s'] a]; [|exact H1]. cbn. specialize (HE (ex_intro _ [] (ex_intro _ s eq_refl))). destruct b as [|[k' s'] b]; [exact I|exact HE].
  - apply IH; [exact H2|exact HB|]. intros (x & c & ->). apply HE. exists ((k, s) :: x), c. reflexivity.
Qed.
Lemma csafe_cons k s b : k <> COMMENT -> csafe b -> csafe ((k, s) :: b).
Proof. cbn. tauto. Qed.
Lemma csafe_comment s b : lb b -> csafe b -> csafe ((COMMENT, s) :: b).
Proof. cbn. intros H1 H2. split; [intros _; destruct b as [|[? ?] ?]; [exact I|exact H1]|exact H2]. Qed.

Section Comments.
Context (le : str) (limit : N) (rc : str -> str -> Prop) (rk : fkey -> piece -> Prop) (rl : kind -> str -> piece -> Prop).
Context (Hrk : forall k p, rk k p -> fst p <> COMMENT) (Hrl : forall k s p, literal_kind k = true -> rl k s p -> fst p <> COMMENT).
Lemma cs_blanks b : FormatterLayout.blanks b -> csafe b /\ ~ endc b.
Proof.
  induction 1 as [|[k s] b [Hk _] H IH]; [split; [exact I|apply endc_nil]|]. cbn in Hk. subst k. split; [apply csafe_cons; [discriminate|apply IH]|].
  intros HE. destruct b as [|p b]; [apply endc_one in HE; discriminate|]. apply endc_cons in HE; [|discriminate]. apply IH. exact HE.
Qed.
Lemma cs_pre b ps : FormatterLayout.blanks b -> csafe ps -> csafe (b ++ ps).
Proof. intros Hb Hp. destruct (cs_blanks b Hb). apply csafe_app; auto. intros HE. contradiction. Qed.
Lemma cs_nl ps : csafe ps -> csafe (nl le :: ps).
Proof. apply csafe_cons. discriminate. Qed.
Lemma cs_nls n ps : csafe ps -> csafe (repeat (nl le) n ++ ps).
Proof. intros H. induction n; [exact H|]. cbn [repeat app]. apply cs_nl. exact IHn. Qed.
Lemma cs_lines cs ps qs : comment_lines le rc cs ps -> csafe qs -> csafe (ps ++ qs).
Proof.
  intros H HQ. induction H as [|c cs c' b ps Hb Hc H IH]; [exact HQ|]. rewrite <- app_assoc. apply cs_pre; [exact Hb|]. cbn [app].
  apply csafe_comment; [reflexivity|]. apply cs_nl. exact IH.
Qed.
Lemma cs_dangling cs ps qs : dangling le rc cs ps -> csafe qs -> lb qs -> csafe (ps ++ qs).
Proof.
  intros H HQ HL. induction H as [c c' b Hb Hc|c cs c' b ps Hb Hc H IH]; rewrite <- app_assoc; (apply cs_pre; [exact Hb|]); cbn [app].
  - apply csafe_comment; assumption.
  - apply csafe_comment; [reflexivity|]. apply cs_nl. exact IH.
Qed.
Lemma cs_tail tc ps qs : tail rc tc ps -> csafe qs -> (tc <> None -> lb qs) -> csafe (ps ++ qs).
Proof.
  intros H HQ HL. destruct H as [|c c' b Hb Hc]; [exact HQ|]. rewrite <- app_assoc. apply cs_pre; [exact Hb|]. cbn [app].
  apply csafe_comment; [apply HL; discriminate|exact HQ].
Qed.
Lemma cs_keys ks ps qs : lay_keys rk ks ps -> csafe qs -> csafe (ps ++ qs).
Proof.
  intros H HQ. induction H as [k [kd s] Hk|k [kd s] ks ps Hk H IH]; cbn [app].
  - apply csafe_cons; [exact (Hrk _ _ Hk)|exact HQ].
  - apply csafe_cons; [exact (Hrk _ _ Hk)|]. apply csafe_cons; [discriminate|exact IH].
Qed.
Lemma cs_comma h c ps qs : lay_comma le rc h c ps -> csafe qs -> lb qs -> csafe (ps ++ qs).
Proof.
  intros H HQ HL. destruct H as [h|tc pt Ht|tc b pt Hb Ht|h c cs pl tc b pt Hl Hb Ht]; cbn [app].
  - exact HQ.
  - apply csafe_cons; [discriminate|]. apply (cs_tail _ _ _ Ht); auto.
  - apply cs_nl. rewrite <- app_assoc. apply cs_pre; [exact Hb|]. cbn [app]. apply csafe_cons; [discriminate|]. apply (cs_tail _ _ _ Ht); auto.
  - apply cs_nl. rewrite <- !app_assoc. apply (cs_lines _ _ _ Hl). apply cs_pre; [exact Hb|]. cbn [app]. apply csafe_cons; [discriminate|]. apply (cs_tail _ _ _ Ht); auto.
Qed.
Lemma comma_lb h c ps qs : lay_comma le rc h c ps -> h = true -> lb qs -> lb (ps ++ qs).
Proof. intros H HH HL. destruct H; cbn [app]; [exact HL|discriminate|reflexivity|reflexivity]. Qed.
Lemma cs_line_comma h c ps qs : lay_line_comma le rc h c ps -> csafe qs -> lb qs -> csafe (ps ++ qs).
Proof.
  intros H HQ HL. destruct H as [h|h|tc pt Ht|tc b pt Hb Ht|h c cs pl tc b pt Hl Hb Ht]; cbn [app].
  - exact HQ.
  - exact HQ.
  - apply (cs_tail _ _ _ Ht); auto.
  - apply cs_nl. rewrite <- app_assoc. apply cs_pre; [exact Hb|]. cbn [app]. apply csafe_cons; [discriminate|]. apply (cs_tail _ _ _ Ht); auto.
  - apply cs_nl. rewrite <- !app_assoc. apply (cs_lines _ _ _ Hl). apply cs_pre; [exact Hb|]. cbn [app]. apply csafe_cons; [discriminate|]. apply (cs_tail _ _ _ Ht); auto.
Qed.
Lemma line_comma_lb h c ps qs : lay_line_comma le rc h c ps -> h = true -> lb qs -> lb (ps ++ qs).
Proof. intros H HH HL. destruct H; cbn [app]; try assumption; try reflexivity. discriminate. Qed.
Lemma sep_lb b qs : lb (separator le limit true b ++ qs).
Proof. reflexivity. Qed.
Lemma groups_lb gs ps qs : lay_groups le limit rc rk rl true gs ps -> lb qs -> lb (ps ++ qs).
Proof. intros H HQ. inversion H; subst; [exact HQ|reflexivity|reflexivity]. Qed.
Lemma blocks_lb gs ps qs : lay_blocks le limit rc rk rl true gs ps -> lb qs -> lb (ps ++ qs).
Proof. intros H HQ. inversion H; subst; [exact HQ|reflexivity|reflexivity]. Qed.
Lemma cs_sep w b qs : csafe qs -> csafe (separator le limit w b ++ qs).
Proof. unfold separator. destruct w; [apply cs_nls|trivial]. Qed.
Lemma open_ne t : fst (open_piece t) <> COMMENT. Proof. destruct t; discriminate. Qed.
Lemma close_ne t : fst (close_piece t) <> COMMENT. Proof. destruct t; discriminate. Qed.
Lemma csafe_cons' p b : fst p <> COMMENT -> csafe b -> csafe (p :: b).
Proof. destruct p. apply csafe_cons. Qed.
Lemma layout_comments :
  (forall v ps, lay_value le limit rc rk rl v ps -> wf_value v = true -> forall qs, csafe qs -> (vtc v <> None -> lb qs) -> csafe (ps ++ qs)) /\
  (forall i ps, lay_item le limit rc rk rl i ps -> wfi i = true -> forall qs, csafe qs -> (vtc (ival i) <> None -> lb qs) -> csafe (ps ++ qs)) /\
  (forall its ps, lay_lines le limit rc rk rl its ps -> forallb wfi its = true -> forall qs, csafe qs -> lb qs -> csafe (ps ++ qs)) /\
  (forall w gs ps, lay_groups le limit rc rk rl w gs ps -> forallb wfg gs = true -> forall qs, csafe qs -> lb qs -> csafe (ps ++ qs)) /\
  (forall its ps, lay_line le limit rc rk rl its ps -> forallb wfi its = true -> Forall quiet its -> forall qs, csafe qs -> csafe (ps ++ qs)).
Proof.
  apply lay_mutind.
  - intros lead k tok tc pl b p pt Hl Hb Hr Ht HW qs HQ HL. rewrite <- !app_assoc. cbn [app]. apply (cs_lines _ _ _ Hl). apply cs_pre; [exact Hb|].
    apply csafe_cons'; [exact (Hrl _ _ _ HW Hr)|]. apply (cs_tail _ _ _ Ht); assumption.
  - intros table lead otc gs tc pl b po pg b' pt Hl Hb Ho Hg IH Hb' Ht HW qs HQ HL. rewrite <- !app_assoc. cbn [app]. rewrite <- !app_assoc. cbn [app]. rewrite <- !app_assoc. cbn [app].
    rewrite <- !app_assoc. cbn [app]. apply (cs_lines _ _ _ Hl). apply cs_pre; [exact Hb|]. apply csafe_cons'; [apply open_ne|]. apply (cs_tail _ _ _ Ho); [|reflexivity].
    apply cs_nl. apply IH; [apply (wf_box_wfg _ _ _ _ _ HW)| |reflexivity]. apply cs_nl. apply cs_pre; [exact Hb'|]. apply csafe_cons'; [apply close_ne|].
    apply (cs_tail _ _ _ Ht); assumption.
  - intros table lead gs tc pl b b1 pg b2 pt Hl Hb Hb1 HGI HQ Hg IH Hb2 Ht HW qs HS HL. rewrite <- !app_assoc. cbn [app]. rewrite <- !app_assoc. cbn [app].
    apply (cs_lines _ _ _ Hl). apply cs_pre; [exact Hb|]. apply csafe_cons'; [apply open_ne|]. apply cs_pre; [exact Hb1|].
    apply IH; [apply wfg_items, (wf_box_wfg _ _ _ _ _ HW)|exact HQ|]. apply cs_pre; [exact Hb2|]. apply csafe_cons'; [apply close_ne|]. apply (cs_tail _ _ _ Ht); assumption.
  - intros raw v c ps Hv IH HW qs HQ HL. cbn [wfi ival] in *. apply andb_prop in HW. apply IH; [apply HW|exact HQ|exact HL].
  - intros lead ks raw v c pl b pk b1 b2 pv Hl Hb Hk Hb1 Hb2 Hv IH HW qs HQ HL. cbn [wfi ival] in *. apply andb_prop in HW. rewrite <- !app_assoc. cbn [app]. rewrite <- !app_assoc.
    apply (cs_lines _ _ _ Hl). apply cs_pre; [exact Hb|]. apply (cs_keys _ _ _ Hk). apply cs_pre; [exact Hb1|]. apply csafe_cons; [discriminate|]. apply cs_pre; [exact Hb2|].
    apply IH; [apply HW|exact HQ|exact HL].
  - intros i pi pc Hi IH Hc HW qs HQ HL. cbn [forallb] in HW. apply andb_prop in HW. rewrite <- app_assoc. apply IH; [apply HW|apply (cs_comma _ _ _ _ Hc HQ HL)|].
    intros HV. destruct (vtc (ival i)) eqn:E; [|congruence]. apply (comma_lb _ _ _ _ Hc eq_refl HL).
  - intros i its pi pc ps Hi IH Hc Hs IHs HW qs HQ HL. cbn [forallb] in HW. apply andb_prop in HW. rewrite <- !app_assoc. cbn [app].
    assert (HR : csafe (nl le :: ps ++ qs)) by (apply cs_nl, IHs; [apply HW|exact HQ|exact HL]).
    apply IH; [apply HW|apply (cs_comma _ _ _ _ Hc HR eq_refl)|].
    intros HV. destruct (vtc (ival i)) eqn:E; [|congruence]. apply (comma_lb _ _ _ _ Hc eq_refl). reflexivity.
  - intros w _ qs HQ _. exact HQ.
  - intros w b cs gs pc ps Hd Hg IH HW qs HQ HL. rewrite <- !app_assoc. apply cs_sep. apply (cs_dangling _ _ _ Hd); [apply IH; [exact HW|exact HQ|exact HL]|]. apply (groups_lb _ _ _ Hg HL).
  - intros w b its gs pi ps Hd IHd Hg IH HW qs HQ HL. cbn [forallb] in HW. apply andb_prop in HW. rewrite <- !app_assoc. apply cs_sep.
    apply IHd; [apply HW|apply IH; [apply HW|exact HQ|exact HL]|]. apply (groups_lb _ _ _ Hg HL).
  - intros _ _ qs HQ. exact HQ.
  - intros i pi Hi IH HW HQ qs HS. cbn [forallb] in HW. apply andb_prop in HW. apply IH; [apply HW|exact HS|]. intros HV. exfalso. apply HV.
    pose proof (Forall_inv HQ) as Q. destruct i. cbn in Q |- *. apply Q.
  - intros i its pi b ps Hi IH Hb _ Hs IHs HW HQ qs HS. cbn [forallb] in HW. apply andb_prop in HW. rewrite <- !app_assoc. cbn [app]. rewrite <- !app_assoc.
    apply IH; [apply HW| |].
    + apply csafe_cons; [discriminate|]. apply cs_pre; [exact Hb|]. apply IHs; [apply HW|apply (Forall_inv_tail HQ)|exact HS].
    + intros HV. exfalso. apply HV. pose proof (Forall_inv HQ) as Q. destruct i. cbn in Q |- *. apply Q.
Qed.
Lemma kvs_comments its ps : lay_kvs le limit rc rk rl its ps -> forallb wfi its = true -> forall qs, csafe qs -> lb qs -> csafe (ps ++ qs).
Proof.
  destruct layout_comments as (_ & HI & _).
  induction 1 as [i pi pc Hi Hc|i its pi pc ps Hi Hc Hs IHs]; intros HW qs HQ HL; cbn [forallb] in HW; apply andb_prop in HW; rewrite <- !app_assoc; cbn [app].
  - apply (HI _ _ Hi); [apply HW|apply (cs_line_comma _ _ _ _ Hc HQ HL)|]. intros HV. destruct (vtc (ival i)) eqn:E; [|congruence]. apply (line_comma_lb _ _ _ _ Hc eq_refl HL).
  - assert (HR : csafe (nl le :: ps ++ qs)) by (apply cs_nl, IHs; [apply HW|exact HQ|exact HL]).
    apply (HI _ _ Hi); [apply HW|apply (cs_line_comma _ _ _ _ Hc HR eq_refl)|]. intros HV. destruct (vtc (ival i)) eqn:E; [|congruence]. apply (line_comma_lb _ _ _ _ Hc eq_refl). reflexivity.
Qed.
Lemma blocks_comments w gs ps : lay_blocks le limit rc rk rl w gs ps -> forallb wfg gs = true -> forall qs, csafe qs -> lb qs -> csafe (ps ++ qs).
Proof.
  induction 1 as [w|w b cs gs pc ps Hd Hg IH|w b its gs pi ps Hd Hg IH]; intros HW qs HQ HL; [exact HQ| |]; cbn [forallb] in HW; rewrite <- !app_assoc; apply cs_sep.
  - apply (cs_dangling _ _ _ Hd); [apply IH; [exact HW|exact HQ|exact HL]|]. apply (blocks_lb _ _ _ Hg HL).
  - apply andb_prop in HW. apply (kvs_comments _ _ Hd); [apply HW|apply IH; [apply HW|exact HQ|exact HL]|]. apply (blocks_lb _ _ _ Hg HL).
Qed.
Lemma table_comments t ps : lay_table le limit rc rk rl t ps -> wf_table t = true -> forall qs, csafe qs -> lb qs -> csafe (ps ++ qs).
Proof.
  intros H HW qs HQ HL. destruct H as [a lead ks tc gs bl pl b pk pt pg Hl Hb Hk Ht Hg]. apply andb_prop in HW. destruct HW as [_ HW]. cbn [t_groups] in HW.
  rewrite <- !app_assoc. apply (cs_lines _ _ _ Hl). apply cs_pre; [exact Hb|].
  assert (HT : csafe (pt ++ (match gs with [] => [] | _ => nl le :: pg end) ++ qs)).
  { apply (cs_tail _ _ _ Ht); [|intros _; destruct gs; [exact HL|reflexivity]]. destruct gs as [|g gs]; [exact HQ|]. cbn [app]. apply cs_nl.
    apply (blocks_comments _ _ _ Hg); [apply wf_groups_wfg; exact HW|exact HQ|exact HL]. }
  destruct a; cbn [brackets app]; repeat (apply csafe_cons; [discriminate|]); apply (cs_keys _ _ _ Hk); cbn [app]; repeat (apply csafe_cons; [discriminate|]); exact HT.
Qed.
Lemma tables_comments gap ts ps : lay_tables le limit rc rk rl gap ts ps -> forallb wf_table ts = true -> forall qs, csafe qs -> lb qs -> csafe (ps ++ qs).
Proof.
  induction 1 as [t ps Ht|t t' ts pt ps Ht Hs IH]; intros HW qs HQ HL; cbn [forallb] in HW; apply andb_prop in HW.
  - apply (table_comments _ _ Ht); [apply HW|exact HQ|exact HL].
  - rewrite <- app_assoc. cbn [app]. rewrite <- app_assoc. apply (table_comments _ _ Ht); [apply HW| |reflexivity]. apply cs_nl, cs_nls, IH; [apply HW|exact HQ|exact HL].
Qed.
Lemma root_comments gap rgap d ps : lay_root le limit rc rk rl gap rgap d ps -> wf_doc d = true -> forall qs, csafe qs -> lb qs -> csafe (ps ++ qs).
Proof.
  intros H HW qs HQ HL. apply andb_prop in HW. destruct HW as [W1 W2]. destruct H as [gs ps Hg|gs t ts pg ps Hg Ht]; cbn [d_groups d_tables] in *.
  - apply (blocks_comments _ _ _ Hg); [apply wf_groups_wfg; exact W1|exact HQ|exact HL].
  - pose proof (tables_comments _ _ _ Ht W2 qs HQ HL) as HT. rewrite <- !app_assoc.
    destruct gs as [|g gs]; cbn [app]. { inversion Hg; subst. exact HT. }
    apply (blocks_comments _ _ _ Hg); [apply wf_groups_wfg; exact W1| |reflexivity]. apply cs_nl. rewrite <- ?app_assoc. apply cs_nls. exact HT.
Qed.
End Comments.

(** * Commas *)
Scheme spell_value_mut := Induction for spell_value Sort Prop
  with spell_item_mut := Induction for spell_item Sort Prop
  with spell_items_mut := Induction for spell_items Sort Prop.
Section Commas.
Context (le : str) (limit : N) (rc : str -> str -> Prop) (rk : fkey -> piece -> Prop) (rl : kind -> str -> piece -> Prop) (same : piece -> piece -> Prop).
Context (Hrk : forall k p, key_kind (fst k) = true -> good_token k -> rk k p -> same k p /\ is_token p = true)
  (Hrl : forall k s p, literal_kind k = true -> good_token (k, s) -> rl k s p -> same (k, s) p /\ is_token p = true).
Notation FT := (filter is_token).
Notation good := good_tokens.
Lemma ft_app a b : FT (a ++ b) = FT a ++ FT b.
Proof. apply filter_app. Qed.
Lemma ft_blanks b : FormatterLayout.blanks b -> FT b = [].
Proof. induction 1 as [|[k s] b [Hk _] H IH]; [reflexivity|]. cbn in Hk. subst k. exact IH. Qed.
Lemma ft_nls n : FT (repeat (nl le) n) = [].
Proof. induction n; [reflexivity|exact IHn]. Qed.
Lemma ft_sep w b : FT (separator le limit w b) = [].
Proof. unfold separator. destruct w; [apply ft_nls|reflexivity]. Qed.
Lemma ft_lines cs ps : comment_lines le rc cs ps -> FT ps = [].
Proof. induction 1 as [|c cs c' b ps Hb Hc H IH]; [reflexivity|]. rewrite ft_app, (ft_blanks b Hb). exact IH. Qed.
Lemma ft_dangling cs ps : dangling le rc cs ps -> FT ps = [].
Proof. induction 1 as [c c' b Hb Hc|c cs c' b ps Hb Hc H IH]; rewrite ft_app, (ft_blanks b Hb); [reflexivity|exact IH]. Qed.
Lemma ft_tail tc ps : tail rc tc ps -> FT ps = [].
Proof. induction 1 as [|c c' b Hb Hc]; [reflexivity|]. rewrite ft_app, (ft_blanks b Hb). reflexivity. Qed.
Definition comma_token (c : option fcomma) : list piece := match c with Some _ => [comma_piece] | None => [] end.
Lemma ft_comma h c ps : lay_comma le rc h c ps -> FT ps = comma_token c.
Proof.
  induction 1 as [h|tc pt Ht|tc b pt Hb Ht|h c cs pl tc b pt Hl Hb Ht]; cbn [comma_token].
  - reflexivity.
  - cbn. rewrite (ft_tail _ _ Ht). reflexivity.
  - cbn. rewrite ft_app, (ft_blanks b Hb). cbn. rewrite (ft_tail _ _ Ht). reflexivity.
  - cbn [filter nl is_token fst]. rewrite !ft_app, (ft_lines _ _ Hl), (ft_blanks b Hb). cbn. rewrite (ft_tail _ _ Ht). reflexivity.
Qed.
Lemma spell_keys_lay ks ps : lay_keys rk ks ps -> forallb (fun k => key_kind (fst k)) ks = true -> good (keys_content ks) -> spell_keys same ks (FT ps).
Proof.
  induction 1 as [k p Hk|k p ks ps Hk H IH]; intros HK HG.
  - cbn in HK, HG |- *. apply good_cons in HG. apply andb_prop in HK. destruct (Hrk k p (proj1 HK) (proj1 HG) Hk) as [H1 ->]. constructor. exact H1.
  - cbn [forallb] in HK. apply andb_prop in HK.
    assert (EK : keys_content (k :: ks) = k :: (DOT, [46]) :: keys_content ks) by (inversion H; reflexivity).
    rewrite EK in HG. apply good_cons in HG. destruct HG as [G1 G2]. apply good_cons in G2. destruct (Hrk k p (proj1 HK) G1 Hk) as [H1 H2].
    cbn [filter]. rewrite H2. cbn [is_token fst filter]. constructor; [exact H1|]. apply IH; [apply HK|apply G2].
Qed.
Inductive itoks : list (item fval) -> list piece -> Prop :=
| it_nil : itoks [] []
| it_cons i its pi ps : spell_item same i pi -> itoks its ps -> itoks (i :: its) (pi ++ comma_token (icomma i) ++ ps).
Lemma itoks_app a b p q : itoks a p -> itoks b q -> itoks (a ++ b) (p ++ q).
Proof. induction 1; intros HB; [exact HB|]. cbn [app]. rewrite <- !app_assoc. constructor; auto. Qed.
Definition last_comma (its : list (item fval)) : bool := match last (map Some its) None with Some (Item _ _ _ _ (Some _)) => true | _ => false end.
Lemma itoks_spell its ps : itoks its ps -> commas its = true -> spell_items same (last_comma its) its ps.
Proof.
  induction 1 as [|i its pi ps Hi H IH]; intros HC; [constructor|].
  destruct its as [|j its].
  - inversion H; subst. rewrite app_nil_r. destruct i as [l ks r v [c|]]; cbn [icomma comma_token].
    + apply sis_trailing. exact Hi.
    + rewrite app_nil_r. apply sis_last. exact Hi.
  - destruct i as [l ks r v c]. cbn [commas] in HC. apply andb_prop in HC. destruct HC as [C1 C2]. destruct c as [c|]; [|discriminate].
    cbn [icomma comma_token app]. change (last_comma (Item l ks r v (Some c) :: j :: its)) with (last_comma (j :: its)). apply sis_more; [exact Hi|apply IH; exact C2].
Qed.
Definition aci (i : item fval) : bool := all_commas (ival i).
Definition acg (g : group (item fval)) : bool := match g with GD _ _ => true | GI _ its => forallb aci its end.
Lemma ac_box table lead otc gs tc : all_commas (FBox table lead otc gs tc) = commas (items_of gs) && forallb acg gs.
Proof.
  cbn [all_commas]. f_equal. assert (E : forall gs, forallb (fun g => match g with GD _ _ => true | GI _ its => forallb (fun i => match i with Item _ _ _ v _ => all_commas v end) its end) gs = forallb acg gs).
  { clear. induction gs as [|g gs IH]; [reflexivity|]. cbn [forallb]. rewrite IH. f_equal. destruct g as [|b its]; [reflexivity|]. cbn [acg].
    induction its as [|[l ks r v c] its IHi]; [reflexivity|]. cbn [forallb]. rewrite IHi. reflexivity. }
  apply E.
Qed.
Lemma acg_items gs : forallb acg gs = true -> forallb aci (items_of gs) = true.
Proof.
  induction gs as [|g gs IH]; [reflexivity|]. cbn [forallb items_of flat_map]. intros H. apply andb_prop in H. destruct H as [H1 H2].
  rewrite forallb_app. apply andb_true_intro. split; [destruct g; [reflexivity|exact H1]|apply IH; exact H2].
Qed.
Lemma token_open t : is_token (open_piece t) = true. Proof. destruct t; reflexivity. Qed.
Lemma token_close t : is_token (close_piece t) = true. Proof. destruct t; reflexivity. Qed.
Notation IC := (flat_map (item_content value_content)).
Lemma layout_commas :
  (forall v ps, lay_value le limit rc rk rl v ps -> wf_value v = true -> all_commas v = true -> good (value_content v) -> spell_value same v (FT ps)) /\
  (forall i ps, lay_item le limit rc rk rl i ps -> wfi i = true -> aci i = true -> good (before_comma i) -> spell_item same i (FT ps)) /\
  (forall its ps, lay_lines le limit rc rk rl its ps -> forallb wfi its = true -> forallb aci its = true -> good (IC its) -> itoks its (FT ps)) /\
  (forall w gs ps, lay_groups le limit rc rk rl w gs ps -> forallb wfg gs = true -> forallb acg gs = true -> good (groups_content gs) -> itoks (items_of gs) (FT ps)) /\
  (forall its ps, lay_line le limit rc rk rl its ps -> forallb wfi its = true -> forallb aci its = true -> good (IC its) -> forall b, spell_items same b its (FT ps)).
Proof.
  apply lay_mutind.
  - intros lead k tok tc pl b p pt Hl Hb Hr Ht HW HA HG. cbn [value_content] in *. apply good_app in HG. destruct HG as [G1 G2]. apply good_cons in G2. destruct G2 as [G2 G3].
    destruct (Hrl k tok p HW G2 Hr) as [S1 S2]. rewrite !ft_app, (ft_blanks b Hb), (ft_lines _ _ Hl). cbn [filter app]. rewrite S2, (ft_tail _ _ Ht). constructor. exact S1.
  - intros table lead otc gs tc pl b po pg b' pt Hl Hb Ho Hg IH Hb' Ht HW HA HG. rewrite box_content in HG. rewrite ac_box in HA. apply andb_prop in HA. destruct HA as [A1 A2].
    apply good_app in HG. destruct HG as [G1 G2]. apply good_app in G2. destruct G2 as [_ G2]. apply good_app in G2. destruct G2 as [G2 G3].
    apply good_app in G3. destruct G3 as [G3 G4].
    rewrite !ft_app, (ft_blanks b Hb), (ft_lines _ _ Hl). cbn [filter app]. rewrite token_open, !ft_app, (ft_tail _ _ Ho). cbn [filter app nl is_token fst].
    rewrite !ft_app. cbn [filter nl is_token fst]. rewrite ft_app, (ft_blanks b' Hb'). cbn [filter app]. rewrite token_close, (ft_tail _ _ Ht).
    apply sv_box. apply itoks_spell; [|exact A1]. apply IH; [apply (wf_box_wfg _ _ _ _ _ HW)|exact A2|exact G3].
  - intros table lead gs tc pl b b1 pg b2 pt Hl Hb Hb1 HGI HQ Hg IH Hb2 Ht HW HA HG. rewrite box_content in HG. rewrite ac_box in HA. apply andb_prop in HA. destruct HA as [A1 A2].
    apply good_app in HG. destruct HG as [G1 G2]. apply good_app in G2. destruct G2 as [_ G2]. apply good_app in G2. destruct G2 as [G2 G3].
    apply good_app in G3. destruct G3 as [G3 G4]. rewrite (items_content gs HGI) in G3.
    rewrite !ft_app, (ft_blanks b Hb), (ft_lines _ _ Hl). cbn [filter app]. rewrite token_open, !ft_app, (ft_blanks b1 Hb1), (ft_blanks b2 Hb2). cbn [filter app].
    rewrite token_close, (ft_tail _ _ Ht). apply sv_box. apply IH; [apply wfg_items, (wf_box_wfg _ _ _ _ _ HW)|apply acg_items; exact A2|exact G3].
  - intros raw v c ps Hv IH HW HA HG. cbn [wfi before_comma map app] in *. apply andb_prop in HW. constructor. apply IH; [apply HW|exact HA|exact HG].
  - intros lead ks raw v c pl b pk b1 b2 pv Hl Hb Hk Hb1 Hb2 Hv IH HW HA HG. cbn [wfi] in HW. apply andb_prop in HW. destruct HW as [HK HV].
    assert (HN : ks <> []) by (inversion Hk; discriminate).
    assert (HG' : good (keys_content ks) /\ good (value_content v) /\ wf_keys ks = true).
    { destruct ks as [|k ks]; [contradiction|]. cbn [before_comma] in HG. apply good_app in HG. destruct HG as [G1 G2]. apply good_app in G2. destruct G2 as [G2 G3]. apply good_app in G3.
      split; [exact G2|]. split; [apply G3|exact HK]. }
    destruct HG' as (G2 & G3 & HK'). rewrite !ft_app, (ft_lines _ _ Hl), (ft_blanks b Hb), (ft_blanks b1 Hb1). cbn [filter app is_token fst]. rewrite ft_app, (ft_blanks b2 Hb2). cbn [app].
    apply si_key_value; [apply spell_keys_lay; [exact Hk|apply andb_prop in HK'; apply HK'|exact G2]|apply IH; assumption].
  - intros i pi pc Hi IH Hc HW HA HG. cbn [flat_map] in HG. rewrite app_nil_r, item_split in HG. cbn [forallb] in HW, HA. apply andb_prop in HW. apply andb_prop in HA. apply good_app in HG.
    rewrite ft_app, (ft_comma _ _ _ Hc), <- (app_nil_r (comma_token _)). constructor; [apply IH; [apply HW|apply HA|apply HG]|constructor].
  - intros i its pi pc ps Hi IH Hc Hs IHs HW HA HG. cbn [flat_map] in HG. rewrite item_split in HG. cbn [forallb] in HW, HA. apply andb_prop in HW. apply andb_prop in HA.
    apply good_app in HG. destruct HG as [HG G3]. apply good_app in HG. rewrite !ft_app, (ft_comma _ _ _ Hc). cbn [filter nl is_token fst].
    constructor; [apply IH; [apply HW|apply HA|apply HG]|apply IHs; [apply HW|apply HA|exact G3]].
  - intros w _ _ _. constructor.
  - intros w b cs gs pc ps Hd Hg IH HW HA HG. unfold groups_content in *. cbn [flat_map group_content items_of group_items app] in *. apply good_app in HG.
    rewrite !ft_app, ft_sep, (ft_dangling _ _ Hd). apply IH; [exact HW|exact HA|apply HG].
  - intros w b its gs pi ps Hd IHd Hg IH HW HA HG. unfold groups_content in *. cbn [flat_map group_content] in *. apply good_app in HG. rewrite !ft_app, ft_sep; cbn [app].
    cbn [forallb] in HW, HA. apply andb_prop in HW. apply andb_prop in HA. apply itoks_app; [apply IHd; [apply HW|apply HA|apply HG]|apply IH; [apply HW|apply HA|apply HG]].
  - intros _ _ _ b. constructor.
  - intros i pi Hi IH HW HA HG b. cbn [flat_map] in HG. rewrite app_nil_r, item_split in HG. cbn [forallb] in HW, HA. apply andb_prop in HW. apply andb_prop in HA. apply good_app in HG.
    apply sis_last. apply IH; [apply HW|apply HA|apply HG].
  - intros i its pi b ps Hi IH Hb HN Hs IHs HW HA HG b0. cbn [flat_map] in HG. rewrite item_split in HG. cbn [forallb] in HW, HA. apply andb_prop in HW. apply andb_prop in HA.
    apply good_app in HG. destruct HG as [HG G3]. apply good_app in HG. rewrite ft_app. cbn [filter comma_piece is_token fst]. rewrite ft_app, (ft_blanks b Hb). cbn [app].
    destruct its as [|j its]; [contradiction|]. apply sis_more; [apply IH; [apply HW|apply HA|apply HG]|apply IHs; [apply HW|apply HA|exact G3]].
Qed.
Lemma plain_comma_free h i ps : plain_line i = true -> lay_line_comma le rc h (icomma i) ps -> FT ps = [] /\ aci i = true.
Proof.
  destruct i as [l ks r v c]. cbn [plain_line icomma]. intros H HL. apply andb_prop in H. destruct H as [H1 H2]. destruct c; [discriminate|]. inversion HL; subst. split; [reflexivity|exact H2].
Qed.
Lemma kvs_spell its ps : lay_kvs le limit rc rk rl its ps -> forallb wfi its = true -> forallb plain_line its = true -> good (IC its) -> spell_lines same its (FT ps).
Proof.
  destruct layout_commas as (_ & HI & _).
  induction 1 as [i pi pc Hi Hc|i its pi pc ps Hi Hc Hs IHs]; intros HW HA HG; cbn [flat_map forallb] in *; rewrite item_split in HG; apply andb_prop in HW; apply andb_prop in HA;
    destruct (plain_comma_free _ _ _ (proj1 HA) Hc) as [E EA]; apply good_app in HG; destruct HG as [HG G3]; apply good_app in HG; rewrite !ft_app, E.
  - rewrite <- (app_nil_r (FT pi)), app_nil_r. constructor; [apply (HI _ _ Hi); [apply HW|exact EA|apply HG]|constructor].
  - cbn [app filter nl is_token fst]. constructor; [apply (HI _ _ Hi); [apply HW|exact EA|apply HG]|apply IHs; [apply HW|apply HA|exact G3]].
Qed.
Lemma spell_lines_app a b p q : spell_lines same a p -> spell_lines same b q -> spell_lines same (a ++ b) (p ++ q).
Proof. induction 1; intros HB; [exact HB|]. cbn [app]. rewrite <- app_assoc. constructor; auto. Qed.
Lemma blocks_spell w gs ps : lay_blocks le limit rc rk rl w gs ps -> forallb wfg gs = true -> forallb plain_line (items_of gs) = true -> good (groups_content gs) ->
  spell_lines same (items_of gs) (FT ps).
Proof.
  induction 1 as [w|w b cs gs pc ps Hd Hg IH|w b its gs pi ps Hd Hg IH]; intros HW HA HG; [constructor| |];
    unfold groups_content in *; cbn [flat_map group_content items_of group_items app] in *; apply good_app in HG; rewrite !ft_app, ft_sep; cbn [app].
  - rewrite (ft_dangling _ _ Hd). apply IH; [exact HW|exact HA|apply HG].
  - cbn [forallb] in HW. apply andb_prop in HW. rewrite forallb_app in HA. apply andb_prop in HA.
    apply spell_lines_app; [apply (kvs_spell _ _ Hd); [apply HW|apply HA|apply HG]|apply IH; [apply HW|apply HA|apply HG]].
Qed.
Lemma table_spell t ps : lay_table le limit rc rk rl t ps -> wf_table t = true -> forallb plain_line (items_of (t_groups t)) = true -> good (table_content t) ->
  exists pk pl, FT ps = (if t_array t then [opening false; opening false] else [opening false]) ++ pk ++
    (if t_array t then [closing false; closing false] else [closing false]) ++ pl /\ spell_keys same (t_keys t) pk /\ spell_lines same (items_of (t_groups t)) pl.
Proof.
  intros H HW HA HG. destruct H as [a lead ks tc gs bl pl b pk pt pg Hl Hb Hk Ht Hg]. unfold table_content in HG. cbn [t_lead t_array t_keys t_tc t_groups] in *.
  apply andb_prop in HW. destruct HW as [W1 W2]. cbn [t_keys t_groups] in W1, W2.
  apply good_app in HG. destruct HG as [G1 HG]. apply good_app in HG. destruct HG as [_ HG]. apply good_app in HG. destruct HG as [G2 HG].
  apply good_app in HG. destruct HG as [_ HG]. apply good_app in HG. destruct HG as [G3 G4].
  exists (FT pk), (FT pg). split; [|split; [apply spell_keys_lay; [exact Hk|apply andb_prop in W1; apply W1|exact G2]|apply (blocks_spell _ _ _ Hg); [apply wf_groups_wfg; exact W2|exact HA|exact G4]]].
  rewrite !ft_app, (ft_blanks b Hb), (ft_lines _ _ Hl), (ft_tail _ _ Ht). cbn [app].
  replace (FT (match gs with [] => [] | _ => nl le :: pg end)) with (FT pg) by (destruct gs; [inversion Hg; reflexivity|reflexivity]).
  destruct a; reflexivity.
Qed.
Lemma tables_spell gap ts ps : lay_tables le limit rc rk rl gap ts ps -> forallb wf_table ts = true ->
  forallb (fun t => forallb plain_line (items_of (t_groups t))) ts = true -> good (flat_map table_content ts) -> spell_tables same ts (FT ps).
Proof.
  induction 1 as [t ps Ht|t t' ts pt ps Ht Hs IH]; intros HW HA HG; cbn [forallb] in HW, HA; apply andb_prop in HW; apply andb_prop in HA.
  - cbn [flat_map] in HG. rewrite app_nil_r in HG. destruct (table_spell _ _ Ht (proj1 HW) (proj1 HA) HG) as (pk & pl & -> & SK & SL).
    rewrite <- (app_nil_r pl). apply st_cons; [exact SK|exact SL|constructor].
  - change (flat_map table_content (t :: t' :: ts)) with (table_content t ++ flat_map table_content (t' :: ts)) in HG.
    apply good_app in HG. rewrite ft_app. cbn [filter nl is_token fst]. rewrite ft_app, ft_nls. cbn [app].
    destruct (table_spell _ _ Ht (proj1 HW) (proj1 HA) (proj1 HG)) as (pk & pl & -> & SK & SL).
    rewrite <- !app_assoc. apply st_cons; [exact SK|exact SL|apply IH; [apply HW|apply HA|apply HG]].
Qed.
Lemma root_spell gap rgap d ps : lay_root le limit rc rk rl gap rgap d ps -> wf_doc d = true -> plain_lines d = true -> good (doc_content d) -> spell_doc same d (FT ps).
Proof.
  intros H HW HA HG. apply andb_prop in HW. destruct HW as [W1 W2]. apply andb_prop in HA. destruct HA as [A1 A2]. unfold doc_content in HG. apply good_app in HG. destruct HG as [G1 G2].
  destruct H as [gs ps Hg|gs t ts pg ps Hg Ht]; unfold spell_doc; cbn [d_groups d_tables] in *.
  - exists (FT ps), []. rewrite app_nil_r. split; [reflexivity|]. split; [apply (blocks_spell _ _ _ Hg); [apply wf_groups_wfg; exact W1|exact A1|exact G1]|constructor].
  - exists (FT pg), (FT ps). split; [|split; [apply (blocks_spell _ _ _ Hg); [apply wf_groups_wfg; exact W1|exact A1|exact G1]|apply (tables_spell _ _ _ Ht W2 A2 G2)]].
    rewrite !ft_app. f_equal. replace (FT match gs with [] => [] | _ :: _ => nl le :: repeat (nl le) (rgap gs t) end) with (@nil piece); [reflexivity|].
    destruct gs; [reflexivity|]. cbn [filter nl is_token fst]. symmetry. apply ft_nls.
Qed.
End Commas.
