(** What the editor changes in a document before it is written: commas, and whose a comment is; nothing else. *)
From Coq Require Import String Ascii List NArith Bool Arith Lia.
From Verif Require Import Base SyntaxKind TextModel LexerModel LexerSpec LexSound TomlTextModel FormatPieces FormatPiecesProofs FormatPiecesProps
  FormatterModel FormatterLayout FormatterSpec FormatterProofs.
Import ListNotations.
Open Scope N_scope.
Open Scope list_scope.

Definition edit_item (ev : fval -> fval) (b : bool) (i : item fval) : item fval :=
  match i with Item lead ks raw v c => edit_comma b (Item lead ks raw (ev v) c) end.
Lemma edit_items_cons ev lc n i its : edit_items ev lc n (i :: its) = edit_item ev (lc || negb (Nat.eqb n 1)) i :: edit_items ev lc (pred n) its.
Proof. destruct i. reflexivity. Qed.
Lemma edit_items_app ev lc a : forall n b, edit_items ev lc n (a ++ b) = edit_items ev lc n a ++ edit_items ev lc (n - length a)%nat b.
Proof.
  induction a as [|i a IH]; intros n b; [cbn [app length]; rewrite Nat.sub_0_r; reflexivity|].
  cbn [app]. rewrite !edit_items_cons, IH. cbn [app length]. do 2 f_equal. f_equal. lia.
Qed.
Lemma edit_box_items ev lc gs : forall n, items_of (edit_box ev lc n gs) = edit_items ev lc n (items_of gs).
Proof.
  induction gs as [|g gs IH]; intros n; [reflexivity|]. destruct g as [b cs|b its].
  - apply IH.
  - unfold items_of in *. cbn [edit_box flat_map group_items]. fold (edit_box ev lc). rewrite edit_items_app. f_equal. apply IH.
Qed.
Lemma without_tc_content v : value_content (without_tc v) ++ opt_comment (vtc v) = value_content v.
Proof. destruct v as [l k tok [tc|]|t l o gs [tc|]]; cbn [without_tc vtc opt_comment value_content]; rewrite ?app_nil_r, <- ?app_assoc; reflexivity. Qed.
Definition bare_content (i : item fval) : list piece := before_comma i.
Lemma edit_comma_content b i : item_content value_content (edit_comma b i) = item_content value_content i.
Proof.
  rewrite !item_split. destruct i as [l ks r v c]. unfold edit_comma. pose proof (without_tc_content v) as E.
  assert (HX : forall w x y, value_content v = value_content w ++ x -> y = x ->
    before_comma (Item l ks r w None) ++ y = before_comma (Item l ks r v None)).
  { intros w x y E1 ->. destruct ks; cbn [before_comma]; rewrite E1, <- ?app_assoc; reflexivity. }
  destruct c as [[lead tc]|].
  - destruct lead as [|c lead]; [|reflexivity]. destruct tc as [c|]; [reflexivity|]. destruct (vtc v) as [c|] eqn:EV; [|reflexivity].
    cbn [icomma comma_content map app]. rewrite app_nil_r. apply (HX _ (opt_comment (Some c))); auto.
  - destruct b; [|reflexivity]. cbn [icomma comma_content map app]. rewrite app_nil_r. apply (HX _ (opt_comment (vtc v))); auto.
Qed.
Lemma edit_comma_parts b l ks r v c : exists v' c', edit_comma b (Item l ks r v c) = Item l ks r v' c' /\ (v' = v \/ v' = without_tc v) /\ is_some c' = is_some c || b.
Proof.
  unfold edit_comma. destruct c as [[lead tc]|]; [|destruct b; eauto 6].
  destruct lead as [|x lead]; [|eauto 6]. destruct tc; [eauto 6|]. destruct (vtc v); eauto 6.
Qed.
Lemma edit_items_content ev lc its : Forall (fun i => value_content (ev (ival i)) = value_content (ival i)) its ->
  forall n, flat_map (item_content value_content) (edit_items ev lc n its) = flat_map (item_content value_content) its.
Proof.
  induction 1 as [|i its E H IH]; intros n; [reflexivity|]. rewrite edit_items_cons. cbn [flat_map]. rewrite IH. f_equal.
  destruct i as [l ks r v c]. unfold edit_item. rewrite edit_comma_content. cbn [ival] in E. destruct ks; cbn [item_content]; rewrite E; reflexivity.
Qed.
Lemma edit_value_content v : value_content (edit_value v) = value_content v.
Proof.
  induction v as [l k tok tc|table lead otc gs tc HG] using fval_ind'; [reflexivity|].
  cbn [edit_value]. rewrite !box_content. do 3 f_equal. f_equal. unfold groups_content. generalize (has_last_comma gs), (length (items_of gs)). intros lc.
  induction HG as [|g gs Hg HG IH]; intros n; [reflexivity|]. destruct g as [b cs|b its]; cbn [edit_box flat_map group_content]; fold (edit_box edit_value lc).
  - rewrite IH. reflexivity.
  - rewrite IH, (edit_items_content _ _ _ Hg). reflexivity.
Qed.
Lemma without_tc_wf v : wf_value (without_tc v) = wf_value v. Proof. destruct v; reflexivity. Qed.
Lemma without_tc_lead v : vlead (without_tc v) = vlead v. Proof. destruct v; reflexivity. Qed.
Lemma edit_value_lead v : vlead (edit_value v) = vlead v. Proof. destruct v; reflexivity. Qed.
Definition wf_in (table : bool) (i : item fval) : bool := wf_item table i && wf_value (ival i).
Lemma wf_box_in t lead otc gs tc : wf_value (FBox t lead otc gs tc) =
  forallb (fun g => match g with GD _ cs => nonempty cs | GI _ its => nonempty its && forallb (wf_in t) its end) gs.
Proof.
  cbn [wf_value]. induction gs as [|g gs IH]; [reflexivity|]. cbn [forallb]. rewrite IH. f_equal. destruct g as [|b its]; [reflexivity|]. f_equal.
  induction its as [|[l ks r v c] its IHi]; [reflexivity|]. cbn [forallb]. rewrite IHi. reflexivity.
Qed.
Lemma edit_item_wf b t i : wf_value (edit_value (ival i)) = wf_value (ival i) -> wf_in t (edit_item edit_value b i) = wf_in t i.
Proof.
  destruct i as [l ks r v c]. cbn [ival]. intros E. unfold edit_item. destruct (edit_comma_parts b l ks r (edit_value v) c) as (v' & c' & -> & HV & _).
  unfold wf_in. cbn [wf_item ival]. destruct HV as [-> | ->]; rewrite ?without_tc_lead, ?without_tc_wf, edit_value_lead, E; reflexivity.
Qed.
Lemma edit_items_ne ev lc n its : nonempty (edit_items ev lc n its) = nonempty its.
Proof. destruct its as [|[] its]; reflexivity. Qed.
Lemma edit_value_wf v : wf_value (edit_value v) = wf_value v.
Proof.
  induction v as [l k tok tc|table lead otc gs tc HG] using fval_ind'; [reflexivity|].
  cbn [edit_value]. rewrite !wf_box_in. generalize (has_last_comma gs), (length (items_of gs)). intros lc.
  induction HG as [|g gs Hg HG IH]; intros n; [reflexivity|]. destruct g as [b cs|b its]; cbn [edit_box forallb]; fold (edit_box edit_value lc); rewrite IH; [reflexivity|].
  f_equal. rewrite edit_items_ne. f_equal. clear - Hg. revert n. induction Hg as [|i its E H IH]; intros n; [reflexivity|].
  rewrite edit_items_cons. cbn [forallb]. rewrite IH. f_equal. apply edit_item_wf. exact E.
Qed.
Lemma without_tc_commas v : all_commas (without_tc v) = all_commas v. Proof. destruct v; reflexivity. Qed.
Lemma edit_item_comma ev b i : is_some (icomma (edit_item ev b i)) = is_some (icomma i) || b.
Proof. destruct i as [l ks r v c]. unfold edit_item. destruct (edit_comma_parts b l ks r (ev v) c) as (v' & c' & -> & _ & H). exact H. Qed.
Lemma commas_cons i j its : commas (i :: j :: its) = is_some (icomma i) && commas (j :: its).
Proof. destruct i. reflexivity. Qed.
Lemma edit_items_commas ev lc its : commas (edit_items ev lc (length its) its) = true.
Proof.
  induction its as [|i its IH]; [reflexivity|]. rewrite edit_items_cons. cbn [length pred]. destruct its as [|j its]; [cbn [length edit_items]; destruct (edit_item ev _ i); reflexivity|].
  change (length (j :: its)) with (S (length its)) in *. rewrite edit_items_cons in IH |- *. rewrite commas_cons, IH, edit_item_comma. cbn. rewrite !orb_true_r. reflexivity.
Qed.
Lemma edit_value_commas v : all_commas (edit_value v) = true.
Proof.
  induction v as [l k tok tc|table lead otc gs tc HG] using fval_ind'; [reflexivity|].
  cbn [edit_value]. rewrite ac_box, edit_box_items, edit_items_commas. cbn [andb]. generalize (has_last_comma gs), (length (items_of gs)). intros lc.
  induction HG as [|g gs Hg HG IH]; intros n; [reflexivity|]. destruct g as [b cs|b its]; cbn [edit_box forallb acg]; fold (edit_box edit_value lc); rewrite IH; [reflexivity|].
  rewrite andb_true_r. clear - Hg. revert n. induction Hg as [|i its E H IH]; intros n; [reflexivity|].
  rewrite edit_items_cons. cbn [forallb]. rewrite IH, andb_true_r. destruct i as [l ks r v c]. unfold edit_item, aci.
  destruct (edit_comma_parts (lc || negb (Nat.eqb n 1)) l ks r (edit_value v) c) as (v' & c' & -> & HV & _).
  cbn [ival] in *. destruct HV as [-> | ->]; rewrite ?without_tc_commas; exact E.
Qed.
Lemma last_comma_cons i j its : last_comma (i :: j :: its) = last_comma (j :: its). Proof. reflexivity. Qed.
Lemma last_comma_one i : last_comma [i] = is_some (icomma i). Proof. destruct i as [? ? ? ? []]; reflexivity. Qed.
Lemma edit_items_last ev its : last_comma (edit_items ev (last_comma its) (length its) its) = last_comma its.
Proof.
  assert (G : forall lc, lc = last_comma its -> last_comma (edit_items ev lc (length its) its) = last_comma its); [|apply G; reflexivity].
  induction its as [|i its IH]; [reflexivity|]. intros lc E. destruct its as [|j its].
  - rewrite last_comma_one in E |- *. cbn [length]. rewrite edit_items_cons. cbn [edit_items pred]. rewrite last_comma_one, edit_item_comma, E. cbn. destruct (is_some (icomma i)); reflexivity.
  - rewrite last_comma_cons in E |- *. specialize (IH lc E). cbn [length] in *. rewrite edit_items_cons. cbn [pred]. rewrite edit_items_cons in IH |- *. exact IH.
Qed.
Section Spell.
Context (same : piece -> piece -> Prop).
Lemma spell_without_tc v ps : spell_value same (without_tc v) ps -> spell_value same v ps.
Proof. destruct v; intros H; inversion H; subst; constructor; assumption. Qed.
Lemma spell_item_edit ev b i ps : (forall qs, spell_value same (ev (ival i)) qs -> spell_value same (ival i) qs) ->
  spell_item same (edit_item ev b i) ps -> spell_item same i ps.
Proof.
  destruct i as [l ks r v c]. cbn [ival]. intros HV. unfold edit_item. destruct (edit_comma_parts b l ks r (ev v) c) as (v' & c' & -> & HE & _). intros H.
  assert (HV' : forall qs, spell_value same v' qs -> spell_value same v qs) by (intros qs; destruct HE as [-> | ->]; intros HS; apply HV; [|apply spell_without_tc]; exact HS).
  inversion H; subst; constructor; auto.
Qed.
Lemma spell_items_edit ev lc its : Forall (fun i => forall qs, spell_value same (ev (ival i)) qs -> spell_value same (ival i) qs) its ->
  forall n b ps, spell_items same b (edit_items ev lc n its) ps -> spell_items same b its ps.
Proof.
  induction 1 as [|i its E H IH]; intros n b ps HS; [inversion HS; constructor|].
  rewrite edit_items_cons in HS. destruct its as [|j its].
  - inversion HS; subst; [apply sis_last|apply sis_trailing]; eapply spell_item_edit; eauto.
  - rewrite edit_items_cons in HS. inversion HS; subst. apply sis_more; [eapply spell_item_edit; eauto|]. apply (IH (pred n)). rewrite edit_items_cons. assumption.
Qed.
Lemma group_all_items P gs : Forall (group_all P) gs -> Forall (fun i => P (ival i)) (items_of gs).
Proof.
  induction 1 as [|g gs Hg HG IH]; [constructor|]. unfold items_of. cbn [flat_map]. apply Forall_app. split; [destruct g; [constructor|exact Hg]|exact IH].
Qed.
Lemma spell_value_edit v ps : spell_value same (edit_value v) ps -> spell_value same v ps.
Proof.
  revert ps. induction v as [l k tok tc|table lead otc gs tc HG] using fval_ind'; [auto|]. intros ps H. cbn [edit_value] in H. inversion H; subst. constructor.
  match goal with HS : spell_items same (has_last_comma (edit_box _ _ _ _)) _ _ |- _ => rename HS into HX end.
  change (spell_items same (last_comma (items_of (edit_box edit_value (last_comma (items_of gs)) (length (items_of gs)) gs)))
    (items_of (edit_box edit_value (last_comma (items_of gs)) (length (items_of gs)) gs)) ps0) in HX.
  rewrite edit_box_items, edit_items_last in HX. eapply spell_items_edit; [|exact HX]. exact (group_all_items _ _ HG).
Qed.
Definition line_edit (i : item fval) : item fval := match i with Item lead ks raw v c => Item lead ks raw (edit_value v) c end.
Lemma edit_group_items gs : items_of (map edit_group gs) = map line_edit (items_of gs).
Proof. induction gs as [|[b cs|b its] gs IH]; [reflexivity|exact IH|]. unfold items_of in *. cbn [map flat_map edit_group group_items]. rewrite map_app, IH. reflexivity. Qed.
Lemma spell_lines_edit its : forall ps, spell_lines same (map line_edit its) ps -> spell_lines same its ps.
Proof.
  induction its as [|i its IH]; intros ps H; [exact H|]. cbn [map] in H. inversion H; subst. constructor; [|apply IH; assumption].
  match goal with HI : spell_item _ _ _ |- _ => destruct i as [l ks r v c]; cbn [line_edit] in HI; inversion HI; subst; constructor; auto using spell_value_edit end.
Qed.
Definition table_edit (t : ftable) : ftable := FTable (t_array t) (t_lead t) (t_keys t) (t_tc t) (map edit_group (t_groups t)) (t_blank t).
Lemma spell_tables_edit ts : forall ps, spell_tables same (map table_edit ts) ps -> spell_tables same ts ps.
Proof.
  induction ts as [|t ts IH]; intros ps H; [exact H|]. cbn [map] in H. inversion H; subst. cbn [table_edit t_array t_groups t_keys] in *. constructor; auto.
  apply spell_lines_edit. rewrite <- edit_group_items. assumption.
Qed.
Definition doc_edit (d : fdoc) : fdoc := FDoc (map edit_group (d_groups d)) (map table_edit (d_tables d)).
Lemma edit_root_eq d : edit_root d = move_directives (doc_edit d). Proof. reflexivity. Qed.
Lemma spell_move d ps : spell_doc same (move_directives d) ps -> spell_doc same d ps.
Proof.
  unfold move_directives. destruct (starts_dangling (d_groups d)); [auto|]. destruct d as [gs ts]. cbn [d_groups d_tables].
  destruct gs as [|[b cs|b its] gs]; [|auto|].
  - destruct ts as [|[a lead ks tc gs b] ts]; [auto|]. destruct (existsb document_directive lead); [|auto].
    intros (p & q & -> & H1 & H2). exists p, q. cbn [d_groups d_tables] in *. split; [reflexivity|]. split; [exact H1|].
    inversion H2 as [|t0 ts0 pk pl ql HK HL HT]; subst. cbn [t_array t_keys t_groups] in *. apply (st_cons same (FTable a lead ks tc gs b)); assumption.
  - destruct its as [|[lead ks r v c] its]; [auto|]. destruct (existsb document_directive lead); [|auto].
    intros (p & q & -> & H1 & H2). exists p, q. cbn [d_groups d_tables] in *. split; [reflexivity|]. split; [|exact H2].
    unfold items_of in *. cbn [flat_map group_items app] in *. inversion H1 as [|i its0 pi qi HI HL]; subst. constructor; [|exact HL]. inversion HI; subst; constructor; assumption.
Qed.
Lemma spell_edit d ps : spell_doc same (edit_root d) ps -> spell_doc same d ps.
Proof.
  rewrite edit_root_eq. intros H. apply spell_move in H. destruct H as (a & b & -> & H1 & H2). exists a, b. split; [reflexivity|]. cbn [doc_edit d_groups d_tables] in *.
  rewrite edit_group_items in H1. split; [apply spell_lines_edit; exact H1|apply spell_tables_edit; exact H2].
Qed.
End Spell.
(** A key/value outside of braces has no comma. *)
Definition no_line_commas (d : fdoc) : bool :=
  forallb (fun i => negb (is_some (icomma i))) (items_of (d_groups d)) &&
  forallb (fun t => forallb (fun i => negb (is_some (icomma i))) (items_of (t_groups t))) (d_tables d).
Lemma edit_group_content g : group_content (edit_group g) = group_content g.
Proof.
  destruct g as [b cs|b its]; [reflexivity|]. cbn [edit_group group_content]. induction its as [|[l ks r v c] its IH]; [reflexivity|].
  cbn [map flat_map]. rewrite IH. f_equal. destruct ks; cbn [item_content]; rewrite edit_value_content; reflexivity.
Qed.
Lemma edit_groups_content gs : flat_map group_content (map edit_group gs) = flat_map group_content gs.
Proof. induction gs as [|g gs IH]; [reflexivity|]. cbn [map flat_map]. rewrite edit_group_content, IH. reflexivity. Qed.
Lemma edit_tables_content ts : flat_map table_content (map table_edit ts) = flat_map table_content ts.
Proof.
  induction ts as [|t ts IH]; [reflexivity|]. cbn [map flat_map]. rewrite IH. f_equal. unfold table_content, table_edit. cbn [t_lead t_array t_keys t_tc t_groups].
  rewrite edit_groups_content. reflexivity.
Qed.
Lemma move_content d : doc_content (move_directives d) = doc_content d.
Proof.
  unfold move_directives. destruct (starts_dangling (d_groups d)); [reflexivity|]. destruct d as [gs ts]. cbn [d_groups d_tables].
  destruct gs as [|[b cs|b its] gs]; [|reflexivity|].
  - destruct ts as [|[a lead ks tc gs b] ts]; [reflexivity|]. destruct (existsb document_directive lead); [|reflexivity].
    unfold doc_content. cbn [d_groups d_tables flat_map group_content table_content t_lead t_array t_keys t_tc t_groups map app]. unfold table_content.
    cbn [t_lead t_array t_keys t_tc t_groups map app]. rewrite app_nil_r, <- !app_assoc. reflexivity.
  - destruct its as [|[lead ks r v c] its]; [reflexivity|]. destruct (existsb document_directive lead); [|reflexivity].
    unfold doc_content. cbn [d_groups d_tables flat_map group_content]. destruct ks; cbn [item_content map app]; rewrite <- !app_assoc; reflexivity.
Qed.
Lemma edit_content d : doc_content (edit_root d) = doc_content d.
Proof. rewrite edit_root_eq, move_content. unfold doc_content, doc_edit. cbn [d_groups d_tables]. rewrite edit_groups_content, edit_tables_content. reflexivity. Qed.
Lemma edit_group_wf g : wf_group (edit_group g) = wf_group g.
Proof.
  destruct g as [b cs|b its]; [reflexivity|]. cbn [edit_group wf_group]. f_equal; [destruct its; reflexivity|].
  induction its as [|[l ks r v c] its IH]; [reflexivity|]. cbn [map forallb ival]. rewrite IH. cbn [wf_item]. rewrite edit_value_lead, edit_value_wf. reflexivity.
Qed.
Lemma edit_groups_wf gs : forallb wf_group (map edit_group gs) = forallb wf_group gs.
Proof. induction gs as [|g gs IH]; [reflexivity|]. cbn [map forallb]. rewrite edit_group_wf, IH. reflexivity. Qed.
Lemma edit_tables_wf ts : forallb wf_table (map table_edit ts) = forallb wf_table ts.
Proof. induction ts as [|t ts IH]; [reflexivity|]. cbn [map forallb]. rewrite IH. f_equal. unfold wf_table. cbn [table_edit t_keys t_groups]. rewrite edit_groups_wf. reflexivity. Qed.
Lemma existsb_ne {A} f (l : list A) : existsb f l = true -> nonempty l = true.
Proof. destruct l; [discriminate|reflexivity]. Qed.
Lemma move_wf d : wf_doc d = true -> wf_doc (move_directives d) = true.
Proof.
  unfold move_directives. destruct (starts_dangling (d_groups d)); [auto|]. destruct d as [gs ts]. cbn [d_groups d_tables].
  destruct gs as [|[b cs|b its] gs]; [|auto|].
  - destruct ts as [|[a lead ks tc gs b] ts]; [auto|]. destruct (existsb document_directive lead) eqn:E; [|auto].
    intros H. unfold wf_doc in *. cbn [d_groups d_tables forallb wf_group] in *. rewrite (existsb_ne _ _ E). exact H.
  - destruct its as [|[lead ks r v c] its]; [auto|]. destruct (existsb document_directive lead) eqn:E; [|auto].
    intros H. unfold wf_doc in *. cbn [d_groups d_tables forallb wf_group] in *. rewrite (existsb_ne _ _ E). exact H.
Qed.
Lemma edit_wf d : wf_doc d = true -> wf_doc (edit_root d) = true.
Proof.
  intros H. rewrite edit_root_eq. apply move_wf. unfold wf_doc, doc_edit in *. cbn [d_groups d_tables]. rewrite edit_groups_wf, edit_tables_wf. exact H.
Qed.
Lemma plain_line_edit its : forallb (fun i => negb (is_some (icomma i))) its = true -> forallb plain_line (map line_edit its) = true.
Proof.
  induction its as [|[l ks r v c] its IH]; [reflexivity|]. cbn [map forallb icomma]. intros H. apply andb_prop in H. destruct H as [H1 H2]. rewrite (IH H2), andb_true_r.
  cbn [line_edit plain_line]. rewrite edit_value_commas, H1. reflexivity.
Qed.
Lemma move_plain d : plain_lines d = true -> plain_lines (move_directives d) = true.
Proof.
  unfold move_directives. destruct (starts_dangling (d_groups d)); [auto|]. destruct d as [gs ts]. cbn [d_groups d_tables].
  destruct gs as [|[b cs|b its] gs]; [|auto|].
  - destruct ts as [|[a lead ks tc gs b] ts]; [auto|]. destruct (existsb document_directive lead) eqn:E; auto.
  - destruct its as [|[lead ks r v c] its]; [auto|]. destruct (existsb document_directive lead) eqn:E; auto.
Qed.
Lemma edit_plain d : no_line_commas d = true -> plain_lines (edit_root d) = true.
Proof.
  intros H. apply andb_prop in H. destruct H as [H1 H2]. rewrite edit_root_eq. apply move_plain. unfold plain_lines, doc_edit. cbn [d_groups d_tables].
  rewrite edit_group_items, (plain_line_edit _ H1). cbn [andb]. clear H1. induction (d_tables d) as [|t ts IH]; [reflexivity|]. cbn [forallb map] in *. apply andb_prop in H2.
  cbn [table_edit t_groups]. rewrite edit_group_items, (plain_line_edit _ (proj1 H2)), (IH (proj2 H2)). reflexivity.
Qed.
