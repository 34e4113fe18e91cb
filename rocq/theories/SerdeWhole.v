(** The whole text of a document: it is a layout of the sections of the document, and is read as them. *)
From Coq Require Import String Ascii List NArith ZArith Bool Arith Lia Sorting.Permutation.
From Verif Require Import Base SyntaxKind TextModel LexerModel TomlTextModel NumberModel DateTimeModel ParserModel FormatPieces FormatterModel FormatterLayout FormatterSpec FormatterRelex ParseBack ReadBack TextTreeModel TextTreeProofs
  SerdeModel SerdeSpec SerdeTokens SerdeBack SerdeLayout SerdeSections.
From Verif Require DocTreeModel.
From Verif Require Import DocTreeSpec.
Import ListNotations.
Open Scope N_scope.
Open Scope list_scope.

Section Whole.
Context (show : list N -> str) (fl : str -> option (list N)) (version : toml_version).
Notation inl := (inline_ok show fl).
Notation tab := (table_ok show fl).
Definition entry_ok (e : dkey * dvalue) : Prop := key_ok (fst e) /\ inl (snd e).
Definition sect_ok (s : sect) : Prop := st_header s <> [] /\ Forall key_ok (st_header s) /\ Forall entry_ok (st_entries s).
Notation item_of := (entry_item (fv show)).
Definition ft (s : sect) : ftable := FTable (st_array s) [] (map key_token (st_header s)) None (grp (map item_of (st_entries s))) 0.
Definition fd (es : list (dkey * dvalue)) : fdoc := FDoc (grp (map item_of (plain_entries es))) (map ft (below es [])).

Lemma plain_ok es : tab es -> Forall entry_ok (plain_entries es).
Proof.
  intros H. apply Forall_forall. intros [k v] Hi. apply filter_In in Hi as [Hi Hh]. cbn [snd] in Hh. apply negb_true_iff in Hh. inversion H as [es0 HD HK HI HT HR]; subst. split; [exact (HK _ _ Hi)|exact (HI _ _ Hi Hh)].
Qed.
Lemma below_ok es : tab es -> forall parents, Forall key_ok parents -> Forall sect_ok (below es parents).
Proof.
  induction 1 as [es HD HK HI HT IH HR]. intros parents HP. apply Forall_flat_map. apply Forall_forall. intros [k x] Hx. cbn [fst snd]. destruct (has_header x) eqn:E; [|constructor].
  assert (HP' : Forall key_ok (parents ++ [k])) by (apply Forall_app; split; [exact HP|constructor; [exact (HK _ _ Hx)|constructor]]).
  assert (HN : parents ++ [k] <> []) by (destruct parents; discriminate).
  destruct x as [s|[|] vs|[| |] sub]; try discriminate E.
  - cbn [secs]. apply Forall_map. apply Forall_forall. intros r Hr. destruct (proj2 (HR _ _ Hx) r Hr) as (q & es' & -> & _ & HE). split; [exact HN|]. split; [exact HP'|]. apply Forall_forall. intros [k' v'] Hv. exact (HE _ _ Hv).
  - rewrite secs_table. pose proof (IH _ _ Hx _ HP') as HB. destruct (only_header sub); [exact HB|]. constructor; [|exact HB]. split; [exact HN|]. split; [exact HP'|]. apply plain_ok. exact (HT _ _ Hx).
Qed.

(** * Layout *)
Notation lkvs := (lay_kvs [10] 0 no_comment as_key as_literal).
Notation lblocks := (lay_blocks [10] 0 no_comment as_key as_literal).
Notation ltable := (lay_table [10] 0 no_comment as_key as_literal).
Notation ltables := (lay_tables [10] 0 no_comment as_key as_literal (fun _ _ => 0%nat)).
Notation lroot := (lay_root [10] 0 no_comment as_key as_literal (fun _ _ => 0%nat) (fun _ _ => 0%nat)).
Lemma item_lay e : entry_ok e -> lay_item [10] 0 no_comment as_key as_literal (item_of e) (entry_pieces (vp show) e).
Proof. intros [H1 H2]. apply lay_entry; [exact H1|]. apply (inline_lay show fl). exact H2. Qed.
Lemma kvs_lay es : Forall entry_ok es -> es <> [] -> exists p, lkvs (map item_of es) p /\ p ++ [nl [10]] = flat_map (line show) es.
Proof.
  induction 1 as [|e es He HE IH]; intros HN; [contradiction|]. destruct es as [|e' es].
  - exists (entry_pieces (vp show) e ++ []). split; [|rewrite !app_nil_r; cbn [flat_map]; rewrite app_nil_r; reflexivity]. apply lkv_one; [apply item_lay; exact He|]. cbn [entry_item ival icomma]. apply lt_none.
  - destruct IH as (p & HP & EP); [discriminate|]. exists (entry_pieces (vp show) e ++ [] ++ nl [10] :: p). split.
    + apply (lkv_cons [10] 0 no_comment as_key as_literal (item_of e) (map item_of (e' :: es))); [apply item_lay; exact He|apply lt_none|exact HP].
    + change (flat_map (line show) (e :: e' :: es)) with (line show e ++ flat_map (line show) (e' :: es)). rewrite <- EP. unfold line. rewrite <- !app_assoc. reflexivity.
Qed.
Lemma blocks_lay es : Forall entry_ok es -> exists p, lblocks false (grp (map item_of es)) p /\ (match es with [] => p | _ => p ++ [nl [10]] end) = flat_map (line show) es.
Proof.
  intros H. destruct es as [|e es]; [exists []; split; [apply lb_nil|reflexivity]|]. destruct (kvs_lay (e :: es) H ltac:(discriminate)) as (p & HP & EP). exists ([] ++ p ++ []). split.
  - apply (lb_items [10] 0 no_comment as_key as_literal false 0 (map item_of (e :: es)) [] p []); [exact HP|apply lb_nil].
  - cbn [app]. rewrite app_nil_r. exact EP.
Qed.
Lemma keys_lay ks : Forall key_ok ks -> ks <> [] -> lay_keys as_key (map key_token ks) (keys_content (map key_token ks)).
Proof.
  induction 1 as [|k ks Hk HK IH]; intros HN; [contradiction|]. destruct ks as [|k' ks].
  - apply lk_one. split; [reflexivity|apply key_content; exact Hk].
  - apply lk_cons; [split; [reflexivity|apply key_content; exact Hk]|]. apply IH. discriminate.
Qed.
Lemma table_lay s : sect_ok s -> exists p, ltable (ft s) p /\ p ++ [nl [10]] = sect_pieces show s.
Proof.
  intros (H1 & H2 & H3). destruct (blocks_lay _ H3) as (p & HP & EP). eexists. split.
  - apply (lay_t [10] 0 no_comment as_key as_literal (st_array s) [] (map key_token (st_header s)) None (grp (map item_of (st_entries s))) 0 [] [] (keys_content (map key_token (st_header s))) [] p); [constructor|constructor|apply keys_lay; assumption|constructor|exact HP].
  - unfold sect_pieces, header_pieces. cbn [app]. rewrite <- !app_assoc. do 2 f_equal. rewrite <- EP. destruct (st_entries s); [inversion HP; subst; reflexivity|]. cbn [grp map app]. reflexivity.
Qed.
Lemma tables_lay ss : Forall sect_ok ss -> ss <> [] -> exists p, ltables (map ft ss) p /\ p ++ [nl [10]] = flat_map (sect_pieces show) ss.
Proof.
  induction 1 as [|s ss Hs HS IH]; intros HN; [contradiction|]. destruct (table_lay s Hs) as (p & HP & EP). destruct ss as [|s' ss].
  - exists p. split; [apply lts_one; exact HP|]. cbn [flat_map]. rewrite app_nil_r. exact EP.
  - destruct IH as (q & HQ & EQ); [discriminate|]. exists (p ++ nl [10] :: repeat (nl [10]) 0 ++ q). split.
    + apply (lts_cons [10] 0 no_comment as_key as_literal (fun _ _ => 0%nat) (ft s) (ft s') (map ft ss) p q HP HQ).
    + change (flat_map (sect_pieces show) (s :: s' :: ss)) with (sect_pieces show s ++ flat_map (sect_pieces show) (s' :: ss)). rewrite <- EQ, <- EP. cbn [repeat app]. rewrite <- !app_assoc. reflexivity.
Qed.
Definition all_pieces (es : list (dkey * dvalue)) : list piece := flat_map (line show) (plain_entries es) ++ flat_map (sect_pieces show) (below es []).
Lemma root_lay es : tab es -> exists qs, lroot (fd es) qs /\ (if nonempty qs then qs ++ [nl [10]] else []) = all_pieces es /\ match qs with [] => True | p :: _ => fst p <> WHITESPACE end.
Proof.
  intros H. destruct (blocks_lay _ (plain_ok es H)) as (p & HP & EP). pose proof (below_ok es H [] (Forall_nil _)) as HS. unfold fd, all_pieces.
  destruct (below es []) as [|s ss] eqn:EB.
  - exists p. split; [apply lr_no_table; exact HP|]. cbn [flat_map]. rewrite app_nil_r, <- EP. destruct (plain_entries es) as [|e es'] eqn:EE; [inversion HP; subst; split; [reflexivity|exact I]|].
    destruct p as [|x p]; [exfalso; cbn [flat_map] in EP; unfold line, entry_pieces in EP; discriminate EP|]. split; [reflexivity|]. cbn [flat_map app] in EP. unfold line, entry_pieces in EP. cbn [app] in EP. injection EP as -> _. cbn. unfold key_token. cbn. destruct (k_kind (fst e)); discriminate.
  - destruct (tables_lay _ HS) as (q & HQ & EQ); [discriminate|]. eexists. split; [apply (lr_tables [10] 0 no_comment as_key as_literal _ _ _ (ft s) (map ft ss) p q); [exact HP|exact HQ]|].
    rewrite <- EQ, <- EP. destruct (plain_entries es) as [|e es'] eqn:EE.
    + inversion HP; subst. cbn [grp map app]. assert (HH : exists q', q = (BRACKET_START, [91]) :: q').
      { destruct q as [|x q]; [exfalso; cbn [flat_map] in EQ; unfold sect_pieces, header_pieces, brackets in EQ; destruct (st_array s); discriminate EQ|]. exists q. cbn [flat_map app] in EQ. unfold sect_pieces, header_pieces, brackets in EQ. destruct (st_array s); injection EQ as -> _; reflexivity. }
      destruct HH as [q' ->]. split; [reflexivity|discriminate].
    + cbn [grp map]. destruct p as [|x p]; [exfalso; cbn [flat_map] in EP; unfold line, entry_pieces in EP; discriminate EP|]. split; [cbn [app nonempty repeat]; f_equal; rewrite <- !app_assoc; reflexivity|].
      cbn [flat_map app] in EP. unfold line, entry_pieces in EP. cbn [app] in EP. injection EP as -> _. cbn. unfold key_token. cbn. destruct (k_kind (fst e)); discriminate.
Qed.

(** * The document is one the parser makes *)
Lemma group_wf es : Forall entry_ok es -> forallb wf_group (grp (map item_of es)) = true.
Proof.
  intros H. destruct es as [|e es]; [reflexivity|]. set (l := e :: es) in *. change (grp (map item_of l)) with [GI 0 (map item_of l)].
  change (forallb (fun i => wf_item true i && wf_value (ival i)) (map item_of l) && true = true). rewrite andb_true_r. apply forallb_forall. intros i Hi. apply in_map_iff in Hi as ([k v] & <- & Hx).
  rewrite Forall_forall in H. destruct (H _ Hx) as [H1 H2]. destruct (entry_wf show k v H1 (inline_wf show fl v H2)) as [W1 W2]. unfold entry_item. cbn [fst snd]. rewrite W1, W2. reflexivity.
Qed.
Lemma doc_wf es : tab es -> wf_doc (fd es) = true.
Proof.
  intros H. unfold wf_doc, fd. cbn [d_groups d_tables]. rewrite (group_wf _ (plain_ok es H)). apply forallb_forall. intros t Ht. apply in_map_iff in Ht as (s & <- & Hs).
  pose proof (below_ok es H [] (Forall_nil _)) as HS. rewrite Forall_forall in HS. destruct (HS _ Hs) as (H1 & H2 & H3). unfold wf_table, ft. cbn [t_keys t_groups]. rewrite (group_wf _ H3), andb_true_r. unfold wf_keys.
  apply andb_true_iff. split; [destruct (st_header s); [contradiction|reflexivity]|]. apply forallb_forall. intros k Hk. apply in_map_iff in Hk as (q & <- & Hq). rewrite Forall_forall in H2. apply key_content. exact (H2 _ Hq).
Qed.
Lemma keys_ok ks : Forall key_ok ks -> Forall content_ok (keys_content (map key_token ks)).
Proof.
  induction 1 as [|k ks Hk HK IH]; [constructor|]. destruct ks as [|k' ks]; [constructor; [apply key_content; exact Hk|constructor]|]. constructor; [apply key_content; exact Hk|]. constructor; [apply dot_content|exact IH].
Qed.
Lemma group_ok es : Forall entry_ok es -> Forall content_ok (flat_map group_content (grp (map item_of es))).
Proof.
  intros H. rewrite grp_content. apply Forall_flat_map. apply Forall_forall. intros i Hi. apply in_map_iff in Hi as ([k v] & <- & Hx). rewrite Forall_forall in H. destruct (H _ Hx) as [H1 H2]. apply entry_content; [exact H1|]. apply (inline_content show fl). exact H2.
Qed.
Lemma doc_ok es : tab es -> Forall content_ok (doc_content (fd es)).
Proof.
  intros H. unfold doc_content, fd. cbn [d_groups d_tables]. apply Forall_app. split; [apply group_ok; exact (plain_ok es H)|]. apply Forall_flat_map. apply Forall_forall. intros t Ht. apply in_map_iff in Ht as (s & <- & Hs).
  pose proof (below_ok es H [] (Forall_nil _)) as HS. rewrite Forall_forall in HS. destruct (HS _ Hs) as (H1 & H2 & H3). unfold table_content, ft. cbn [t_lead t_array t_keys t_tc t_groups map app opt_comment].
  pose proof (brace_content false) as [B1 B2]. apply Forall_app. split; [destruct (st_array s); repeat (constructor; [assumption|]); constructor|]. apply Forall_app. split; [apply keys_ok; exact H2|].
  apply Forall_app. split; [destruct (st_array s); repeat (constructor; [assumption|]); constructor|]. apply group_ok. exact H3.
Qed.

(** * Nesting *)
Lemma max_le {A} (f : A -> nat) n l : (forall x, In x l -> (f x <= n)%nat) -> (fold_right (fun x m => Nat.max (f x) m) 0%nat l <= n)%nat.
Proof. induction l as [|x l IH]; intros H; [apply Nat.le_0_l|]. cbn [fold_right]. apply Nat.max_lub; [apply H; left; reflexivity|]. apply IH. intros y Hy. apply H. right. exact Hy. Qed.
Lemma le_max {A} (f : A -> nat) x l : In x l -> (f x <= fold_right (fun x m => Nat.max (f x) m) 0%nat l)%nat.
Proof. induction l as [|y l IH]; intros H; [destruct H|]. cbn [fold_right]. destruct H as [<- |H]; [apply Nat.le_max_l|]. etransitivity; [apply IH; exact H|apply Nat.le_max_r]. Qed.
Lemma group_nest n es : (forall e, In e es -> (inline_depth (snd e) <= n)%nat) -> (gsnest (grp (map item_of es)) <= n)%nat.
Proof.
  intros H. rewrite <- items_nest, items_grp. unfold isnest. apply max_le. intros i Hi. apply in_map_iff in Hi as (e & <- & He). unfold entry_item, inest. cbn. rewrite inline_nest. exact (H _ He).
Qed.
Lemma below_nest n es : tab es -> (depth_of (DvTable KTable es) <= n)%nat -> forall parents s, In s (below es parents) -> forall e, In e (st_entries s) -> (inline_depth (snd e) <= n)%nat.
Proof.
  assert (HPL : forall es, tab es -> (depth_of (DvTable KTable es) <= n)%nat -> forall e, In e (plain_entries es) -> (inline_depth (snd e) <= n)%nat).
  { intros es0 H HN [k v] Hi. apply filter_In in Hi as [Hi Hh]. cbn [snd] in *. apply negb_true_iff in Hh. inversion H as [es1 HD HK HI HT HR]; subst. pose proof (HI _ _ Hi Hh) as HV. pose proof (le_max (fun e => depth_of (snd e)) _ _ Hi) as HM. cbn [snd depth_of] in HM, HN.
    assert (E : depth_of v = inline_depth v) by (inversion HV; reflexivity). rewrite E in HM. etransitivity; [exact HM|exact HN]. }
  induction 1 as [es HD HK HI HT IH HR]. intros HN parents s Hs e He. apply in_flat_map in Hs as ([k x] & Hx & Hs). cbn [fst snd] in Hs. destruct (has_header x) eqn:E; [|destruct Hs].
  pose proof (le_max (fun e => depth_of (snd e)) _ _ Hx) as HM. cbn [snd] in HM. change (depth_of x <= depth_of (DvTable KTable es))%nat in HM. assert (HX : (depth_of x <= n)%nat) by (etransitivity; [exact HM|exact HN]). clear HM.
  destruct x as [s0|[|] vs|[| |] sub]; try discriminate E.
  - cbn [secs] in Hs. apply in_map_iff in Hs as (r & <- & Hr). cbn [st_entries] in He. cbn [depth_of] in HX. etransitivity; [|exact HX]. etransitivity; [|exact (le_max (fun r => match r with DvTable _ es => fold_right (fun e m => Nat.max (inline_depth (snd e)) m) 0%nat es | _ => 0%nat end) r vs Hr)]. destruct (proj2 (HR _ _ Hx) r Hr) as (q & es' & -> & _). cbn [row_entries] in He. exact (le_max (fun e => inline_depth (snd e)) e es' He).
  - rewrite secs_table in Hs. destruct (only_header sub); [exact (IH _ _ Hx HX _ _ Hs _ He)|]. destruct Hs as [<- |Hs]; [exact (HPL _ (HT _ _ Hx) HX _ He)|exact (IH _ _ Hx HX _ _ Hs _ He)].
Qed.
Lemma doc_nest es : tab es -> (dnest (fd es) <= depth_of (DvTable KTable es))%nat.
Proof.
  intros H. unfold dnest, fd. cbn [d_groups d_tables]. apply Nat.max_lub.
  - apply group_nest. intros [k v] Hi. pose proof (plain_ok es H) as HP. rewrite Forall_forall in HP. destruct (HP _ Hi) as [_ HV]. cbn [snd] in *. apply filter_In in Hi as [Hi _]. pose proof (le_max (fun e => depth_of (snd e)) _ _ Hi) as HM. cbn [snd] in HM. assert (E : depth_of v = inline_depth v) by (inversion HV; reflexivity). rewrite E in HM. exact HM.
  - apply (max_le (fun t => gsnest (t_groups t))). intros t Ht. apply in_map_iff in Ht as (s & <- & Hs). apply group_nest. exact (below_nest _ es H (le_n _) [] s Hs).
Qed.

(** * Syntax *)
Definition sect_syn (s : sect) : DocTreeModel.section :=
  {| DocTreeModel.s_array := st_array s; DocTreeModel.s_header := map k_value (st_header s); DocTreeModel.s_body := map (fun e => ([k_value (fst e)], syn (snd e))) (st_entries s) |}.
Definition doc_syn (es : list (dkey * dvalue)) : DocTreeModel.document :=
  {| DocTreeModel.d_body := map (fun e => ([k_value (fst e)], syn (snd e))) (plain_entries es); DocTreeModel.d_sections := map sect_syn (below es []) |}.
Lemma body_syn es : Forall entry_ok es -> syn_body fl version (grp (map item_of es)) = Some (map (fun e => ([k_value (fst e)], syn (snd e))) es).
Proof.
  intros H. unfold syn_body. rewrite items_grp. apply opt_all_map. intros [k v] Hx. rewrite Forall_forall in H. destruct (H _ Hx) as [H1 H2]. apply entry_syn; [exact H1|]. apply inline_syn. exact H2.
Qed.
Lemma doc_syntax es : tab es -> syntax_of fl version (fd es) = Some (doc_syn es).
Proof.
  intros H. unfold syntax_of, fd. cbn [d_groups d_tables]. rewrite (body_syn _ (plain_ok es H)). rewrite (opt_all_map ft _ sect_syn); [reflexivity|]. intros s Hs.
  pose proof (below_ok es H [] (Forall_nil _)) as HS. rewrite Forall_forall in HS. destruct (HS _ Hs) as (H1 & H2 & H3). unfold syn_section, ft. cbn [t_keys t_groups t_array]. rewrite (body_syn _ H3).
  rewrite (opt_all_map key_token (key_value version) k_value); [reflexivity|]. intros k Hk. apply key_reads. rewrite Forall_forall in H2. exact (H2 _ Hk).
Qed.
End Whole.
