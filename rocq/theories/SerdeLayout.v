(** The text the serializer writes for a document is a layout of it. *)
From Coq Require Import String Ascii List NArith ZArith Bool Arith Lia.
From Verif Require Import Base SyntaxKind TextModel LexerModel TomlTextModel NumberModel DateTimeModel ParserModel FormatPieces FormatterModel FormatterLayout FormatterSpec FormatterRelex ParseBack ReadBack TextTreeModel TextTreeProofs
  SerdeModel SerdeSpec SerdeTokens SerdeBack.
From Verif Require DocTreeModel DocTreeSpec.
Import ListNotations.
Open Scope N_scope.
Open Scope list_scope.

(** * Values on one line *)
Definition grp (its : list (item fval)) : list (group (item fval)) := match its with [] => [] | _ => [GI 0 its] end.
Lemma items_grp its : items_of (grp its) = its.
Proof. destruct its as [|i its]; [reflexivity|]. unfold items_of. cbn [grp flat_map group_items]. apply app_nil_r. Qed.
Definition space : piece := (WHITESPACE, [32]).
Fixpoint joined (l : list (list piece)) : list piece := match l with [] => [] | [p] => p | p :: l => p ++ comma_piece :: space :: joined l end.
Lemma ptext_cons k w ps : ptext ((k, w) :: ps) = w ++ ptext ps.
Proof. reflexivity. Qed.
Lemma ptext_app a b : ptext (a ++ b) = ptext a ++ ptext b.
Proof. apply flat_map_app. Qed.
Lemma joined_text f g (l : list dvalue) : (forall x, In x l -> f x = ptext (g x)) -> join [44; 32] (map f l) = ptext (joined (map g l)).
Proof.
  induction l as [|x l IH]; intros H; [reflexivity|]. destruct l as [|y l]; [apply H; left; reflexivity|].
  change (join [44; 32] (map f (x :: y :: l))) with (f x ++ [44; 32] ++ join [44; 32] (map f (y :: l))). change (joined (map g (x :: y :: l))) with (g x ++ comma_piece :: space :: joined (map g (y :: l))).
  rewrite ptext_app. unfold comma_piece, space. rewrite !ptext_cons. rewrite H by (left; reflexivity). rewrite IH by (intros z Hz; apply H; right; exact Hz). reflexivity.
Qed.
Lemma joined_text' f g (l : list (dkey * dvalue)) : (forall x, In x l -> f x = ptext (g x)) -> join [44; 32] (map f l) = ptext (joined (map g l)).
Proof.
  induction l as [|x l IH]; intros H; [reflexivity|]. destruct l as [|y l]; [apply H; left; reflexivity|].
  change (join [44; 32] (map f (x :: y :: l))) with (f x ++ [44; 32] ++ join [44; 32] (map f (y :: l))). change (joined (map g (x :: y :: l))) with (g x ++ comma_piece :: space :: joined (map g (y :: l))).
  rewrite ptext_app. unfold comma_piece, space. rewrite !ptext_cons. rewrite H by (left; reflexivity). rewrite IH by (intros z Hz; apply H; right; exact Hz). reflexivity.
Qed.

Section Layout.
Context (show : list N -> str) (fl : str -> option (list N)) (version : toml_version) (limit : N).
Notation inl := (inline_ok show fl).
Notation tab := (table_ok show fl).
Notation lval := (lay_value [10] limit no_comment as_key as_literal).
Notation litem := (lay_item [10] limit no_comment as_key as_literal).
Notation lline := (lay_line [10] limit no_comment as_key as_literal).

Definition entry_item (f : dvalue -> fval) (e : dkey * dvalue) : item fval := Item [] [key_token (fst e)] [] (f (snd e)) None.
Fixpoint fv (v : dvalue) : fval :=
  match v with
  | DvScalar s => FLit [] (scalar_kind s) (scalar_text show s) None
  | DvArray _ vs => FBox false [] None (grp (map (fun v => Item [] [] [] (fv v) None) vs)) None
  | DvTable _ es => FBox true [] None (grp (map (fun e => Item [] [key_token (fst e)] [] (fv (snd e)) None) es)) None
  end.
Definition entry_pieces (f : dvalue -> list piece) (e : dkey * dvalue) : list piece := key_token (fst e) :: space :: (EQUAL, [61]) :: space :: f (snd e).
Fixpoint vp (v : dvalue) : list piece :=
  match v with
  | DvScalar s => [(scalar_kind s, scalar_text show s)]
  | DvArray _ vs => opening false :: joined (map vp vs) ++ [closing false]
  | DvTable _ es => opening true :: joined (map (fun e => key_token (fst e) :: space :: (EQUAL, [61]) :: space :: vp (snd e)) es) ++ [closing true]
  end.
Fixpoint syn (v : dvalue) : DocTreeModel.syn_value :=
  match v with
  | DvScalar s => DocTreeModel.SynScalar (code s)
  | DvArray _ vs => DocTreeModel.SynArray (map syn vs)
  | DvTable _ es => DocTreeModel.SynInline (map (fun e => ([k_value (fst e)], syn (snd e))) es)
  end.
Lemma entry_text (k : dkey) u : key_text k ++ lit " = " ++ ptext u = ptext (key_token k :: space :: (EQUAL, [61]) :: space :: u).
Proof. unfold key_token, space. rewrite !ptext_cons. reflexivity. Qed.
Lemma inline_text v : inl v -> forall inside parents, text show inside v parents = ptext (vp v).
Proof.
  induction 1 as [s H|vs H IH|es HD HK H IH]; intros inside parents.
  - cbn. rewrite app_nil_r. reflexivity.
  - cbn [text vp]. unfold bracketed. change (opening false) with (BRACKET_START, [91]). change (closing false) with (BRACKET_END, [93]). rewrite ptext_cons, ptext_app. f_equal. f_equal. apply joined_text. intros x Hx. apply IH. exact Hx.
  - cbn [text vp]. unfold bracketed. change (opening true) with (BRACE_START, [123]). change (closing true) with (BRACE_END, [125]). rewrite ptext_cons, ptext_app. f_equal. f_equal. apply joined_text'. intros [k x] Hx. cbn [fst snd]. rewrite (IH _ _ Hx). apply entry_text.
Qed.
Lemma fv_lead v : vlead (fv v) = []. Proof. destruct v; reflexivity. Qed.
Lemma fv_tc v : vtc (fv v) = None. Proof. destruct v; reflexivity. Qed.
Lemma lay_joined {A} (f : A -> item fval) (g : A -> list piece) (l : list A) : (forall x, In x l -> litem (f x) (g x)) -> lline (map f l) (joined (map g l)).
Proof.
  induction l as [|x l IH]; intros H; [constructor|]. destruct l as [|y l]; [apply ls_one; apply H; left; reflexivity|]. change (map f (x :: y :: l)) with (f x :: map f (y :: l)). change (joined (map g (x :: y :: l))) with (g x ++ comma_piece :: [space] ++ joined (map g (y :: l))).
  apply (ls_cons _ _ _ _ _ _ _ _ [space]); [apply H; left; reflexivity|constructor; [split; [reflexivity|split; [discriminate|repeat constructor]]|constructor]|discriminate|].
  apply IH. intros z Hz. apply H. right. exact Hz.
Qed.
Lemma one_space : FormatterLayout.blanks [space].
Proof. constructor; [split; [reflexivity|split; [discriminate|repeat constructor]]|constructor]. Qed.
Lemma lay_entry k v ps : key_ok k -> lval (fv v) ps -> litem (Item [] [key_token k] [] (fv v) None) (key_token k :: space :: (EQUAL, [61]) :: space :: ps).
Proof.
  intros HK HV. apply (lay_kv _ _ _ _ _ [] [key_token k] [] (fv v) None [] [] [key_token k] [space] [space]); [constructor|constructor| |apply one_space|apply one_space|exact HV].
  apply lk_one. split; [reflexivity|apply key_content; exact HK].
Qed.
Lemma grp_items its : forallb (fun g : group (item fval) => match g with GD _ _ => false | GI _ _ => true end) (grp its) = true.
Proof. destruct its; reflexivity. Qed.
Lemma lay_box table its ps : Forall quiet its -> lline its ps -> lval (FBox table [] None (grp its) None) (opening table :: ps ++ [closing table]).
Proof.
  intros HQ HL. replace (opening table :: ps ++ [closing table]) with ([] ++ [] ++ open_piece table :: [] ++ ps ++ [] ++ [close_piece table]) by (destruct table; reflexivity).
  apply lay_single; try constructor; try (rewrite items_grp; assumption). apply grp_items.
Qed.
Lemma inline_lay v : inl v -> lval (fv v) (vp v).
Proof.
  induction 1 as [s H|vs H IH|es HD HK H IH]; cbn [fv vp].
  - apply (lay_lit _ _ _ _ _ [] _ _ None [] [] _ []); constructor.
  - apply lay_box.
    + apply Forall_forall. intros i Hi. apply in_map_iff in Hi as (x & <- & Hx). split; [reflexivity|]. split; [apply fv_tc|left; reflexivity].
    + apply lay_joined. intros x Hx. apply lay_plain. apply IH. exact Hx.
  - apply lay_box.
    + apply Forall_forall. intros i Hi. apply in_map_iff in Hi as (x & <- & Hx). split; [reflexivity|]. split; [apply fv_tc|left; reflexivity].
    + apply (lay_joined (fun e => Item [] [key_token (fst e)] [] (fv (snd e)) None)). intros [k x] Hx. apply lay_entry; [exact (HK _ _ Hx)|exact (IH _ _ Hx)].
Qed.
Lemma box_wf table its : (forall i, In i its -> wf_item table i = true /\ wf_value (ival i) = true) -> wf_value (FBox table [] None (grp its) None) = true.
Proof.
  intros H. destruct its as [|i its]; [reflexivity|]. unfold grp. set (l := i :: its) in *.
  change (nonempty l && forallb (fun i => match i with Item l ks r v c => wf_item table (Item l ks r v c) && wf_value v end) l && true = true).
  rewrite andb_true_r. change (nonempty l) with true. rewrite andb_true_l. apply forallb_forall. intros [l0 ks r x c] Hx. destruct (H _ Hx) as [H1 H2]. cbn [ival] in H2. rewrite H1, H2. reflexivity.
Qed.
Lemma entry_wf k v : key_ok k -> wf_value (fv v) = true -> wf_item true (Item [] [key_token k] [] (fv v) None) = true /\ wf_value (ival (Item [] [key_token k] [] (fv v) None)) = true.
Proof. intros HK HV. split; [|exact HV]. unfold wf_item, wf_keys. rewrite fv_lead. cbn [nonempty forallb]. rewrite (proj2 (key_content k HK)). reflexivity. Qed.
Lemma inline_wf v : inl v -> wf_value (fv v) = true.
Proof.
  induction 1 as [s H|vs H IH|es HD HK H IH]; cbn [fv].
  - apply scalar_literal.
  - apply box_wf. intros i Hi. apply in_map_iff in Hi as (x & <- & Hx). split; [reflexivity|]. apply IH. exact Hx.
  - apply box_wf. intros i Hi. apply in_map_iff in Hi as ([k x] & <- & Hx). apply entry_wf; [exact (HK _ _ Hx)|exact (IH _ _ Hx)].
Qed.
Lemma brace_content b : content_ok (opening b) /\ content_ok (closing b).
Proof. destruct b; split; eexists; split; reflexivity. Qed.
Lemma equal_content : content_ok (EQUAL, [61]).
Proof. eexists; split; reflexivity. Qed.
Lemma dot_content : content_ok (DOT, [46]).
Proof. eexists; split; reflexivity. Qed.
Lemma grp_content its : flat_map group_content (grp its) = flat_map (item_content value_content) its.
Proof. destruct its as [|i its]; [reflexivity|]. cbn [grp flat_map group_content]. apply app_nil_r. Qed.
Lemma box_content table its : Forall content_ok (flat_map (item_content value_content) its) -> Forall content_ok (value_content (FBox table [] None (grp its) None)).
Proof.
  intros H. cbn [value_content map app opt_comment]. constructor; [apply brace_content|]. apply Forall_app. split; [|constructor; [apply brace_content|constructor]].
  replace (flat_map _ (grp its)) with (flat_map group_content (grp its)); [rewrite grp_content; exact H|]. apply flat_map_ext. intros [b cs|b l]; [reflexivity|]. cbn [group_content]. apply flat_map_ext. intros [l0 ks r x c]. destruct ks; reflexivity.
Qed.
Lemma entry_content k v : key_ok k -> Forall content_ok (value_content (fv v)) -> Forall content_ok (item_content value_content (Item [] [key_token k] [] (fv v) None)).
Proof.
  intros HK HV. cbn [item_content map app keys_content comma_content]. constructor; [apply key_content; exact HK|]. constructor; [apply equal_content|]. rewrite app_nil_r. exact HV.
Qed.
Lemma inline_content v : inl v -> Forall content_ok (value_content (fv v)).
Proof.
  induction 1 as [s H|vs H IH|es HD HK H IH]; cbn [fv].
  - cbn. constructor; [|constructor]. apply (scalar_content show fl). exact H.
  - apply box_content. apply Forall_flat_map. apply Forall_forall. intros i Hi. apply in_map_iff in Hi as (x & <- & Hx). cbn [item_content map app comma_content]. rewrite app_nil_r. apply IH. exact Hx.
  - apply box_content. apply Forall_flat_map. apply Forall_forall. intros i Hi. apply in_map_iff in Hi as ([k x] & <- & Hx). apply entry_content; [exact (HK _ _ Hx)|exact (IH _ _ Hx)].
Qed.
Lemma box_nest table its : vnest (FBox table [] None (grp its) None) = S (isnest its).
Proof. rewrite vnest_box, <- items_nest, items_grp. reflexivity. Qed.
Lemma inline_nest v : vnest (fv v) = inline_depth v.
Proof.
  revert v. fix IH 1. intros [s|k vs|k es]; cbn [fv inline_depth]; [reflexivity| |]; rewrite box_nest; f_equal.
  - induction vs as [|x vs IHv]; [reflexivity|]. cbn [map isnest fold_right]. unfold inest at 1. cbn [ival]. rewrite (IH x). f_equal. exact IHv.
  - induction es as [|[q x] es IHv]; [reflexivity|]. cbn [map isnest fold_right snd]. unfold inest at 1. cbn [ival]. rewrite (IH x). f_equal. exact IHv.
Qed.
Lemma opt_all_map {A B C} (f : A -> B) (g : B -> option C) (h : A -> C) l : (forall x, In x l -> g (f x) = Some (h x)) -> opt_all g (map f l) = Some (map h l).
Proof.
  induction l as [|x l IH]; intros H; [reflexivity|]. cbn [map opt_all]. rewrite H by (left; reflexivity). fold (opt_all g). rewrite IH by (intros y Hy; apply H; right; exact Hy). reflexivity.
Qed.
Lemma entry_syn k v : key_ok k -> syn_value fl version (fv v) = Some (syn v) -> syn_item version (syn_value fl version) (Item [] [key_token k] [] (fv v) None) = Some ([k_value k], syn v).
Proof. intros HK HV. unfold syn_item. cbn [opt_all]. rewrite (key_reads version k HK), HV. reflexivity. Qed.
Lemma inline_syn v : inl v -> syn_value fl version (fv v) = Some (syn v).
Proof.
  induction 1 as [s H|vs H IH|es HD HK H IH]; cbn [fv syn].
  - cbn [syn_value]. rewrite (scalar_reads show fl version s H). reflexivity.
  - rewrite syn_box, items_grp. rewrite (opt_all_map (fun v => Item [] [] [] (fv v) None) _ (fun v => ([], syn v))).
    + cbn [option_map]. rewrite map_map. reflexivity.
    + intros x Hx. unfold syn_item. cbn [opt_all]. rewrite (IH _ Hx). reflexivity.
  - rewrite syn_box, items_grp. rewrite (opt_all_map (fun e => Item [] [key_token (fst e)] [] (fv (snd e)) None) _ (fun e => ([k_value (fst e)], syn (snd e)))); [reflexivity|].
    intros [k x] Hx. apply entry_syn; [exact (HK _ _ Hx)|exact (IH _ _ Hx)].
Qed.

(** * What a value on one line means *)
Import DocTreeSpec.
Lemma assoc_none {A} k (es : list (str * A)) : ~ In k (map fst es) -> assoc k es = None.
Proof.
  induction es as [|[k' x] es IH]; intros H; [reflexivity|]. cbn [assoc]. destruct (str_eqb k k') eqn:E; [exfalso; apply str_eqb_eq in E; subst; apply H; left; reflexivity|]. apply IH. intros Hk. apply H. right. exact Hk.
Qed.
Lemma put_all_leaves (l : list (str * data)) : forall es, NoDup (map fst es ++ map fst l) -> put_all (map (fun e => ([fst e], Some (snd e))) l) es = Some (es ++ map (fun e => (fst e, Leaf (snd e))) l).
Proof.
  induction l as [|[k d] l IH]; intros es H; [cbn; rewrite app_nil_r; reflexivity|]. cbn [map put_all put fst snd] in *. rewrite assoc_none.
  - rewrite IH.
    + rewrite <- app_assoc. reflexivity.
    + rewrite map_app, <- app_assoc. exact H.
  - apply NoDup_remove_2 in H. intros Hk. apply H. apply in_app_iff. left. exact Hk.
Qed.
Lemma all_some_map {A} (f : A -> option data) g l : (forall x, In x l -> f x = Some (g x)) -> all_some (map f l) = Some (map g l).
Proof.
  induction l as [|x l IH]; intros H; [reflexivity|]. cbn [map all_some]. rewrite H by (left; reflexivity). rewrite IH by (intros y Hy; apply H; right; exact Hy). reflexivity.
Qed.
Definition entry_data (e : dkey * dvalue) : str * data := (k_value (fst e), doc_data (snd e)).
Lemma entries_put (es : list (dkey * dvalue)) acc : (forall k v, In (k, v) es -> eval (syn v) = Some (doc_data v)) -> NoDup (map fst acc ++ map (fun e => k_value (fst e)) es) ->
  put_all (map (fun e => ([k_value (fst e)], eval (syn (snd e)))) es) acc = Some (acc ++ map (fun e => (k_value (fst e), Leaf (doc_data (snd e)))) es).
Proof.
  intros H HD. pose proof (put_all_leaves (map entry_data es) acc) as P. rewrite !map_map in P. cbn [entry_data fst snd] in P. rewrite <- (P HD). f_equal.
  apply map_ext_in. intros [k v] Hx. cbn [fst snd]. rewrite (H _ _ Hx). reflexivity.
Qed.
Lemma inline_eval v : inl v -> eval (syn v) = Some (doc_data v).
Proof.
  induction 1 as [s H|vs H IH|es HD HK H IH]; cbn [syn eval doc_data].
  - reflexivity.
  - rewrite map_map. rewrite (all_some_map _ doc_data); [reflexivity|]. exact IH.
  - rewrite map_map. cbn [fst snd]. rewrite (entries_put es [] IH HD). cbn [app option_map table_meaning meaning]. rewrite map_map. reflexivity.
Qed.
End Layout.
