(** What the walk of HighlightModel.v collects, first in terms of the formatter's view, then of the tree. *)
From Coq Require Import String Ascii List NArith Bool Arith Lia.
From Verif Require Import Base SyntaxKind TextModel LexerModel LexerSpec ParserModel ParserBuild TomlTextModel AstModel FormatterModel FormatterLayout FormatterSpec ParserShape ParserTree
  ViewShape HighlightModel HighlightSpec.
Import ListNotations.
Open Scope N_scope.
Open Scope list_scope.

(** * What is seen of a view *)
Definition vcomments (l : list str) : list sight := map (see CommentType COMMENT) l.
Definition vcomment (o : option str) : list sight := match o with Some c => [see CommentType COMMENT c] | None => [] end.
Definition vkeys (ty : token_type) (ks : list fkey) : list sight := map (fun k : fkey => see ty (fst k) (snd k)) ks.
Definition vcomma (c : option fcomma) : list sight := match c with Some (Comma lead tc) => vcomments lead ++ vcomment tc | None => [] end.
Definition vliteral (k : kind) (w : str) : list sight := match literal_type k with Some ty => [see ty k w] | None => [] end.
Definition vitem (commas table : bool) (f : fval -> list sight) (i : item fval) : list sight :=
  match i with Item lead ks _ v c => vcomments lead ++ (if table then vkeys KeyType ks ++ [see OperatorType EQUAL []] else []) ++ f v ++ if commas then vcomma c else [] end.
Fixpoint vvalue (v : fval) : list sight :=
  match v with
  | FLit lead k w tc => vcomments lead ++ vliteral k w ++ vcomment tc
  | FBox table lead otc gs tc =>
      vcomments lead ++ (vcomment otc ++
      flat_map (fun g => match g with
        | GD _ cs => vcomments cs
        | GI _ its => flat_map (fun i => match i with Item l ks r v c => vitem true table (fun _ => vvalue v) (Item l ks r v c) end) its
        end) gs) ++ vcomment tc
  end.
Definition vgroup (commas table : bool) (g : group (item fval)) : list sight :=
  match g with GD _ cs => vcomments cs | GI _ its => flat_map (vitem commas table vvalue) its end.
Lemma vvalue_box table lead otc gs tc : vvalue (FBox table lead otc gs tc) = vcomments lead ++ (vcomment otc ++ flat_map (vgroup true table) gs) ++ vcomment tc.
Proof.
  reflexivity.
Qed.
Definition vtable (commas : bool) (t : ftable) : list sight :=
  vcomments (t_lead t) ++ [see OperatorType (if t_array t then DOUBLE_BRACKET_START else BRACKET_START) []] ++ vkeys TableType (t_keys t) ++
  [see OperatorType (if t_array t then DOUBLE_BRACKET_END else BRACKET_END) []] ++ vcomment (t_tc t) ++ flat_map (vgroup commas true) (t_groups t).
Definition vdoc (commas : bool) (d : fdoc) : list sight := flat_map (vgroup commas true) (d_groups d) ++ flat_map (vtable commas) (d_tables d).

(** * Trees in which the tokens are there that the walk asks for *)
Definition has (k : kind) (cs : list tree) : Prop := exists w, In (TToken k w) cs.
Definition okn (k : kind) (cs : list tree) : Prop :=
  match k with
  | KEY_VALUE => has EQUAL cs
  | TABLE => has BRACKET_START cs /\ has BRACKET_END cs
  | ARRAY_OF_TABLE => has DOUBLE_BRACKET_START cs /\ has DOUBLE_BRACKET_END cs
  | VALUE_WITH_COMMA_GROUP => Forall (fun c => tkind_of c <> KEY_VALUE) cs
  | KEYS => Forall (fun c => forall k x, c = TNode k x -> is_key k = true -> forall w, In (TToken k w) x -> flat_map solid_text x = w) cs
  | _ => True
  end.
Inductive ok : tree -> Prop :=
| ok_token k w : ok (TToken k w)
| ok_node k cs : okn k cs -> Forall ok cs -> ok (TNode k cs).
Lemma ok_kids e : ok (it e) -> forall x, In x (children_with_tokens e) -> ok (it x).
Proof.
  intros H x HX. unfold children_with_tokens in HX. destruct H as [k w|k cs HN HF]; [destruct HX|]. rewrite Forall_forall in HF. apply HF.
  rewrite <- (place_it (pre e) cs). apply in_map. exact HX.
Qed.
Lemma ok_children e : ok (it e) -> forall x, In x (children e) -> ok (it x) /\ is_node x = true.
Proof. intros H x HX. apply filter_In in HX as [HX HN]. split; [eapply ok_kids; eauto|exact HN]. Qed.
Lemma has_token e k : (exists kk cs, it e = TNode kk cs /\ has k cs) -> exists x, token k e = Some x /\ seen (OperatorType, x) = see OperatorType k [].
Proof.
  intros (kk & cs & E & w & HI). unfold token, children_with_tokens. rewrite E.
  destruct (find (fun c => negb (is_node c) && has_kind k c) (place_children (pre e) cs)) as [x|] eqn:EF.
  - exists x. split; [reflexivity|]. apply find_some in EF as [_ EF]. apply andb_true_iff in EF as [_ EF]. apply kind_eqb_eq in EF. unfold seen. cbn [fst snd]. rewrite EF. reflexivity.
  - exfalso. rewrite <- (place_it (pre e) cs) in HI. apply in_map_iff in HI as (x & EX & HI). pose proof (find_none _ _ EF x HI) as HX. cbn beta in HX. unfold is_node, has_kind, ekind_of in HX. rewrite EX in HX. cbn [tkind_of negb andb] in HX. rewrite kind_eqb_refl in HX. discriminate.
Qed.
Lemma node_it x : is_node x = true -> exists cs, it x = TNode (ekind_of x) cs.
Proof. unfold is_node, ekind_of. destruct (it x) as [k cs|k w]; [intros _; exists cs; reflexivity|discriminate]. Qed.
Lemma ok_okn x k : ok (it x) -> is_node x = true -> ekind_of x = k -> exists cs, it x = TNode k cs /\ okn k cs.
Proof. intros H HN HK. destruct (node_it x HN) as (cs & E). rewrite HK in E. rewrite E in H. inversion H; subst. eauto. Qed.

(** * Comments and keys *)
Lemma seen_comment e : is_comment_token e = true -> seen (CommentType, e) = see CommentType COMMENT (etext e).
Proof.
  destruct e as [p t]. unfold is_comment_token, is_node, has_kind, ekind_of. cbn [it]. destruct t as [k cs|k w]; cbn [negb andb tkind_of]; intros H; [discriminate|]. apply kind_eqb_eq in H. subst k. reflexivity.
Qed.
Lemma seen_comments es : Forall (fun e => is_comment_token e = true) es -> map seen (mark_all CommentType es) = vcomments (map etext es).
Proof. induction 1 as [|e es H _ IH]; [reflexivity|]. cbn [mark_all map vcomments]. f_equal; [apply seen_comment; exact H|exact IH]. Qed.
Lemma filter_all {A} (f : A -> bool) l : Forall (fun x => f x = true) (filter f l).
Proof. apply Forall_forall. intros x H. apply filter_In in H. apply H. Qed.
Lemma seen_leading e : map seen (mark_all CommentType (leading_els e)) = vcomments (leading_texts e).
Proof. apply seen_comments. apply filter_all. Qed.
Lemma seen_group e : map seen (mark_all CommentType (comment_els e)) = vcomments (group_comments e).
Proof. apply seen_comments. apply filter_all. Qed.
Lemma seen_trailing e : map seen (mark_some CommentType (trailing_el e)) = vcomment (trailing_text e).
Proof. unfold trailing_el, trailing_text. destruct (last_token (it e)) as [[k cs|k w]|]; try reflexivity. destruct k; reflexivity. Qed.
Lemma seen_opening es k : map seen (mark_some CommentType (trailing_comment_in es k)) = vcomment (option_map etext (trailing_comment_in es k)).
Proof.
  assert (H : match trailing_comment_in es k with Some e => is_comment_token e = true | None => True end).
  { unfold trailing_comment_in. destruct (tl _) as [|e rest]; [exact I|]. destruct (is_comment_token e) eqn:E; [exact E|]. destruct (negb (is_node e) && has_kind WHITESPACE e); [|exact I]. destruct rest as [|e' rest]; [exact I|]. destruct (is_comment_token e') eqn:E'; [exact E'|exact I]. }
  destruct (trailing_comment_in es k) as [e|]; [|reflexivity]. cbn [mark_some map option_map vcomment]. f_equal. apply seen_comment. exact H.
Qed.
Lemma token_in k e t : token k e = Some t -> In (TToken k (etext t)) (map it (children_with_tokens e)).
Proof.
  intros H. unfold token in H. apply find_some in H as [H1 H2]. apply andb_true_iff in H2 as [H2 H3]. apply kind_eqb_eq in H3. apply in_map_iff. exists t. split; [|exact H1].
  unfold is_node, ekind_of, etext in *. destruct (it t) as [k' x|k' w]; [discriminate|]. cbn [tkind_of ttext] in *. subst k'. reflexivity.
Qed.
Lemma seen_key_list ty es : Forall (fun e => forall t, key_token e = Some t -> solid_text (it e) = etext t) es -> forall ks, opt_all view_key es = Some ks -> map seen (mark_all ty es) = vkeys ty ks.
Proof.
  induction 1 as [|e es HX _ IH]; intros ks H; [injection H as <-; reflexivity|]. rewrite opt_all_cons in H. unfold view_key at 1 in H. destruct (key_token e) as [t|] eqn:E; cbn [option_map] in H; [|discriminate].
  destruct (opt_all view_key es) as [ks'|]; [|discriminate]. injection H as <-. cbn [mark_all map vkeys]. f_equal; [|apply IH; reflexivity]. unfold seen. cbn [fst snd]. rewrite (HX t eq_refl). reflexivity.
Qed.
Lemma seen_keys ty e ks : ok (it e) -> is_node e = true -> ekind_of e = KEYS -> view_keys e = Some ks -> map seen (mark_all ty (keys_of e)) = vkeys ty ks.
Proof.
  intros HO HN HK H. apply seen_key_list; [|exact H]. destruct (ok_okn e KEYS HO HN HK) as (cs & EC & HF). cbn [okn] in HF. rewrite Forall_forall in *. intros x HX t HT.
  unfold keys_of, children_of, children in HX. apply filter_In in HX as [HX HX3]. apply filter_In in HX as [HX HX2]. unfold children_with_tokens in HX. rewrite EC in HX.
  assert (HI : In (it x) cs) by (rewrite <- (place_it (pre e) cs); apply in_map; exact HX). destruct (node_it x HX2) as (y & EY). pose proof (token_in _ _ _ HT) as HW. unfold children_with_tokens in HW. rewrite EY in HW. rewrite place_it in HW.
  rewrite EY. cbn [solid_text]. apply (HF (it x) HI (ekind_of x) y EY HX3 _ HW).
Qed.
Lemma child_node k e x : ok (it e) -> child (is_kind k) e = Some x -> ok (it x) /\ is_node x = true /\ ekind_of x = k.
Proof. intros H HC. unfold child in HC. apply find_some in HC as [HC HK]. destruct (ok_children e H x HC). repeat split; auto. apply kind_eqb_eq. exact HK. Qed.
Lemma seen_comma c : map seen (mark_comma c) = vcomma (option_map view_comma c).
Proof. destruct c as [c|]; [|reflexivity]. cbn [mark_comma option_map vcomma view_comma]. rewrite map_app, seen_leading, seen_trailing. reflexivity. Qed.

(** * Groups *)
Definition one_group (can : kind -> bool) (items : el -> list mark) (e : el) : list mark :=
  if is_node e then if has_kind DANGLING_COMMENT_GROUP e then mark_all CommentType (comment_els e) else if can (ekind_of e) then items e else [] else [].
Lemma groups_all can items es : can LINE_BREAK = false -> can WHITESPACE = false -> mark_groups can items es = flat_map (one_group can items) es.
Proof.
  intros C1 C2. unfold mark_groups, dangling_groups_in, dangling_comment_group_or. induction es as [|e es IH]; [reflexivity|]. cbn [take_while drop_while flat_map].
  destruct (dangling_kind e) eqn:ED.
  - rewrite <- IH. cbn [filter]. unfold one_group at 1. destruct (is_node e) eqn:EN; cbn [andb].
    + destruct (has_kind DANGLING_COMMENT_GROUP e) eqn:EK; [cbn [flat_map]; rewrite <- app_assoc; reflexivity|].
      unfold dangling_kind, kind_in in ED. unfold has_kind in EK. cbn [existsb] in ED. rewrite EK in ED. cbn [orb] in ED. rewrite orb_false_r in ED. apply orb_true_iff in ED as [ED|ED]; apply kind_eqb_eq in ED; rewrite ED; [rewrite C1|rewrite C2]; reflexivity.
    + reflexivity.
  - cbn [filter flat_map app]. clear IH ED. revert e. cut (forall l, flat_map (fun g => match g with GDangling g => mark_all CommentType (comment_els g) | GItems g => items g end)
      (flat_map (fun e => if is_node e then if has_kind DANGLING_COMMENT_GROUP e then [GDangling e] else if can (ekind_of e) then [GItems e] else [] else []) l) = flat_map (one_group can items) l).
    { intros H e. apply (H (e :: es)). }
    induction l as [|x l IH]; [reflexivity|]. cbn [flat_map]. rewrite flat_map_app, IH. f_equal. unfold one_group. destruct (is_node x); [|reflexivity]. destruct (has_kind DANGLING_COMMENT_GROUP x); [cbn; apply app_nil_r|]. destruct (can (ekind_of x)); [cbn; apply app_nil_r|reflexivity].
Qed.

Lemma view_groups_cons can vi b e es gs : view_groups can vi ((b, e) :: es) = Some gs ->
  exists g gs', gs = g ++ gs' /\ view_groups can vi es = Some gs' /\
    (if is_node e then if has_kind DANGLING_COMMENT_GROUP e then g = [GD b (group_comments e)]
     else if can (ekind_of e) then exists its, vi e = Some its /\ g = [GI b its] else g = [] else g = []).
Proof.
  unfold view_groups. rewrite opt_all_cons. intros H.
  destruct (if is_node e then _ else _) as [g|] eqn:EG; [|discriminate]. destruct (opt_all _ es) as [gl|]; [|discriminate]. cbn [option_map concat] in *. injection H as <-.
  exists g, (concat gl). split; [reflexivity|]. split; [reflexivity|]. destruct (is_node e); [|congruence]. destruct (has_kind DANGLING_COMMENT_GROUP e); [congruence|]. destruct (can (ekind_of e)); [|congruence].
  destruct (vi e) as [its|]; [|discriminate]. cbn [option_map] in EG. injection EG as <-. eauto.
Qed.
Lemma seen_groups commas table can vi items : forall es gs, view_groups can vi es = Some gs ->
  (forall e its, In e (map snd es) -> is_node e = true -> can (ekind_of e) = true -> vi e = Some its -> map seen (items e) = flat_map (vitem commas table vvalue) its) ->
  map seen (flat_map (one_group can items) (map snd es)) = flat_map (vgroup commas table) gs.
Proof.
  induction es as [|[b e] es IH]; intros gs H HI; [injection H as <-; reflexivity|]. apply view_groups_cons in H as (g & gs' & -> & H & HG).
  cbn [map snd flat_map]. rewrite map_app, flat_map_app, (IH gs' H) by (intros; apply HI; auto; right; assumption). f_equal. unfold one_group.
  destruct (is_node e) eqn:EN; [|subst g; reflexivity]. destruct (has_kind DANGLING_COMMENT_GROUP e).
  - subst g. cbn [flat_map vgroup]. rewrite app_nil_r. apply seen_group.
  - destruct (can (ekind_of e)) eqn:EC; [|subst g; reflexivity]. destruct HG as (its & HV & ->). cbn [flat_map vgroup]. rewrite app_nil_r. apply HI; auto. left. reflexivity.
Qed.
Lemma map_drop f es : map snd (bdrop_while f es) = drop_while f (map snd es).
Proof. unfold bdrop_while. induction es as [|[b e] es IH]; [reflexivity|]. cbn [drop_while map snd]. destruct (f e); [exact IH|reflexivity]. Qed.
Lemma map_tl {A B} (f : A -> B) l : map f (tl l) = tl (map f l).
Proof. destruct l; reflexivity. Qed.
Lemma map_blanks es : forall n, map snd (with_blanks n es) = es.
Proof. induction es as [|e es IH]; intros n; [reflexivity|]. cbn [with_blanks map snd]. f_equal. apply IH. Qed.
Lemma map_next k es : next_if k (map snd es) = (fst (bnext_if k es), map snd (snd (bnext_if k es))).
Proof. destruct es as [|[b e] es]; [reflexivity|]. cbn [map snd next_if bnext_if]. destruct (has_kind k e); reflexivity. Qed.
Lemma map_opening k e : map snd (bafter_opening k e) = after_opening k e.
Proof.
  unfold after_opening, skip_trailing_comment, bafter_opening. rewrite <- (map_blanks (children_with_tokens e) 0) at 2. rewrite <- map_drop, <- map_tl. set (l := tl _). clearbody l.
  rewrite map_next. destruct (bnext_if WHITESPACE l) as [a l2]. cbn [fst snd]. rewrite map_next. destruct (bnext_if COMMENT l2) as [c l3]. cbn [fst snd]. destruct c; [|reflexivity]. rewrite map_next. reflexivity.
Qed.
Lemma map_header k e : map snd (bafter_header k e) = after_header k e.
Proof. unfold after_header, bafter_header. rewrite !map_drop, map_blanks. reflexivity. Qed.

(** * Items *)
Lemma with_comma_in P ns : forall pend a c, In (a, c) (with_comma P ns pend) -> (In a ns /\ P (ekind_of a) = true) \/ pend = Some a.
Proof.
  induction ns as [|n ns IH]; intros pend a c H; cbn [with_comma] in H.
  - destruct pend as [p|]; [|destruct H]. destruct H as [H|[]]. injection H as -> _. right. reflexivity.
  - destruct (P (ekind_of n)) eqn:EP.
    + assert (HR : In (a, c) (with_comma P ns (Some n)) -> (In a (n :: ns) /\ P (ekind_of a) = true)) by (intros HI; apply IH in HI as [[HI HP]|HI]; [split; [right|]; assumption|injection HI as ->; split; [left; reflexivity|exact EP]]).
      destruct pend as [p|]; [|left; auto]. destruct H as [H|H]; [injection H as -> _; right; reflexivity|left; auto].
    + destruct (has_kind COMMA n).
      * assert (HR : In (a, c) (with_comma P ns None) -> In a (n :: ns) /\ P (ekind_of a) = true) by (intros HI; apply IH in HI as [[HI HP]|HI]; [split; [right|]; assumption|discriminate]).
        destruct pend as [p|]; [destruct H as [H|H]; [injection H as -> _; right; reflexivity|]|]; left; auto.
      * apply IH in H as [[HI HP]|H]; [left; split; [right|]; assumption|right; exact H].
Qed.
Lemma items_in P g a c : In (a, c) (items_with_comma P g) -> In a (children g) /\ P (ekind_of a) = true.
Proof. intros H. apply with_comma_in in H as [H|H]; [exact H|discriminate]. Qed.
Lemma with_comma_fst P ns : P COMMA = false -> forall pend, map fst (with_comma P ns pend) = match pend with Some p => [p] | None => [] end ++ filter (fun n => P (ekind_of n)) ns.
Proof.
  intros HP. induction ns as [|n ns IH]; intros pend; cbn [with_comma filter]; [destruct pend; reflexivity|]. destruct (P (ekind_of n)) eqn:E.
  - destruct pend as [p|]; cbn [map fst app]; rewrite IH; reflexivity.
  - destruct (has_kind COMMA n); [|apply IH]. destruct pend as [p|]; cbn [map fst app]; rewrite IH; reflexivity.
Qed.
Lemma with_comma_ext P Q ns : Forall (fun n => P (ekind_of n) = Q (ekind_of n)) ns -> forall pend, with_comma P ns pend = with_comma Q ns pend.
Proof. induction 1 as [|n ns H _ IH]; intros pend; [reflexivity|]. cbn [with_comma]. rewrite H, !IH. reflexivity. Qed.
Lemma seen_items {A} (f : A -> option (item fval)) (m : A -> list mark) (s : item fval -> list sight) l : forall its, opt_all f l = Some its ->
  (forall a i, In a l -> f a = Some i -> map seen (m a) = s i) -> map seen (flat_map m l) = flat_map s its.
Proof.
  induction l as [|a l IH]; intros its H HI; [injection H as <-; reflexivity|]. rewrite opt_all_cons in H. destruct (f a) as [i|] eqn:E; [|discriminate]. destruct (opt_all f l) as [is|]; [|discriminate]. injection H as <-.
  cbn [flat_map]. rewrite map_app. f_equal; [apply HI; auto; left; reflexivity|apply IH; auto; intros; apply HI; auto; right; assumption].
Qed.
Section Values.
Context (vv : el -> option fval) (mv : el -> list mark) (HV : forall e v, ok (it e) -> vv e = Some v -> map seen (mv e) = vvalue v).
Lemma child_ok P e x : ok (it e) -> child P e = Some x -> ok (it x).
Proof. intros H HC. unfold child in HC. apply find_some in HC as [HC _]. eapply ok_children; eauto. Qed.
Lemma seen_key_value (commas : bool) e c i : ok (it e) -> is_node e = true -> ekind_of e = KEY_VALUE -> view_key_value vv e c = Some i ->
  map seen (mark_key_value mv e ++ if commas then mark_comma c else []) = vitem commas true vvalue i.
Proof.
  intros HO HN HK H. unfold view_key_value in H. destruct (keys_child e) as [ks|] eqn:EK; [|discriminate]. destruct (value_child e) as [x|] eqn:EV; [|discriminate].
  destruct (view_keys ks) as [ks'|] eqn:EKS; [|discriminate]. destruct (vv x) as [v'|] eqn:EX; [|discriminate]. injection H as <-.
  destruct (ok_okn e KEY_VALUE HO HN HK) as (cs & EC & HE). destruct (has_token e EQUAL) as (y & EY & SY); [eauto|].
  unfold mark_key_value, vitem. destruct (child_node _ _ _ HO EK) as (K1 & K2 & K3). rewrite EK, EV, EY. cbn [mark_some]. rewrite !map_app, seen_leading, (seen_keys _ _ _ K1 K2 K3 EKS), (HV x v' (child_ok _ _ _ HO EV) EX). cbn [map]. rewrite SY, <- !app_assoc. do 4 f_equal. destruct commas; [apply seen_comma|reflexivity].
Qed.
Lemma seen_inline g its : ok (it g) -> view_key_values vv g = Some its -> map seen (mark_inline_key_values mv g) = flat_map (vitem true true vvalue) its.
Proof.
  intros HO H. unfold view_key_values in H. apply (seen_items _ _ _ _ _ H). intros [a c] i HI HA. apply items_in in HI as [HI HP]. destruct (ok_children g HO a HI) as [O1 O2]. cbn [fst snd] in *.
  apply (seen_key_value true a c i O1 O2); [apply kind_eqb_eq; exact HP|exact HA].
Qed.
Lemma seen_lines g its : ok (it g) -> view_key_values vv g = Some its -> map seen (mark_lines mv g) = flat_map (vitem false true vvalue) its.
Proof.
  intros HO H. unfold mark_lines. replace (children_of (is_kind KEY_VALUE) g) with (map fst (items_with_comma (is_kind KEY_VALUE) g)) by (unfold items_with_comma; rewrite with_comma_fst by reflexivity; reflexivity).
  rewrite flat_map_concat_map, map_map, <- flat_map_concat_map. unfold view_key_values in H. apply (seen_items _ _ _ _ _ H). intros [a c] i HI HA. apply items_in in HI as [HI HP]. destruct (ok_children g HO a HI) as [O1 O2]. cbn [fst snd] in *.
  pose proof (seen_key_value false a c i O1 O2 (proj1 (kind_eqb_eq _ _) HP) HA) as HS. rewrite app_nil_r in HS. exact HS.
Qed.
Lemma seen_values g its : ok (it g) -> is_node g = true -> ekind_of g = VALUE_WITH_COMMA_GROUP -> view_values vv g = Some its -> map seen (mark_values mv g) = flat_map (vitem true false vvalue) its.
Proof.
  intros HO HN HK H. destruct (ok_okn g _ HO HN HK) as (cs & EC & HF). cbn [okn] in HF.
  assert (HQ : forall x, In x (children g) -> is_kind KEY_VALUE (ekind_of x) = false).
  { intros x HX. apply filter_In in HX as [HX _]. unfold children_with_tokens in HX. rewrite EC in HX. rewrite Forall_forall in HF. assert (HI : In (it x) cs) by (rewrite <- (place_it (pre g) cs); apply in_map; exact HX). apply HF in HI. apply kind_eqb_neq. exact HI. }
  unfold mark_values. replace (items_with_comma is_value_or_key_value g) with (items_with_comma is_value g).
  2:{ unfold items_with_comma. apply with_comma_ext. apply Forall_forall. intros x HX. unfold is_value_or_key_value. rewrite (HQ x HX), orb_false_r. reflexivity. }
  unfold view_values in H. apply (seen_items _ _ _ _ _ H). intros [a c] i HI HA. apply items_in in HI as [HI HP]. destruct (ok_children g HO a HI) as [O1 O2]. cbn [fst snd] in *.
  pose proof (HQ a HI) as HKV. unfold is_kind in HKV. unfold has_kind. rewrite HKV. unfold view_value_item in HA. destruct (vv a) as [v|] eqn:EV; [|discriminate]. cbn [option_map] in HA. injection HA as <-. cbn [vitem vcomments map app].
  rewrite map_app, (HV a v O1 EV), seen_comma. reflexivity.
Qed.
End Values.

Lemma drop_sub {A} (f : A -> bool) l x : In x (drop_while f l) -> In x l.
Proof. induction l as [|y l IH]; cbn [drop_while]; [auto|]. destruct (f y); [right; auto|auto]. Qed.
Lemma next_sub k es x : In x (snd (next_if k es)) -> In x es.
Proof. destruct es as [|e es]; cbn [next_if]; [auto|]. destruct (has_kind k e); [right; auto|auto]. Qed.
Lemma opening_sub k e x : In x (after_opening k e) -> In x (children_with_tokens e).
Proof.
  unfold after_opening, skip_trailing_comment. intros H. assert (HT : forall l : list el, In x (tl l) -> In x l) by (intros [|? ?] ?; [assumption|right; assumption]).
  apply (drop_sub (fun c => negb (has_kind k c))), HT. set (l := tl _) in *. clearbody l. destruct (next_if WHITESPACE l) as [a l2] eqn:E1. destruct (next_if COMMENT l2) as [c l3] eqn:E2.
  apply (next_sub WHITESPACE). rewrite E1. apply (next_sub COMMENT). cbn [snd]. rewrite E2. destruct c; [|exact H]. apply next_sub in H. exact H.
Qed.
Lemma header_sub k e x : In x (after_header k e) -> In x (children_with_tokens e).
Proof. intros H. apply drop_sub, drop_sub in H. exact H. Qed.

Lemma seen_value fuel : forall e v, ok (it e) -> view_value fuel e = Some v -> map seen (mark_value fuel e) = vvalue v.
Proof.
  induction fuel as [|f IH]; intros e v HO H; [discriminate|]. cbn [mark_value]. cbn [view_value] in H. rewrite !map_app, seen_leading, seen_trailing.
  assert (HL : view_literal e = Some v -> vcomments (leading_texts e) ++ map seen (match literal_type (ekind_of e) with Some ty => match token (ekind_of e) e with Some t => [(ty, t)] | None => [(UnwrapPanic, e)] end | None => [] end) ++ vcomment (trailing_text e) = vvalue v).
  { unfold view_literal. destruct (token (ekind_of e) e) as [t|] eqn:ET; cbn [option_map]; [|discriminate]. intros HX. injection HX as <-. cbn [vvalue]. do 2 f_equal. unfold vliteral. destruct (literal_type (ekind_of e)) as [ty|] eqn:ELT; [|reflexivity]. cbn [map]. f_equal.
    unfold token in ET. apply find_some in ET as [_ ET]. apply andb_true_iff in ET as [E1 E2]. apply kind_eqb_eq in E2. unfold seen. cbn [fst snd]. rewrite E2. f_equal. unfold is_node in E1. unfold etext, ekind_of in *. destruct (it t) as [kk xx|kk xx]; [discriminate|]. cbn [tkind_of solid_text ttext] in *. subst kk. destruct (tkind_of (it e)); try reflexivity; discriminate ELT. }
  destruct (ekind_of e) eqn:EK; try (apply HL; exact H); clear HL.
  - destruct (view_groups _ _ _) as [gs|] eqn:EG; [|discriminate]. cbn [option_map] in H. injection H as <-. rewrite vvalue_box, map_app, seen_opening. do 3 f_equal.
    rewrite groups_all by reflexivity. rewrite <- map_opening. apply (seen_groups _ _ _ _ _ _ _ EG). intros x its HX HN HC HI. rewrite map_opening in HX. apply opening_sub in HX. eapply seen_values; eauto using ok_kids. apply kind_eqb_eq. exact HC.
  - destruct (view_groups _ _ _) as [gs|] eqn:EG; [|discriminate]. cbn [option_map] in H. injection H as <-. rewrite vvalue_box, map_app, seen_opening. do 3 f_equal.
    rewrite groups_all by reflexivity. rewrite <- map_opening. apply (seen_groups _ _ _ _ _ _ _ EG). intros x its HX HN HC HI. rewrite map_opening in HX. apply opening_sub in HX. eapply seen_inline; eauto using ok_kids.
Qed.
