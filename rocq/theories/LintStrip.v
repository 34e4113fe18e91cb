(** The rules of LintRulesModel.v do not depend on blanks: the kinds of the reports are those of the same rules on the tree without blanks. *)
From Coq Require Import String Ascii List NArith Bool Arith Lia.
From Verif Require Import Base SyntaxKind TextModel LexerModel ParserModel TomlTextModel AstModel FormatterModel ParserTree LintRulesModel.
Import ListNotations.
Open Scope N_scope.
Open Scope list_scope.

Definition tnode (t : tree) : bool := match t with TNode _ _ => true | TToken _ _ => false end.
Definition kids (t : tree) : list tree := match t with TNode _ cs => cs | TToken _ _ => [] end.
Definition nodes (P : kind -> bool) (ts : list tree) : list tree := filter (fun t => tnode t && P (tkind_of t)) ts.
Definition upto (k : kind) (t : tree) : bool := negb (kind_eqb (tkind_of t) k).
Definition tafter (k : kind) (ts : list tree) : list tree := tl (drop_while (upto k) ts).
Fixpoint twith (P : kind -> bool) (ns : list tree) (pending : option tree) : list (tree * option tree) :=
  match ns with
  | [] => match pending with Some p => [(p, None)] | None => [] end
  | n :: ns =>
      if P (tkind_of n) then
        match pending with Some p => (p, None) :: twith P ns (Some n) | None => twith P ns (Some n) end
      else if kind_eqb (tkind_of n) COMMA then
        match pending with Some p => (p, Some n) :: twith P ns None | None => twith P ns None end
      else twith P ns pending
  end.
Definition titems (P : kind -> bool) (g : tree) : list (tree * option tree) := twith P (filter tnode (kids g)) None.
Fixpoint tmissing (k : rule_kind) (l : list (tree * option tree)) : list rule_kind :=
  match l with
  | [] => []
  | (_, c) :: rest => match rest, c with _ :: _, None => [k] | _, _ => [] end ++ tmissing k rest
  end.
Definition tbox (table : bool) (t : tree) : list tree :=
  nodes (is_kind (if table then KEY_VALUE_WITH_COMMA_GROUP else VALUE_WITH_COMMA_GROUP)) (tafter (if table then BRACE_START else BRACKET_START) (kids t)).
Definition tcastable (table : bool) : kind -> bool := if table then is_kind KEY_VALUE else is_value.
Definition tlist (table : bool) (t : tree) : list (tree * option tree) := flat_map (titems (tcastable table)) (tbox table t).
Definition theader (t : tree) : list tree :=
  if kind_eqb (tkind_of t) ROOT then kids t
  else drop_while (fun c => upto LINE_BREAK c && upto DANGLING_COMMENT_GROUP c)
    (drop_while (upto (if kind_eqb (tkind_of t) ARRAY_OF_TABLE then DOUBLE_BRACKET_END else BRACKET_END)) (kids t)).
Definition tlines (t : tree) : list tree := nodes (is_kind KEY_VALUE_GROUP) (theader t).
Definition ttrailing (t : tree) : list rule_kind :=
  flat_map (fun g => flat_map (fun p : tree * option tree => match snd p with
    | None => []
    | Some c => if existsb (fun x => negb (tnode x) && kind_eqb (tkind_of x) COMMA) (kids c) then [ForbiddenKeyValueTrailingComma] else []
    end) (titems (is_kind KEY_VALUE) g)) (tlines t).
Definition tnewline (t : tree) : bool := existsb has_line_break_in_groups (take_while (upto BRACE_END) (tafter BRACE_START (kids t))).
Definition tversion (v : toml_version) (t : tree) : list rule_kind :=
  if negb (is_v1_0_0 v) then []
  else (if tnewline t then [InlineTableMustSingleLine] else []) ++ match rev (tlist true t) with (_, Some _) :: _ => [ForbiddenInlineTableLastComma] | _ => [] end.
Definition tkey_value (lint : tree -> list rule_kind) (t : tree) : list rule_kind := match find (fun c => is_value (tkind_of c)) (filter tnode (kids t)) with Some x => lint x | None => [] end.
Fixpoint tlint (fuel : nat) (v : toml_version) (t : tree) : list rule_kind :=
  match fuel with
  | O => [OutOfFuel]
  | S fuel =>
      match tkind_of t with
      | ARRAY => tmissing MissingArrayComma (tlist false t) ++ flat_map (fun g => flat_map (tlint fuel v) (nodes is_value (kids g))) (tbox false t)
      | INLINE_TABLE => tmissing MissingInlineTableComma (tlist true t) ++ tversion v t ++ flat_map (fun g => flat_map (tkey_value (tlint fuel v)) (nodes (is_kind KEY_VALUE) (kids g))) (tbox true t)
      | _ => []
      end
  end.
Definition ttable (fuel : nat) (v : toml_version) (t : tree) : list rule_kind :=
  ttrailing t ++ flat_map (fun g => flat_map (tkey_value (tlint fuel v)) (nodes (is_kind KEY_VALUE) (kids g))) (tlines t).
Definition troot (fuel : nat) (v : toml_version) (t : tree) : list rule_kind :=
  ttrailing t ++ flat_map (fun g => flat_map (tkey_value (tlint fuel v)) (nodes (is_kind KEY_VALUE) (kids g))) (tlines t) ++ flat_map (ttable fuel v) (nodes is_table_or_array_of_table (kids t)).

(** * The same element, without blanks *)
Definition R (e : el) (t : tree) : Prop := strip (it e) = [t].
Definition RL (es : list el) (ts : list tree) : Prop := strips (map it es) = ts.
Lemma R_kind e t : R e t -> is_node e = tnode t /\ ekind_of e = tkind_of t.
Proof.
  unfold R, is_node, ekind_of. destruct (it e) as [k cs|k w]; cbn [strip]; [intros [= <-]; auto|]. destruct (is_trivia k); intros [= <-]. auto.
Qed.
Lemma place_it cs : forall p, map it (place_children p cs) = cs.
Proof. induction cs as [|c cs IH]; intros p; [reflexivity|]. cbn [place_children map it]. rewrite IH. reflexivity. Qed.
Lemma R_kids e t : R e t -> RL (children_with_tokens e) (kids t).
Proof.
  unfold R, RL, children_with_tokens. destruct e as [p [k cs|k w]]; cbn [it pre strip].
  - intros [= <-]. rewrite place_it. reflexivity.
  - destruct (is_trivia k); intros [= <-]. reflexivity.
Qed.
Lemma RL_cons e es ts : RL (e :: es) ts -> (exists w, it e = TToken WHITESPACE w /\ RL es ts) \/ exists t ts', ts = t :: ts' /\ R e t /\ RL es ts'.
Proof.
  unfold RL, R, strips. cbn [map flat_map]. destruct (it e) as [k cs|k w]; cbn [strip].
  - cbn [app]. intros <-. right. eauto.
  - destruct (is_trivia k) eqn:E; cbn [app]; intros <-; [left; exists w|right; eauto]. unfold is_trivia in E. apply kind_eqb_eq in E. subst k. auto.
Qed.
Lemma blank_kind e w : it e = TToken WHITESPACE w -> is_node e = false /\ ekind_of e = WHITESPACE.
Proof. intros E. unfold is_node, ekind_of. rewrite E. auto. Qed.
Lemma RL_nodes P es : forall ts, RL es ts -> Forall2 R (filter (fun e => is_node e && P (ekind_of e)) es) (nodes P ts).
Proof.
  induction es as [|e es IH]; intros ts H; [unfold RL in H; cbn in H; subst ts; constructor|].
  apply RL_cons in H as [(w & E & H)|(t & ts' & -> & HR & H)]; cbn [filter].
  - destruct (blank_kind _ _ E) as [-> _]. auto.
  - unfold nodes. cbn [filter]. destruct (R_kind _ _ HR) as [-> ->]. destruct (tnode t && P (tkind_of t)); [constructor; auto|]; apply IH; auto.
Qed.
Lemma filter_filter {A} (f g : A -> bool) l : filter f (filter g l) = filter (fun x => g x && f x) l.
Proof. induction l as [|x l IH]; [reflexivity|]. cbn [filter]. destruct (g x); cbn [filter andb]; rewrite ?IH; reflexivity. Qed.
Lemma children_R P e t : R e t -> Forall2 R (children_of P e) (nodes P (kids t)).
Proof. intros H. unfold children_of, children. rewrite filter_filter. apply RL_nodes. apply R_kids. exact H. Qed.
Lemma nodes_all ts : nodes (fun _ => true) ts = filter tnode ts.
Proof. unfold nodes. induction ts as [|t ts IH]; [reflexivity|]. cbn [filter]. rewrite andb_true_r, IH. reflexivity. Qed.
Lemma children_all e t : R e t -> Forall2 R (children e) (filter tnode (kids t)).
Proof.
  intros H. apply R_kids in H. apply (RL_nodes (fun _ => true)) in H. rewrite nodes_all in H. unfold children.
  replace (filter is_node (children_with_tokens e)) with (filter (fun e => is_node e && true) (children_with_tokens e)); [exact H|]. clear. induction (children_with_tokens e) as [|x l IH]; [reflexivity|]. cbn [filter]. rewrite andb_true_r, IH. reflexivity.
Qed.
Lemma RL_drop (f : el -> bool) (g : tree -> bool) es : (forall e t, R e t -> f e = g t) -> (forall e w, it e = TToken WHITESPACE w -> f e = true) ->
  forall ts, RL es ts -> RL (drop_while f es) (drop_while g ts).
Proof.
  intros HF HW. induction es as [|e es IH]; intros ts H; [unfold RL in H; cbn in H; subst ts; reflexivity|].
  pose proof H as H0. apply RL_cons in H as [(w & E & H)|(t & ts' & -> & HR & H)]; cbn [drop_while].
  - rewrite (HW _ _ E). auto.
  - rewrite (HF _ _ HR). destruct (g t); auto.
Qed.
Lemma RL_after k es ts : k <> WHITESPACE -> RL es ts -> RL (tl (drop_while (fun c => negb (has_kind k c)) es)) (tafter k ts).
Proof.
  intros HK. unfold tafter. revert ts. induction es as [|e es IH]; intros ts H; [unfold RL in H; cbn in H; subst ts; reflexivity|].
  apply RL_cons in H as [(w & E & H)|(t & ts' & -> & HR & H)]; cbn [drop_while]; unfold has_kind at 1.
  - destruct (blank_kind _ _ E) as [_ ->]. assert (E2 : kind_eqb WHITESPACE k = false) by (apply kind_eqb_neq; congruence). rewrite E2. cbn [negb]. auto.
  - destruct (R_kind _ _ HR) as [_ ->]. unfold upto at 1. destruct (kind_eqb (tkind_of t) k); cbn [negb tl]; auto.
Qed.
Lemma RL_take k es : k <> WHITESPACE -> forall ts, RL es ts -> RL (take_while (fun c => negb (has_kind k c)) es) (take_while (upto k) ts).
Proof.
  intros HK. induction es as [|e es IH]; intros ts H; [unfold RL in H; cbn in H; subst ts; reflexivity|].
  apply RL_cons in H as [(w & E & H)|(t & ts' & -> & HR & H)]; cbn [take_while]; unfold has_kind at 1.
  - destruct (blank_kind _ _ E) as [_ ->]. assert (E2 : kind_eqb WHITESPACE k = false) by (apply kind_eqb_neq; congruence). rewrite E2. cbn [negb].
    unfold RL, strips in *. cbn [map flat_map]. rewrite E. cbn [strip]. apply IH. exact H.
  - destruct (R_kind _ _ HR) as [_ ->]. unfold upto at 1. destruct (kind_eqb (tkind_of t) k); cbn [negb]; [reflexivity|]. unfold RL, strips in *. cbn [map flat_map]. unfold R in HR. rewrite HR. cbn [app]. f_equal. apply IH. exact H.
Qed.

(** * Line breaks *)
Lemma direct_strip t : existsb has_direct_line_break (strip t) = has_direct_line_break t.
Proof. destruct t as [k cs|k w]; [reflexivity|]. cbn [strip]. destruct (is_trivia k) eqn:E; cbn; rewrite ?orb_false_r; auto. unfold is_trivia in E. apply kind_eqb_eq in E. subst k. reflexivity. Qed.
Lemma existsb_flat {A B} (f : B -> bool) (g : A -> list B) l : existsb f (flat_map g l) = existsb (fun x => existsb f (g x)) l.
Proof. induction l as [|x l IH]; [reflexivity|]. cbn [flat_map existsb]. rewrite existsb_app, IH. reflexivity. Qed.
Lemma existsb_ext' {A} (f g : A -> bool) l : (forall x, In x l -> f x = g x) -> existsb f l = existsb g l.
Proof. induction l as [|x l IH]; intros H; [reflexivity|]. cbn [existsb]. rewrite H by (left; reflexivity). rewrite IH; [reflexivity|]. intros y HY. apply H. right. exact HY. Qed.
Fixpoint groups_strip t : existsb has_line_break_in_groups (strip t) = has_line_break_in_groups t.
Proof.
  destruct t as [k cs|k w].
  - cbn [strip existsb has_line_break_in_groups]. rewrite orb_false_r.
    assert (H1 : existsb has_line_break_in_groups (flat_map strip cs) = existsb has_line_break_in_groups cs).
    { clear k. induction cs as [|c cs IH]; [reflexivity|]. cbn [flat_map existsb]. rewrite existsb_app, groups_strip, IH. reflexivity. }
    assert (H2 : existsb has_direct_line_break (flat_map strip cs) = existsb has_direct_line_break cs).
    { clear. induction cs as [|c cs IH]; [reflexivity|]. cbn [flat_map existsb]. rewrite existsb_app, direct_strip, IH. reflexivity. }
    rewrite H1, H2. reflexivity.
  - cbn [strip]. destruct (is_trivia k) eqn:E; cbn; rewrite ?orb_false_r; auto. unfold is_trivia in E. apply kind_eqb_eq in E. subst k. reflexivity.
Qed.
Lemma newline_R e t : R e t -> has_newlines_between_braces e = tnewline t.
Proof.
  intros H. unfold has_newlines_between_braces, tnewline. apply R_kids in H. apply (RL_after BRACE_START) in H; [|discriminate]. apply (RL_take BRACE_END) in H; [|discriminate].
  unfold RL, strips in H. rewrite <- H, existsb_flat. apply existsb_ext'. intros x _. symmetry. apply groups_strip.
Qed.

(** * Groups *)
Lemma filter_drop {A} (f P : A -> bool) l : (forall x, f x = true -> P x = false) -> filter P (drop_while f l) = filter P l.
Proof. intros H. induction l as [|x l IH]; [reflexivity|]. cbn [drop_while filter]. destruct (f x) eqn:E; [rewrite (H _ E); exact IH|reflexivity]. Qed.
Lemma groups_filter gk es : gk <> DANGLING_COMMENT_GROUP -> gk <> LINE_BREAK -> gk <> WHITESPACE ->
  item_groups (dangling_comment_group_or (is_kind gk) es) = filter (fun e => is_node e && is_kind gk (ekind_of e)) es.
Proof.
  intros H1 H2 H3. unfold dangling_comment_group_or. rewrite <- (filter_drop dangling_kind (fun e => is_node e && is_kind gk (ekind_of e))).
  - induction (drop_while dangling_kind es) as [|e l IH]; [reflexivity|]. cbn [flat_map filter]. unfold item_groups in *. rewrite flat_map_app, IH. destruct (is_node e); cbn [andb]; [|reflexivity].
    unfold has_kind, is_kind in *. destruct (kind_eqb (ekind_of e) DANGLING_COMMENT_GROUP) eqn:E.
    + apply kind_eqb_eq in E. rewrite E. assert (E2 : kind_eqb DANGLING_COMMENT_GROUP gk = false) by (apply kind_eqb_neq; congruence). rewrite E2. reflexivity.
    + destruct (kind_eqb (ekind_of e) gk); reflexivity.
  - intros x HX. unfold dangling_kind, kind_in in HX. cbn [existsb] in HX. unfold is_kind. destruct (is_node x); [|reflexivity]. cbn [andb].
    apply kind_eqb_neq. intros E. rewrite E in HX. rewrite (proj2 (kind_eqb_neq _ _) H1), (proj2 (kind_eqb_neq _ _) H2), (proj2 (kind_eqb_neq _ _) H3) in HX. discriminate.
Qed.
Lemma filter_next P k es : (forall e, has_kind k e = true -> P e = false) -> filter P (snd (next_if k es)) = filter P es.
Proof. intros H. destruct es as [|e es]; [reflexivity|]. cbn [next_if]. destruct (has_kind k e) eqn:E; [|reflexivity]. cbn [snd filter]. rewrite (H _ E). reflexivity. Qed.
Lemma filter_skip gk es : gk <> WHITESPACE -> gk <> COMMENT -> gk <> LINE_BREAK ->
  filter (fun e => is_node e && is_kind gk (ekind_of e)) (skip_trailing_comment es) = filter (fun e => is_node e && is_kind gk (ekind_of e)) es.
Proof.
  intros H1 H2 H3. assert (HK : forall k e, gk <> k -> has_kind k e = true -> is_node e && is_kind gk (ekind_of e) = false).
  { intros k e HN HE. unfold has_kind in HE. apply kind_eqb_eq in HE. rewrite HE. unfold is_kind. rewrite (proj2 (kind_eqb_neq _ _)) by congruence. apply andb_false_r. }
  unfold skip_trailing_comment. rewrite <- (filter_next _ WHITESPACE es (fun e => HK WHITESPACE e H1)). destruct (next_if WHITESPACE es) as [b es1]. cbn [snd].
  rewrite <- (filter_next _ COMMENT es1 (fun e => HK COMMENT e H2)). destruct (next_if COMMENT es1) as [b2 es2]. cbn [snd]. destruct b2; [|reflexivity]. apply filter_next. intros e. apply HK. exact H3.
Qed.
Lemma box_R (table : bool) e t : R e t -> Forall2 R (item_groups (if table then key_value_with_comma_groups e else value_with_comma_groups e)) (tbox table t).
Proof.
  intros H. apply R_kids in H. unfold tbox, key_value_with_comma_groups, value_with_comma_groups. destruct table; rewrite groups_filter by discriminate; unfold after_opening; rewrite filter_skip by discriminate; apply RL_nodes; apply RL_after; auto; discriminate.
Qed.
Lemma lines_R e t : R e t -> Forall2 R (item_groups (key_value_groups e)) (tlines t).
Proof.
  intros H. unfold key_value_groups, tlines, theader. rewrite groups_filter by discriminate. apply RL_nodes. destruct (R_kind _ _ H) as [_ HK]. unfold has_kind at 1. rewrite HK. destruct (kind_eqb (tkind_of t) ROOT); [apply R_kids; exact H|].
  unfold after_header, table_close, has_kind. rewrite HK. apply RL_drop; [| |apply RL_drop; [| |apply R_kids; exact H]].
  - intros e0 t0 H0. destruct (R_kind _ _ H0) as [_ H1]. unfold kind_in, upto. cbn [existsb]. rewrite H1, orb_false_r, negb_orb. reflexivity.
  - intros e0 w H0. destruct (blank_kind _ _ H0) as [_ H1]. unfold kind_in. cbn [existsb]. rewrite H1. reflexivity.
  - intros e0 t0 H0. destruct (R_kind _ _ H0) as [_ H1]. unfold upto. rewrite H1. reflexivity.
  - intros e0 w H0. destruct (blank_kind _ _ H0) as [_ H1]. rewrite H1. destruct (kind_eqb (tkind_of t) ARRAY_OF_TABLE); reflexivity.
Qed.
(** * Items *)
Definition RO (a : option el) (b : option tree) : Prop := match a, b with Some e, Some t => R e t | None, None => True | _, _ => False end.
Definition RP (a : el * option el) (b : tree * option tree) : Prop := R (fst a) (fst b) /\ RO (snd a) (snd b).
Lemma with_R P ns : forall ts p q, Forall2 R ns ts -> RO p q -> Forall2 RP (with_comma P ns p) (twith P ts q).
Proof.
  induction ns as [|n ns IH]; intros ts p q H HP; inversion H as [|? t ? ts' HR HF]; subst; cbn [with_comma twith].
  - destruct p, q; try contradiction; repeat constructor; auto.
  - destruct (R_kind _ _ HR) as [_ HK]. unfold has_kind. rewrite HK. destruct (P (tkind_of t)); [|destruct (kind_eqb (tkind_of t) COMMA); [|apply IH; auto]].
    + destruct p as [p|], q as [q|]; try contradiction; [constructor; [split; auto; exact I|]|]; apply IH; auto.
    + destruct p as [p|], q as [q|]; try contradiction; [constructor; [split; auto|]|]; apply IH; auto; exact I.
Qed.
Lemma items_R P e t : R e t -> Forall2 RP (items_with_comma P e) (titems P t).
Proof. intros H. apply with_R; [apply children_all; exact H|exact I]. Qed.
Lemma flat_R {A B C D} (Q : A -> B -> Prop) (S : C -> D -> Prop) f g l m : (forall a b, Q a b -> Forall2 S (f a) (g b)) -> Forall2 Q l m -> Forall2 S (flat_map f l) (flat_map g m).
Proof. intros H. induction 1; cbn [flat_map]; [constructor|]. apply Forall2_app; auto. Qed.
Lemma kinds_R {A B} (Q : A -> B -> Prop) (f : A -> list report) (g : B -> list rule_kind) l m : (forall a b, Q a b -> map fst (f a) = g b) -> Forall2 Q l m -> map fst (flat_map f l) = flat_map g m.
Proof. intros H. induction 1 as [|a b l m HQ HF IH]; cbn [flat_map]; [reflexivity|]. rewrite map_app, IH, (H _ _ HQ). reflexivity. Qed.
Lemma missing_R k l m : Forall2 RP l m -> map fst (missing_comma k l) = tmissing k m.
Proof.
  induction 1 as [|[a b] [c d] l m [H1 H2] HF IH]; [reflexivity|]. cbn [missing_comma tmissing fst snd] in *. rewrite map_app, IH. f_equal.
  destruct HF; [reflexivity|]. destruct b, d; try contradiction; reflexivity.
Qed.
Lemma Forall2_rev {A B} (Q : A -> B -> Prop) l m : Forall2 Q l m -> Forall2 Q (rev l) (rev m).
Proof. induction 1; cbn [rev]; [constructor|]. apply Forall2_app; auto. Qed.
Lemma last_comma_eq gs : match find_map (fun g => match g with GDangling _ => None | GItems group => last_comma (items_with_comma (is_kind KEY_VALUE) group) end) (rev gs) with Some b => b | None => false end =
  match rev (flat_map (items_with_comma (is_kind KEY_VALUE)) (item_groups gs)) with (_, Some _) :: _ => true | _ => false end.
Proof.
  induction gs as [|g gs IH] using rev_ind; [reflexivity|]. rewrite rev_app_distr. cbn [rev app find_map]. unfold item_groups in *. rewrite flat_map_app. cbn [flat_map]. rewrite app_nil_r, flat_map_app, rev_app_distr.
  destruct g as [e|e]; [exact IH|]. cbn [flat_map]. rewrite app_nil_r. unfold last_comma at 1. destruct (rev (items_with_comma (is_kind KEY_VALUE) e)) as [|[x [c|]] r]; [exact IH|reflexivity|reflexivity].
Qed.
Lemma version_R v e t : R e t -> map fst (inline_table_version v e) = tversion v t.
Proof.
  intros H. unfold inline_table_version, tversion. destruct (negb (is_v1_0_0 v)); [reflexivity|]. rewrite map_app, (newline_R _ _ H). f_equal; [destruct (tnewline t); reflexivity|].
  unfold has_last_key_value_trailing_comma. rewrite last_comma_eq. fold (key_values_with_comma e).
  assert (HL : Forall2 RP (key_values_with_comma e) (tlist true t)) by (apply (flat_R R RP); [intros; apply items_R; auto|exact (box_R true e t H)]).
  apply Forall2_rev in HL. destruct HL as [|[a b] [c d] l m [H1 H2] HF]; [reflexivity|]. cbn [snd] in H2. destruct b, d; try contradiction; reflexivity.
Qed.
Lemma trailing_R e t : R e t -> map fst (trailing_comma e) = ttrailing t.
Proof.
  intros H. unfold trailing_comma, ttrailing. apply (kinds_R R); [|apply lines_R; exact H]. intros g h HG. apply (kinds_R RP); [|apply items_R; exact HG].
  intros [a b] [c d] [_ H2]. cbn [snd] in *. destruct b as [b|], d as [d|]; try contradiction; [|reflexivity]. unfold comma_token, token.
  apply R_kids in H2. revert H2. generalize (children_with_tokens b), (kids d). clear. intros es. induction es as [|e es IH]; intros ts H; [unfold RL in H; cbn in H; subst ts; reflexivity|].
  apply RL_cons in H as [(w & E & H)|(t & ts' & -> & HR & H)]; cbn [find existsb]; unfold has_kind at 1.
  - destruct (blank_kind _ _ E) as [-> ->]. cbn. apply IH. exact H.
  - destruct (R_kind _ _ HR) as [-> ->]. destruct (negb (tnode t) && kind_eqb (tkind_of t) COMMA); [reflexivity|]. cbn [orb]. apply IH. exact H.
Qed.
Lemma find_R (P : kind -> bool) l m : Forall2 R l m -> RO (find (fun e => P (ekind_of e)) l) (find (fun t => P (tkind_of t)) m).
Proof. induction 1 as [|e t l m HR HF IH]; [exact I|]. cbn [find]. destruct (R_kind _ _ HR) as [_ ->]. destruct (P (tkind_of t)); [exact HR|exact IH]. Qed.
Lemma key_value_R f g e t : (forall a b, R a b -> map fst (f a) = g b) -> R e t -> map fst (lint_key_value f e) = tkey_value g t.
Proof.
  intros HF H. unfold lint_key_value, tkey_value, value_child, child. pose proof (find_R is_value _ _ (children_all _ _ H)) as HR.
  destruct (find _ (children e)), (find _ (filter tnode (kids t))); try contradiction; [apply HF; exact HR|reflexivity].
Qed.
Lemma value_R fuel v : forall e t, R e t -> map fst (lint_value fuel v e) = tlint fuel v t.
Proof.
  induction fuel as [|fuel IH]; intros e t H; [reflexivity|]. cbn [lint_value tlint]. destruct (R_kind _ _ H) as [_ HK]. rewrite HK.
  assert (HT : map fst (missing_comma MissingInlineTableComma (key_values_with_comma e) ++ inline_table_version v e ++ flat_map (lint_key_value (lint_value fuel v)) (inline_key_values e)) =
    tmissing MissingInlineTableComma (tlist true t) ++ tversion v t ++ flat_map (fun g => flat_map (tkey_value (tlint fuel v)) (nodes (is_kind KEY_VALUE) (kids g))) (tbox true t)).
  { rewrite !map_app, (version_R _ _ _ H). f_equal; [|f_equal].
    - apply missing_R. apply (flat_R R RP); [intros; apply items_R; auto|exact (box_R true e t H)].
    - unfold inline_key_values.
      assert (HF : forall l m, Forall2 R l m -> map fst (flat_map (lint_key_value (lint_value fuel v)) (flat_map (children_of (is_kind KEY_VALUE)) l)) = flat_map (fun g => flat_map (tkey_value (tlint fuel v)) (nodes (is_kind KEY_VALUE) (kids g))) m).
      { induction 1 as [|a b l m HR HF IHF]; [reflexivity|]. cbn [flat_map]. rewrite flat_map_app, map_app, IHF. f_equal. apply (kinds_R R); [|apply children_R; exact HR]. intros. apply key_value_R; auto. }
      apply HF. exact (box_R true e t H). }
  assert (HA : map fst (missing_comma MissingArrayComma (values_with_comma e) ++ flat_map (lint_value fuel v) (array_values e)) =
    tmissing MissingArrayComma (tlist false t) ++ flat_map (fun g => flat_map (tlint fuel v) (nodes is_value (kids g))) (tbox false t)).
  { rewrite map_app. f_equal.
    - apply missing_R. apply (flat_R R RP); [intros; apply items_R; auto|exact (box_R false e t H)].
    - unfold array_values.
      assert (HF : forall l m, Forall2 R l m -> map fst (flat_map (lint_value fuel v) (flat_map (children_of is_value) l)) = flat_map (fun g => flat_map (tlint fuel v) (nodes is_value (kids g))) m).
      { induction 1 as [|a b l m HR HF IHF]; [reflexivity|]. cbn [flat_map]. rewrite flat_map_app, map_app, IHF. f_equal. apply (kinds_R R); [|apply children_R; exact HR]. intros. apply IH; auto. }
      apply HF. exact (box_R false e t H). }
  destruct (tkind_of t); try reflexivity; assumption.
Qed.
Lemma lines_kinds fuel v e t : R e t -> map fst (flat_map (lint_key_value (lint_value fuel v)) (key_values e)) = flat_map (fun g => flat_map (tkey_value (tlint fuel v)) (nodes (is_kind KEY_VALUE) (kids g))) (tlines t).
Proof.
  intros H. unfold key_values.
  assert (HF : forall l m, Forall2 R l m -> map fst (flat_map (lint_key_value (lint_value fuel v)) (flat_map (children_of (is_kind KEY_VALUE)) l)) = flat_map (fun g => flat_map (tkey_value (tlint fuel v)) (nodes (is_kind KEY_VALUE) (kids g))) m).
  { induction 1 as [|a b l m HR HF IHF]; [reflexivity|]. cbn [flat_map]. rewrite flat_map_app, map_app, IHF. f_equal. apply (kinds_R R); [|apply children_R; exact HR]. intros. apply key_value_R; auto using value_R. }
  apply HF. apply lines_R. exact H.
Qed.
Lemma root_R fuel v e t : R e t -> map fst (lint_root fuel v e) = troot fuel v t.
Proof.
  intros H. unfold lint_root, troot. rewrite !map_app, (trailing_R _ _ H), (lines_kinds _ _ _ _ H). do 2 f_equal. apply (kinds_R R); [|apply children_R; exact H].
  intros a b HR. unfold lint_table, ttable. rewrite map_app, (trailing_R _ _ HR), (lines_kinds _ _ _ _ HR). reflexivity.
Qed.
Theorem lint_strip v t t' : strip t = [t'] -> map fst (lint_tree v t) = troot (height t) v t'.
Proof. intros H. apply root_R. exact H. Qed.
