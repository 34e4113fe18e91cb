(** What the walk of HighlightModel.v collects stands where it says. *)
From Coq Require Import String Ascii List NArith Bool Arith Lia.
From Verif Require Import Base SyntaxKind TextModel LexerModel LexerSpec ParserModel ParserBuild TomlTextModel AstModel FormatterModel FormatterLayout
  ViewShape HighlightModel HighlightSpec HighlightProofs.
Import ListNotations.
Open Scope N_scope.
Open Scope list_scope.

Section Text.
Context (src : str).
(** The text before the element and its own text are the beginning of the text. *)
Definition placed (e : el) : Prop := exists rest, src = pre e ++ etext e ++ rest.
Definition placed_marks (l : list mark) : Prop := Forall (fun m => placed (snd m)) l.
Lemma placed_in p cs rest x : src = p ++ ttexts cs ++ rest -> In x (place_children p cs) -> placed x.
Proof.
  revert p. induction cs as [|c cs IH]; intros p E H; [destruct H|]. cbn [place_children] in H. change (ttexts (c :: cs)) with (ttext c ++ ttexts cs) in E. destruct H as [<- |H].
  - exists (ttexts cs ++ rest). unfold etext. cbn [pre it]. rewrite E, <- app_assoc. reflexivity.
  - apply (IH (p ++ ttext c)); [rewrite E, <- !app_assoc; reflexivity|exact H].
Qed.
Lemma placed_kid e x : placed e -> In x (children_with_tokens e) -> placed x.
Proof.
  intros (rest & E) H. unfold children_with_tokens in H. unfold etext in E. destruct (it e) as [k cs|k w]; [|destruct H]. exact (placed_in _ _ _ _ E H).
Qed.
Lemma placed_child e x : placed e -> In x (children e) -> placed x.
Proof. intros H HX. apply filter_In in HX as [HX _]. eapply placed_kid; eauto. Qed.
Lemma placed_app a b : placed_marks a -> placed_marks b -> placed_marks (a ++ b).
Proof. intros. apply Forall_app. auto. Qed.
Lemma placed_all ty es : (forall x, In x es -> placed x) -> placed_marks (mark_all ty es).
Proof. intros H. apply Forall_forall. intros m HM. apply in_map_iff in HM as (x & <- & HX). cbn [snd]. auto. Qed.
Lemma placed_some ty o : (forall x, o = Some x -> placed x) -> placed_marks (mark_some ty o).
Proof. intros H. destruct o; repeat constructor. cbn [snd]. auto. Qed.
Lemma placed_flat {A} (f : A -> list mark) l : (forall a, In a l -> placed_marks (f a)) -> placed_marks (flat_map f l).
Proof. intros H. induction l as [|a l IH]; [constructor|]. cbn [flat_map]. apply placed_app; [apply H; left; reflexivity|apply IH; intros; apply H; right; assumption]. Qed.
Lemma take_sub {A} (f : A -> bool) l x : In x (take_while f l) -> In x l.
Proof. induction l as [|y l IH]; cbn [take_while]; [auto|]. destruct (f y); [|intros []]. intros [->|H]; [left; reflexivity|right; auto]. Qed.
Lemma placed_leading e : placed e -> placed_marks (mark_all CommentType (leading_els e)).
Proof. intros H. apply placed_all. intros x HX. apply filter_In in HX as [HX _]. apply take_sub in HX. eapply placed_kid; eauto. Qed.
Lemma placed_comments e : placed e -> placed_marks (mark_all CommentType (comment_els e)).
Proof. intros H. apply placed_all. intros x HX. apply filter_In in HX as [HX _]. eapply placed_kid; eauto. Qed.
Fixpoint last_suffix t k w : last_token t = Some (TToken k w) -> exists a, ttext t = a ++ w.
Proof.
  destruct t as [k0 cs|k0 w0]; intros H; [|injection H as _ <-; exists []; reflexivity]. cbn [last_token] in H. cbn [ttext].
  induction cs as [|c cs IH]; [discriminate|]. destruct cs as [|c2 cs].
  - destruct (last_suffix c k w H) as (a & E). exists a. cbn [flat_map]. rewrite app_nil_r. exact E.
  - destruct (IH H) as (a & E). exists (ttext c ++ a). cbn [flat_map] in *. rewrite E, <- app_assoc. reflexivity.
Qed.
Lemma placed_trailing e : placed e -> placed_marks (mark_some CommentType (trailing_el e)).
Proof.
  intros (rest & E). apply placed_some. intros x HX. unfold trailing_el in HX. destruct (last_token (it e)) as [[k cs|k w]|] eqn:EL; try discriminate. destruct k; try discriminate. injection HX as <-.
  destruct (last_suffix _ _ _ EL) as (a & EA). exists rest. unfold etext in *. cbn [pre it ttext]. rewrite EA in *. rewrite app_length, Nat.add_sub, firstn_app, Nat.sub_diag, firstn_O, app_nil_r, firstn_all. rewrite E, <- !app_assoc. reflexivity.
Qed.
Lemma placed_opening e k : placed e -> placed_marks (mark_some CommentType (trailing_comment_in (children_with_tokens e) k)).
Proof.
  intros H. apply placed_some. intros x HX. apply (placed_kid e x H). unfold trailing_comment_in in HX.
  destruct (tl (drop_while _ _)) as [|y rest] eqn:ET; [discriminate|]. assert (HS : forall z, In z (y :: rest) -> In z (children_with_tokens e)).
  { intros z HZ. rewrite <- ET in HZ. apply (drop_sub (fun e0 => negb (has_kind k e0) && negb (has_kind EOF e0))). destruct (drop_while _ _); [exact HZ|right; exact HZ]. }
  apply HS. destruct (is_comment_token y); [injection HX as ->; left; reflexivity|]. destruct (negb (is_node y) && has_kind WHITESPACE y); [|discriminate]. destruct rest as [|z rest]; [discriminate|]. destruct (is_comment_token z); [|discriminate]. injection HX as ->. right. left. reflexivity.
Qed.
Lemma placed_token e k ty : placed e -> placed_marks (mark_some ty (token k e)).
Proof. intros H. apply placed_some. intros x HX. apply find_some in HX as [HX _]. eapply placed_kid; eauto. Qed.
Lemma placed_keys e ty : placed e -> placed_marks (match keys_child e with Some ks => mark_all ty (keys_of ks) | None => [] end).
Proof.
  intros H. destruct (keys_child e) as [ks|] eqn:EK; [|constructor]. apply find_some in EK as [EK _]. apply placed_all. intros x HX. apply filter_In in HX as [HX _]. eapply placed_child; [eapply placed_child; [exact H|exact EK]|exact HX].
Qed.
Lemma comma_in P ns : forall pend a c, In (a, Some c) (with_comma P ns pend) -> In c ns.
Proof.
  induction ns as [|n ns IH]; intros pend a c H; cbn [with_comma] in H; [destruct pend; [destruct H as [H|[]]; discriminate|destruct H]|].
  destruct (P (ekind_of n)); [destruct pend; [destruct H as [H|H]; [discriminate|]|]; right; eapply IH; eauto|]. destruct (has_kind COMMA n); [|right; eapply IH; eauto].
  destruct pend; [destruct H as [H|H]; [injection H as _ ->; left; reflexivity|]|]; right; eapply IH; eauto.
Qed.
Lemma placed_comma g P a c : placed g -> In (a, c) (items_with_comma P g) -> placed_marks (mark_comma c).
Proof.
  intros H HI. destruct c as [c|]; [|constructor]. apply comma_in in HI. assert (HC : placed c) by (eapply placed_child; eauto). apply placed_app; [apply placed_leading|apply placed_trailing]; exact HC.
Qed.
Lemma placed_groups can items e es : placed e -> (forall x, In x es -> In x (children_with_tokens e)) -> (forall g, placed g -> placed_marks (items g)) -> placed_marks (mark_groups can items es).
Proof.
  intros H HS HI. apply placed_app; apply placed_flat.
  - intros g HG. apply filter_In in HG as [HG _]. apply take_sub, HS in HG. apply placed_comments. eapply placed_kid; eauto.
  - intros g HG. apply in_flat_map in HG as (x & HX & HG). apply drop_sub, HS in HX. pose proof (placed_kid e x H HX) as HP. destruct (is_node x); [|destruct HG]. destruct (has_kind DANGLING_COMMENT_GROUP x); [destruct HG as [<- |[]]; apply placed_comments; exact HP|].
    destruct (can (ekind_of x)); [|destruct HG]. destruct HG as [<- |[]]. apply HI. exact HP.
Qed.
Section Values.
Context (mv : el -> list mark) (HV : forall e, placed e -> placed_marks (mv e)).
Lemma placed_key_value e : placed e -> placed_marks (mark_key_value mv e).
Proof.
  intros H. unfold mark_key_value. repeat apply placed_app; [apply placed_leading; exact H|apply placed_keys; exact H|apply placed_token; exact H|]. destruct (value_child e) as [v|] eqn:EV; [|constructor]. apply HV. apply find_some in EV as [EV _]. eapply placed_child; eauto.
Qed.
Lemma placed_values g : placed g -> placed_marks (mark_values mv g).
Proof.
  intros H. apply placed_flat. intros [a c] HI. cbn [fst snd]. assert (HA : placed a) by (apply items_in in HI as [HI _]; eapply placed_child; eauto).
  apply placed_app; [destruct (has_kind KEY_VALUE a); [apply placed_key_value|apply HV]; exact HA|exact (placed_comma g _ a c H HI)].
Qed.
Lemma placed_inline g : placed g -> placed_marks (mark_inline_key_values mv g).
Proof.
  intros H. apply placed_flat. intros [a c] HI. cbn [fst snd]. assert (HA : placed a) by (apply items_in in HI as [HI _]; eapply placed_child; eauto).
  apply placed_app; [apply placed_key_value; exact HA|exact (placed_comma g _ a c H HI)].
Qed.
Lemma placed_lines g : placed g -> placed_marks (mark_lines mv g).
Proof. intros H. apply placed_flat. intros a HA. apply filter_In in HA as [HA _]. apply placed_key_value. eapply placed_child; eauto. Qed.
End Values.
Lemma placed_value fuel : forall e, placed e -> placed_marks (mark_value fuel e).
Proof.
  induction fuel as [|f IH]; intros e H; [repeat constructor; exact H|]. cbn [mark_value].
  apply placed_app; [apply placed_leading; exact H|]. apply placed_app; [|apply placed_trailing; exact H].
  assert (HL : forall k, placed_marks (match literal_type k with Some ty => match token k e with Some t => [(ty, t)] | None => [(UnwrapPanic, e)] end | None => [] end)).
  { intros k. destruct (literal_type k) as [ty|]; [|constructor]. pose proof (placed_token e k ty H) as HT. destruct (token k e); [exact HT|repeat constructor; exact H]. }
  destruct (ekind_of e); try apply HL; (apply placed_app; [apply placed_opening; exact H|]); apply (placed_groups _ _ e); [exact H|apply opening_sub| |exact H|apply opening_sub|]; intros g HG; [apply placed_values|apply placed_inline]; auto.
Qed.
Lemma placed_table fuel e : placed e -> placed_marks (mark_table fuel e).
Proof.
  intros H. unfold mark_table. do 5 (apply placed_app; [auto using placed_leading, placed_token, placed_keys, placed_opening|]). apply (placed_groups _ _ e); [exact H|apply header_sub|]. intros g HG. apply placed_lines; auto using placed_value.
Qed.
Lemma placed_root fuel e : placed e -> placed_marks (mark_root fuel e).
Proof.
  intros H. apply placed_app.
  - apply (placed_groups _ _ e); [exact H|auto|]. intros g HG. apply placed_lines; auto using placed_value.
  - apply placed_flat. intros a HA. apply filter_In in HA as [HA _]. apply placed_table. eapply placed_child; eauto.
Qed.
End Text.
Theorem highlights_placed t ty e : In (ty, e) (highlights t) -> exists rest, ttext t = pre e ++ etext e ++ rest.
Proof.
  intros H. assert (HP : placed (ttext t) (El [] t)) by (exists []; unfold etext; cbn [pre it app]; rewrite app_nil_r; reflexivity).
  pose proof (placed_root (ttext t) (height t) _ HP) as HF. unfold placed_marks in HF. rewrite Forall_forall in HF. exact (HF (ty, e) H).
Qed.
