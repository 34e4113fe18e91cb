(** * C45, C47: the syntax tree is navigated without losing the place *)
From Coq Require Import String Ascii List NArith Bool Arith Lia.
From Verif Require Import Base SyntaxKind TextModel RangeProps LexerModel LexerProofs LexerProps ParserModel GreenModel GreenProps RedModel RedProofs.
Import ListNotations.
Open Scope N_scope.
Open Scope list_scope.

(** ** Specification *)
(** one step of navigation from [r] to [x] *)
Inductive step (same : red -> red -> bool) (seg : str -> list str) (r x : red) : Prop :=
  | step_parent : rparent r = Some x -> step same seg r x
  | step_ancestor : In x (ancestors r) -> step same seg r x
  | step_next_sibling : next_sibling r = Some x -> step same seg r x
  | step_prev_sibling : prev_sibling r = Some x -> step same seg r x
  | step_next_sibling_or_token : next_sibling_or_token r = Some x -> step same seg r x
  | step_prev_sibling_or_token : prev_sibling_or_token r = Some x -> step same seg r x
  | step_first_child : first_child r = Some x -> step same seg r x
  | step_last_child : last_child r = Some x -> step same seg r x
  | step_first_child_or_token : first_child_or_token r = Some x -> step same seg r x
  | step_last_child_or_token : last_child_or_token r = Some x -> step same seg r x
  | step_children n l : children n r = Some l -> In x l -> step same seg r x
  | step_children_with_tokens n l : children_with_tokens n r = Some l -> In x l -> step same seg r x
  | step_first_token : first_token r = Some x -> step same seg r x
  | step_last_token : last_token r = Some x -> step same seg r x
  | step_next_token : next_token r = Some x -> step same seg r x
  | step_prev_token : prev_token r = Some x -> step same seg r x
  | step_descendants n l : descendants same n r = Some l -> In x l -> step same seg r x
  | step_descendants_with_tokens n l : descendants_with_tokens same n r = Some l -> In x l -> step same seg r x
  | step_token_at_offset o : token_at_offset r o = Some (Single x) -> step same seg r x
  | step_token_at_offset_between o a b : token_at_offset r o = Some (Between a b) -> x = a \/ x = b -> step same seg r x
  | step_token_at_position o : token_at_position seg r o = Some (Single x) -> step same seg r x
  | step_token_at_position_between o a b : token_at_position seg r o = Some (Between a b) -> x = a \/ x = b -> step same seg r x.
(** the elements that any chain of steps from the root of [g] leads to *)
Inductive reached (same : red -> red -> bool) (seg : str -> list str) (g : green) : red -> Prop :=
  | reached_root : reached same seg g (new_root g)
  | reached_step r x : reached same seg g r -> step same seg r x -> reached same seg g x.

Lemma filter_length_le {A} (f : A -> bool) l : (List.length (filter f l) <= List.length l)%nat.
Proof. induction l as [|x l IH]; [reflexivity|]. cbn [filter]. destruct (f x); cbn [List.length]; lia. Qed.
Lemma collect_in {A} (next : A -> option A) (P : A -> Prop) : (forall x y, P x -> next x = Some y -> P y) ->
  forall n x l, (forall y, x = Some y -> P y) -> collect next n x = Some l -> Forall P l.
Proof.
  intros HN. induction n as [|n IH]; intros x l HP H; [discriminate|]. cbn [collect] in H. destruct x as [x|]; [|injection H as <-; constructor].
  destruct (collect next n (next x)) as [l'|] eqn:E; [|discriminate]. injection H as <-. constructor; [apply HP; reflexivity|]. apply (IH (next x) l'); [|exact E]. intros y Hy. exact (HN x y (HP x eq_refl) Hy).
Qed.
Definition event_red (e : event) : red := match e with Enter r => r | Leave r => r end.
Lemma token_at_in_valid g empty touches : forall h r t, valid g r -> rgreen r = h -> token_at_in empty touches h r = Some t ->
  match t with NoToken => True | Single x => valid g x | Between a b => valid g a /\ valid g b end.
Proof.
  fix IH 1. intros h r t HV HG H. destruct h as [k s|k l p cs]; [injection H as <-; exact HV|]. cbn [token_at_in] in H. destruct (empty r); [injection H as <-; exact I|].
  match type of H with match ?f 0%nat cs with _ => _ end = _ =>
    assert (HL : Forall (fun a => forall t, a = Some t -> match t with NoToken => True | Single x => valid g x | Between a b => valid g a /\ valid g b end) (f 0%nat cs)) end.
  { assert (HK : forall i c, nth_error cs i = Some c -> valid g (rchild r (0 + i) c)).
    { intros i c HC. apply (valid_kid g r _ HV). apply nth_error_In with i. rewrite kids_nth. unfold raw. rewrite HG. cbn [gchildren_raw]. rewrite HC. reflexivity. }
    clear H HG. revert HK. generalize 0%nat. revert cs. fix IHl 1. intros [|c cs] n HK; [constructor|]. cbv zeta.
    assert (HR : forall i c, nth_error cs i = Some c -> valid g (rchild r (S n + i) c)) by (intros i c' HC; replace (S n + i)%nat with (n + S i)%nat by lia; exact (HK (S i) c' HC)).
    specialize (HK 0%nat c eq_refl). rewrite Nat.add_0_r in HK.
    destruct (negb (empty (rchild r n c)) && touches (rchild r n c)); [|exact (IHl cs (S n) HR)].
    constructor; [|exact (IHl cs (S n) HR)]. intros t' Ht. exact (IH (snd c) _ t' HK eq_refl Ht). }
  match type of H with match ?l with _ => _ end = _ => revert HL H; generalize l end. intros [|x [|y m]] HL H; [discriminate|inversion HL as [|? ? H1 _]; subst; exact (H1 _ eq_refl)|].
  destruct x as [[|a|]|]; try discriminate. destruct y as [[|b|]|]; try discriminate. injection H as <-. inversion HL as [|? ? H1 H2]; subst. inversion H2 as [|? ? H3 _]; subst. exact (conj (H1 _ eq_refl) (H3 _ eq_refl)).
Qed.
Lemma step_valid same seg g r x : valid g r -> step same seg r x -> valid g x.
Proof.
  intros HV [].
  - exact (proj1 (valid_parent g r x HV H)).
  - pose proof (valid_ancestors g r HV) as HA. rewrite Forall_forall in HA. exact (HA x H).
  - exact (valid_next g r x HV H).
  - exact (valid_prev g r x HV H).
  - exact (valid_next_token g r x HV H).
  - exact (valid_prev_token g r x HV H).
  - exact (valid_child g r x HV (or_introl H)).
  - exact (valid_child g r x HV (or_intror (or_introl H))).
  - exact (valid_child g r x HV (or_intror (or_intror (or_introl H)))).
  - exact (valid_child g r x HV (or_intror (or_intror (or_intror H)))).
  - unfold children in H. pose proof (collect_in next_sibling (valid g) (fun a b => valid_next g a b) n _ l (fun y Hy => valid_child g r y HV (or_introl Hy)) H) as HF. rewrite Forall_forall in HF. exact (HF x H0).
  - unfold children_with_tokens in H. pose proof (collect_in next_sibling_or_token (valid g) (fun a b => valid_next_token g a b) n _ l (fun y Hy => valid_child g r y HV (or_intror (or_intror (or_introl Hy)))) H) as HF. rewrite Forall_forall in HF. exact (HF x H0).
  - exact (valid_first_token g r HV x (or_introl H)).
  - exact (valid_first_token g r HV x (or_intror H)).
  - exact (valid_next_prev_token g r x HV (or_introl H)).
  - exact (valid_next_prev_token g r x HV (or_intror H)).
  - unfold descendants in H. destruct (preorder same n r) as [es|] eqn:E; [|discriminate]. injection H as <-.
    assert (HF : Forall (fun e => valid g (event_red e)) es).
    { refine (collect_in (walk_step same r) (fun e => valid g (event_red e)) _ n _ es _ E); [|intros y Hy; injection Hy as <-; exact HV].
      intros e f He Hf. destruct e as [y|y]; cbn [walk_step event_red] in *.
      - destruct (first_child y) as [c|] eqn:EC; injection Hf as <-; [exact (valid_child g y c He (or_introl EC))|exact He].
      - destruct (same y r); [discriminate|]. destruct (next_sibling y) as [s|] eqn:ES; [injection Hf as <-; exact (valid_next g y s He ES)|]. destruct (rparent y) as [p|] eqn:EP; [|discriminate]. injection Hf as <-. exact (proj1 (valid_parent g y p He EP)). }
    rewrite Forall_forall in HF. apply in_flat_map in H0 as (e & He & H0). specialize (HF e He). destruct e; [destruct H0 as [<- |[]]; exact HF|destruct H0].
  - unfold descendants_with_tokens in H. destruct (preorder_with_tokens same n r) as [es|] eqn:E; [|discriminate]. injection H as <-.
    assert (HF : Forall (fun e => valid g (event_red e)) es).
    { refine (collect_in (walk_tokens_step same r) (fun e => valid g (event_red e)) _ n _ es _ E); [|intros y Hy; injection Hy as <-; exact HV].
      intros e f He Hf. destruct e as [y|y]; cbn [walk_tokens_step event_red] in *.
      - destruct (is_node y); [|injection Hf as <-; exact He]. destruct (first_child_or_token y) as [c|] eqn:EC; injection Hf as <-; [exact (valid_child g y c He (or_intror (or_intror (or_introl EC))))|exact He].
      - destruct (same y r); [discriminate|]. destruct (next_sibling_or_token y) as [s|] eqn:ES; [injection Hf as <-; exact (valid_next_token g y s He ES)|]. destruct (rparent y) as [p|] eqn:EP; [|discriminate]. injection Hf as <-. exact (proj1 (valid_parent g y p He EP)). }
    rewrite Forall_forall in HF. apply in_flat_map in H0 as (e & He & H0). specialize (HF e He). destruct e; [destruct H0 as [<- |[]]; exact HF|destruct H0].
  - exact (token_at_in_valid g _ _ _ r _ HV eq_refl H).
  - destruct (token_at_in_valid g _ _ _ r _ HV eq_refl H) as [A B]. destruct H0 as [-> | ->]; assumption.
  - exact (token_at_in_valid g _ _ _ r _ HV eq_refl H).
  - destruct (token_at_in_valid g _ _ _ r _ HV eq_refl H) as [A B]. destruct H0 as [-> | ->]; assumption.
Qed.
Lemma reached_valid same seg g r : reached same seg g r -> valid g r.
Proof. induction 1 as [|r x HR IH HS]; [constructor|]. exact (step_valid same seg g r x IH HS). Qed.

Lemma range_is seg g r : built seg g -> valid g r -> rrange seg r = MkRange (rposition r) (pos_add (rposition r) (gtext_rel seg (rgreen r))).
Proof.
  intros HB HV. unfold rrange, range_new. destruct RangeProps.C34_advance_proof as (_ & _ & _ & _ & HA & _). replace (pos_leb _ _) with true; [reflexivity|]. symmetry. apply leb_spec. apply HA.
Qed.
(** Wherever navigation leads to, the element's span and range are those of its text in the document: the document's tokens are some
    tokens, its own and some more; the offset counts the bytes and the position the lines and columns of the text before it. *)
Theorem C45_place : forall same seg g, built seg g -> forall r, reached same seg g r ->
  exists l1 l2, token_texts g = l1 ++ token_texts (rgreen r) ++ l2 /\
    rspan r = MkSpan (len_bytes (concat l1)) (len_bytes (concat (l1 ++ token_texts (rgreen r)))) /\
    rrange seg r = MkRange (pos_add (Pos 0 0) (rel_of_clusters (flat_map seg l1))) (pos_add (Pos 0 0) (rel_of_clusters (flat_map seg (l1 ++ token_texts (rgreen r))))).
Proof.
  intros same seg g HB r HR. apply reached_valid in HR. destruct (place_ok seg g r HB HR) as [HO HP]. exists (map rtext (before r)), (map rtext (after r)).
  pose proof (valid_built seg g r HB HR) as HBr. destruct (C21_measures seg (rgreen r) HBr) as (HL & HT & HRel & _).
  split.
  - change g with (rgreen (new_root g)) at 1. rewrite <- !tokens_texts, <- !map_app, (around g r HR). reflexivity.
  - rewrite (range_is seg g r HB HR). unfold rspan. rewrite HO, HP, HL, HRel, HT. split.
    + rewrite concat_app, len_bytes_app. reflexivity.
    + f_equal. rewrite flat_map_app, rel_of_app. symmetry. apply (proj1 (proj2 (proj2 RangeProps.C34_advance_proof))).
Qed.
Print Assumptions C45_place.

(** The steps lead where they say.  The children of an element are its tree's children, in order, each numbered with its index and
    with the element as its parent; the siblings are the parent's children; the iterators give all the children. *)
Theorem C45_steps : forall same seg g r, reached same seg g r ->
  (map rgreen (kids r) = gchildren (rgreen r) /\ forall i c, nth_error (kids r) i = Some c -> rparent c = Some r /\ rindex c = i) /\
  (match rparent r with None => r = new_root g | Some p => reached same seg g p /\ nth_error (kids p) (rindex r) = Some r end) /\
  first_child_or_token r = hd_error (kids r) /\ last_child_or_token r = hd_error (rev (kids r)) /\
  first_child r = hd_error (filter is_node (kids r)) /\ last_child r = hd_error (rev (filter is_node (kids r))) /\
  (forall p, rparent r = Some p ->
     next_sibling_or_token r = hd_error (skipn (S (rindex r)) (kids p)) /\ prev_sibling_or_token r = hd_error (rev (firstn (rindex r) (kids p))) /\
     next_sibling r = hd_error (filter is_node (skipn (S (rindex r)) (kids p))) /\ prev_sibling r = hd_error (rev (filter is_node (firstn (rindex r) (kids p))))) /\
  (exists n, forall m, (n <= m)%nat -> children_with_tokens m r = Some (kids r) /\ children m r = Some (filter is_node (kids r))).
Proof.
  intros same seg g r HR. pose proof (reached_valid _ _ _ _ HR) as HV.
  split; [|split; [|split; [|split; [|split; [|split; [|split]]]]]].
  - split; [apply kids_green|]. intros i c HC. destruct (kid_inv r c (nth_error_In _ _ HC)) as [HP _]. split; [exact HP|].
    rewrite kids_nth in HC. destruct (nth_error (raw r) i); [|discriminate]. injection HC as <-. reflexivity.
  - destruct (rparent r) as [p|] eqn:E; [|destruct HV as [|q c HVq HC]; [reflexivity|rewrite (proj1 (kid_inv q c HC)) in E; discriminate]].
    destruct (valid_parent g r p HV E) as [HVp HIn]. split; [|exact (proj2 (kid_inv p r HIn))]. eapply reached_step; [exact HR|]. apply step_parent. exact E.
  - rewrite first_child_or_token_kids. destruct (kids r); reflexivity.
  - rewrite last_child_or_token_kids. destruct (rev (kids r)); reflexivity.
  - rewrite first_child_kids. apply find_filter.
  - rewrite last_child_kids, find_filter. f_equal. generalize (kids r). clear. induction l as [|x l IH]; [reflexivity|]. cbn [rev filter]. rewrite filter_app, IH. cbn [filter]. destruct (is_node x); [reflexivity|]. apply app_nil_r.
  - intros p HP. destruct (valid_parent g r p HV HP) as [_ HIn]. pose proof (kid_index p r HIn) as HI. rewrite (next_or_token_kids p r HP), (prev_or_token_kids p r HP), (next_kids p r HP), (prev_kids p r HP HI), !find_filter, nth_hd. split; [reflexivity|]. split; [|split; [reflexivity|]].
    + rewrite <- last_of_rev. symmetry. apply last_firstn. exact HI.
    + f_equal. generalize (firstn (rindex r) (kids p)). clear. induction l as [|x l IH]; [reflexivity|]. cbn [rev filter]. rewrite filter_app, IH. cbn [filter]. destruct (is_node x); [reflexivity|]. apply app_nil_r.
  - exists (S (List.length (kids r))). intros m Hm. split; [apply children_with_tokens_ok; lia|]. apply children_ok. pose proof (filter_length_le is_node (kids r)). lia.
Qed.
Print Assumptions C45_steps.

(** Walking visits the element and everything below it once, in document order: an element, then each of its children with what is below
    it; the elements of the walk from the root are those that can be reached; the text shown is the tree's text. *)
Theorem C45_walk : forall same seg g, (forall a, same a a = true) -> (forall a b, same a b = true -> rgreen a = rgreen b) ->
  (forall r, reached same seg g r <-> In r (all (new_root g))) /\
  (forall r, reached same seg g r -> is_node r = true ->
    all r = r :: flat_map all (kids r) /\ NoDup (all r) /\
    exists n, forall m, (n <= m)%nat ->
      preorder_with_tokens same m r = Some (events r) /\ preorder same m r = Some (filter node_event (events r)) /\
      descendants_with_tokens same m r = Some (all r) /\ descendants same m r = Some (filter is_node (all r)) /\
      display same m r = Some (concat (token_texts (rgreen r)))).
Proof.
  intros same seg g HS1 HS2. split.
  - intros r. split; [intros HR; apply valid_all; exact (reached_valid _ _ _ _ HR)|]. intros HI. apply valid_all in HI. induction HI as [|r c HV IH HC]; [constructor|].
    apply (reached_step _ _ _ _ _ IH). eapply step_children_with_tokens; [apply (children_with_tokens_ok r (S (List.length (kids r)))); lia|exact HC].
  - intros r HR HN. split; [apply all_kids|]. split; [apply all_nodup|]. exists (S (List.length (events r))). intros m Hm.
    assert (HE : preorder_with_tokens same m r = Some (events r)) by (apply preorder_with_tokens_ok; [exact HS2|exact HS1|lia]).
    assert (HP : preorder same m r = Some (node_events r)). { apply preorder_ok; [exact HS2|exact HS1|exact HN|]. unfold node_events. pose proof (filter_length_le node_event (events r)). lia. }
    assert (HD : descendants_with_tokens same m r = Some (all r)) by (unfold descendants_with_tokens; rewrite HE, entered_events; reflexivity).
    split; [exact HE|]. split; [exact HP|]. split; [exact HD|]. split.
    + unfold descendants. rewrite HP. unfold node_events. rewrite entered_nodes, entered_events. reflexivity.
    + unfold display. rewrite HD. f_equal. rewrite <- tokens_texts. unfold tokens. generalize (all r). clear. induction l as [|x l IH]; [reflexivity|]. cbn [flat_map filter]. rewrite IH. unfold is_node at 2.
      destruct (rgreen x) eqn:E; cbn [negb map concat]; [unfold rtext; rewrite E; reflexivity|reflexivity].
Qed.
Print Assumptions C45_walk.

(** ** Next and previous token *)
(** From each token of a tree in which every node has a child, the next and the previous token are those in the document.
    Missing: trees with an empty node, for which see below. *)
Theorem C47_next_token_partial : forall same seg g,
  (forall r, reached same seg g r -> is_node r = true -> kids r <> []) ->
  forall l1 t l2, tokens (new_root g) = l1 ++ t :: l2 -> next_token t = hd_error l2 /\ prev_token t = hd_error (rev l1).
Proof.
  intros same seg g HF l1 t l2 E.
  assert (HFull : full_red (new_root g)).
  { intros x Hx. apply HF. apply valid_all in Hx. clear - Hx. induction Hx as [|r c HV IH HC]; [constructor|]. apply (reached_step _ _ _ _ _ IH). eapply step_children_with_tokens; [apply (children_with_tokens_ok r (S (List.length (kids r)))); lia|exact HC]. }
  assert (HT : In t (tokens (new_root g))) by (rewrite E; apply in_app_iff; right; left; reflexivity). unfold tokens in HT. apply filter_In in HT as [HA HN]. apply negb_true_iff in HN.
  apply valid_all in HA. destruct (next_prev_token g t HFull HA) as [H1 H2]. rewrite H1, H2. pose proof (around g t HA) as HR. rewrite (tokens_kids t), HN in HR. cbn [app] in HR.
  assert (HND : NoDup (tokens (new_root g))) by (apply NoDup_filter, all_nodup).
  assert (l1 = before t /\ l2 = after t) as [-> ->].
  { rewrite E in HR, HND. clear - HR HND. revert HR HND. generalize (before t), (after t). intros b a. revert b. induction l1 as [|x l1 IH]; intros [|y b] HR HND; cbn [app] in *.
    - injection HR as ->. auto.
    - injection HR as <- ->. inversion HND as [|? ? HNI _]; subst. exfalso. apply HNI. apply in_app_iff. right. left. reflexivity.
    - injection HR as -> <-. inversion HND as [|? ? HNI _]; subst. exfalso. apply HNI. apply in_app_iff. right. left. reflexivity.
    - injection HR as -> HR. inversion HND; subst. destruct (IH b HR) as [-> ->]; [assumption|]. auto. }
  split; [reflexivity|apply last_of_rev].
Qed.
Print Assumptions C47_next_token_partial.
Fixpoint green_of (seg : str -> list str) (t : tree) : green := match t with TToken k s => GTok k s | TNode k l => gnew seg k (map (green_of seg) l) end.
Lemma green_of_built seg : forall t, built seg (green_of seg t).
Proof. fix IH 1. intros [k l|k s]; cbn [green_of]; [|constructor]. constructor. revert l. fix IHl 1. intros [|x l]; constructor; [apply IH|apply IHl]. Qed.
(** While a value is still missing the tree has an empty node, and the token before it has no next token although there is one. *)
Definition missing_value : str := lit "a=" ++ [10] ++ lit "b=2".
Definition missing_tree : tree := match parse seg1 10 missing_value with Done (t, _) => t | _ => TToken EOF [] end.
Definition missing_tokens : list red := tokens (new_root (green_of seg1 missing_tree)).
Theorem C47_next_token_refuted : (exists es, parse seg1 10 missing_value = Done (missing_tree, es)) /\
  exists l1 x y l2, missing_tokens = l1 ++ x :: y :: l2 /\ next_token x = None /\ prev_token y = None.
Proof.
  split; [eexists; vm_compute; reflexivity|].
  assert (HC : match skipn 1 missing_tokens with x :: y :: _ => match next_token x, prev_token y with None, None => true | _, _ => false end | _ => false end = true) by (vm_compute; reflexivity).
  pose proof (firstn_skipn 1 missing_tokens) as HS. destruct (skipn 1 missing_tokens) as [|x [|y l2]]; [discriminate HC|discriminate HC|]. exists (firstn 1 missing_tokens), x, y, l2. split; [symmetry; exact HS|].
  clear HS. destruct (next_token x); [discriminate HC|]. destruct (prev_token y); [discriminate HC|]. auto.
Qed.
Print Assumptions C47_next_token_refuted.

(** ** The token at an offset or a position *)
Lemma kids_chain {T} (lt : T -> T -> Prop) (start fin : red -> T) (F : nat -> T) l :
  (forall i c, nth_error l i = Some c -> start c = F i /\ fin c = F (S i) /\ ~ lt (fin c) (start c)) -> chain lt start fin (F 0%nat) (F (List.length l)) l.
Proof.
  revert F. induction l as [|c l IH]; intros F H; cbn [chain List.length]; [reflexivity|]. destruct (H 0%nat c eq_refl) as (H1 & H2 & H3). split; [exact H1|]. split; [exact H3|]. rewrite H2. apply (IH (fun i => F (S i))). intros i x Hx. exact (H (S i) x Hx).
Qed.
Section offsets.
Context (seg : str -> list str).
Definition texts_upto (r : red) (i : nat) : list str := map rtext (flat_map tokens (firstn i (kids r))).
Lemma firstn_S {A} (l : list A) : forall i x, nth_error l i = Some x -> firstn (S i) l = firstn i l ++ [x].
Proof. induction l as [|y l IH]; intros [|i] x H; try discriminate; cbn [firstn app nth_error] in *; [injection H as ->; reflexivity|]. f_equal. apply IH. exact H. Qed.
Lemma texts_S r i c : nth_error (kids r) i = Some c -> texts_upto r (S i) = texts_upto r i ++ token_texts (rgreen c).
Proof. intros H. unfold texts_upto. rewrite (firstn_S _ _ _ H), flat_map_app, map_app. cbn [flat_map]. rewrite app_nil_r, tokens_texts. reflexivity. Qed.
Lemma texts_all r : is_node r = true -> texts_upto r (List.length (kids r)) = token_texts (rgreen r).
Proof. intros H. unfold texts_upto. rewrite firstn_all, <- tokens_texts, tokens_kids, H. reflexivity. Qed.
Lemma contiguous_offsets g r : built seg g -> valid g r -> contiguous N.lt (fun r => sstart (rspan r)) (fun r => send (rspan r)) r.
Proof.
  intros HB HV x Hx. assert (HVx : valid g x). { clear - HV Hx. revert r HV Hx. apply (red_ind_kids (fun r => valid g r -> In x (all r) -> valid g x)). intros r IH HV Hx. rewrite all_kids in Hx. destruct Hx as [<- |Hx]; [exact HV|]. apply in_flat_map in Hx as (c & Hc & Hx). exact (IH c Hc (valid_kid g r c HV Hc) Hx). }
  pose proof (valid_built seg g x HB HVx) as HBx. unfold rspan. cbn [sstart send]. split; [lia|]. intros HN.
  replace (roffset x) with (roffset x + len_bytes (concat (texts_upto x 0))) at 1 by (cbn; lia).
  rewrite (built_len seg _ HBx), <- (concat_token_texts seg _ HBx), <- (texts_all x HN).
  apply (kids_chain N.lt _ _ (fun i => roffset x + len_bytes (concat (texts_upto x i)))). intros i c HC.
  pose proof (nth_error_In _ _ HC) as HIn. destruct (kid_place seg x c HBx HIn) as [HO _]. rewrite (texts_S x i c HC), concat_app, len_bytes_app, (built_len seg _ (built_kid seg x c HBx HIn)), <- (concat_token_texts seg _ (built_kid seg x c HBx HIn)).
  assert (rindex c = i) by (rewrite kids_nth in HC; destruct (nth_error (raw x) i); [injection HC as <-; reflexivity|discriminate]). subst i. rewrite HO. unfold texts_upto. split; [reflexivity|]. split; lia.
Qed.
Definition pos_lt (a b : position) : Prop := pos_leb b a = false.
Lemma contiguous_positions g r : built seg g -> valid g r -> contiguous pos_lt (fun r => rstart (rrange seg r)) (fun r => rend (rrange seg r)) r.
Proof.
  intros HB HV x Hx. assert (HVx : valid g x). { clear - HV Hx. revert r HV Hx. apply (red_ind_kids (fun r => valid g r -> In x (all r) -> valid g x)). intros r IH HV Hx. rewrite all_kids in Hx. destruct Hx as [<- |Hx]; [exact HV|]. apply in_flat_map in Hx as (c & Hc & Hx). exact (IH c Hc (valid_kid g r c HV Hc) Hx). }
  pose proof (valid_built seg g x HB HVx) as HBx. destruct RangeProps.C34_advance_proof as (_ & _ & HAdd & _ & HA & _).
  assert (HLe : forall y, valid g y -> ~ pos_lt (rend (rrange seg y)) (rstart (rrange seg y))).
  { intros y Hy. rewrite (range_is seg g y HB Hy). cbn [rstart rend]. unfold pos_lt. intros H. pose proof (proj2 (leb_spec _ _) (HA (rposition y) (gtext_rel seg (rgreen y)))). congruence. }
  split; [exact (HLe x HVx)|]. intros HN. rewrite (range_is seg g x HB HVx). cbn [rstart rend].
  replace (rposition x) with (pos_add (rposition x) (rel_of_clusters (flat_map seg (texts_upto x 0)))) at 1 by (destruct (rposition x) as [l c]; cbn; unfold pos_add; cbn; f_equal; lia).
  rewrite (built_rel seg _ HBx), <- (texts_all x HN).
  apply (kids_chain pos_lt (fun r => rstart (rrange seg r)) (fun r => rend (rrange seg r)) (fun i => pos_add (rposition x) (rel_of_clusters (flat_map seg (texts_upto x i))))). intros i c HC.
  pose proof (nth_error_In _ _ HC) as HIn. pose proof (valid_kid g x c HVx HIn) as HVc. destruct (kid_place seg x c HBx HIn) as [_ HP]. rewrite (texts_S x i c HC), flat_map_app, rel_of_app, HAdd, <- (built_rel seg _ (built_kid seg x c HBx HIn)).
  assert (rindex c = i) by (rewrite kids_nth in HC; destruct (nth_error (raw x) i); [injection HC as <-; reflexivity|discriminate]). subst i. split; [|split; [|exact (HLe c HVc)]]; rewrite (range_is seg g c HB HVc); cbn [rstart rend]; rewrite HP; reflexivity.
Qed.
End offsets.
(** the tokens of [r] that are not empty and that [o] is in, or at the start or the end of *)
Definition at_offset (o : N) (t : red) : bool := negb (sstart (rspan t) =? send (rspan t)) && ((sstart (rspan t) <=? o) && (o <=? send (rspan t))).
Definition at_position (seg : str -> list str) (p : position) (t : red) : bool := negb (range_is_empty (rrange seg t)) && range_contains (rrange seg t) p.
(** Inside a node (or at its ends) the search answers with the tokens that are there: none if the node is empty, one, or the two that meet. *)
Theorem C45_token_at : forall same seg g, built seg g -> forall r, reached same seg g r -> is_node r = true ->
  (forall o, sstart (rspan r) <= o -> o <= send (rspan r) ->
    match token_at_offset r o with
    | Some NoToken => filter (at_offset o) (tokens r) = [] /\ sstart (rspan r) = send (rspan r)
    | Some (Single t) => filter (at_offset o) (tokens r) = [t]
    | Some (Between a b) => filter (at_offset o) (tokens r) = [a; b] /\ send (rspan a) = o /\ sstart (rspan b) = o
    | None => False
    end) /\
  (forall p, at_or_before (rstart (rrange seg r)) p -> at_or_before p (rend (rrange seg r)) ->
    match token_at_position seg r p with
    | Some NoToken => filter (at_position seg p) (tokens r) = [] /\ rstart (rrange seg r) = rend (rrange seg r)
    | Some (Single t) => filter (at_position seg p) (tokens r) = [t]
    | Some (Between a b) => filter (at_position seg p) (tokens r) = [a; b] /\ rend (rrange seg a) = p /\ rstart (rrange seg b) = p
    | None => False
    end).
Proof.
  intros same seg g HB r HR HN. apply reached_valid in HR. split.
  - intros o H1 H2. pose proof (contiguous_offsets seg g r HB HR) as HC. unfold token_at_offset.
    assert (S1 : forall r, (sstart (rspan r) =? send (rspan r)) = true <-> sstart (rspan r) = send (rspan r)) by (intros; apply N.eqb_eq).
    assert (S2 : forall o r, (sstart (rspan r) <=? o) && (o <=? send (rspan r)) = true <-> ~ o < sstart (rspan r) /\ ~ send (rspan r) < o) by (intros; rewrite andb_true_iff, !N.leb_le; lia).
    pose proof (token_at_ok N.lt (fun r => sstart (rspan r)) (fun r => send (rspan r)) (fun r => sstart (rspan r) =? send (rspan r)) (fun o r => (sstart (rspan r) <=? o) && (o <=? send (rspan r)))
      N.lt_irrefl N.lt_trans N.lt_trichotomy S1 S2 o r HC) as HT. cbv beta in HT. rewrite HT; [|unfold RedProofs.le; lia|unfold RedProofs.le; lia|congruence].
    pose proof (answer_some N.lt (fun r => sstart (rspan r)) (fun r => send (rspan r)) (fun r => sstart (rspan r) =? send (rspan r)) (fun o r => (sstart (rspan r) <=? o) && (o <=? send (rspan r)))
      N.lt_irrefl N.lt_trans N.lt_trichotomy S1 S2 o r HC) as HA. cbv beta in HA. destruct HA as (A1 & A2 & A3); [unfold RedProofs.le; lia|unfold RedProofs.le; lia|].
    change (filter (at_offset o) (tokens r)) with (touch (fun r => sstart (rspan r) =? send (rspan r)) (fun o r => (sstart (rspan r) <=? o) && (o <=? send (rspan r))) o (tokens r)).
    destruct (touch _ _ o (tokens r)) as [|a [|b [|c l]]]; cbn [answer] in *; [split; [reflexivity|tauto]|reflexivity|exact (conj eq_refl (A3 a b eq_refl))|congruence].
  - intros o H1 H2. pose proof (contiguous_positions seg g r HB HR) as HC. unfold token_at_position. apply leb_spec in H1, H2.
    assert (S1 : forall r, range_is_empty (rrange seg r) = true <-> rstart (rrange seg r) = rend (rrange seg r)).
    { intros x. unfold range_is_empty. rewrite andb_true_iff, !N.eqb_eq. destruct (rstart (rrange seg x)), (rend (rrange seg x)). cbn. split; [intros [-> ->]; reflexivity|intros E; injection E as -> ->; auto]. }
    assert (S2 : forall o r, pos_leb (rstart (rrange seg r)) o && pos_leb o (rend (rrange seg r)) = true <-> ~ pos_lt o (rstart (rrange seg r)) /\ ~ pos_lt (rend (rrange seg r)) o).
    { intros. unfold pos_lt. rewrite andb_true_iff, !not_false_iff_true. reflexivity. }
    assert (L1 : forall a, ~ pos_lt a a) by (intros a; unfold pos_lt; rewrite pos_leb_refl; discriminate).
    assert (L3 : forall a b, pos_lt a b \/ a = b \/ pos_lt b a).
    { intros a b. unfold pos_lt. destruct (pos_leb b a) eqn:E1; [|auto]. destruct (pos_leb a b) eqn:E2; [|auto]. right. left. apply leb_spec in E1, E2. exact (RangeProps.le_antisym _ _ E2 E1). }
    assert (L2 : forall a b c, pos_lt a b -> pos_lt b c -> pos_lt a c).
    { intros a b c. unfold pos_lt. intros E1 E2. destruct (pos_leb c a) eqn:E; [|reflexivity]. apply not_true_iff_false in E1, E2. rewrite pos_leb_spec in *. lia. }
    assert (H1' : RedProofs.le pos_lt (rstart (rrange seg r)) o) by (unfold RedProofs.le, pos_lt; rewrite H1; discriminate).
    assert (H2' : RedProofs.le pos_lt o (rend (rrange seg r))) by (unfold RedProofs.le, pos_lt; rewrite H2; discriminate).
    pose proof (token_at_ok pos_lt (fun r => rstart (rrange seg r)) (fun r => rend (rrange seg r)) (fun r => range_is_empty (rrange seg r)) (fun o r => pos_leb (rstart (rrange seg r)) o && pos_leb o (rend (rrange seg r)))
      L1 L2 L3 S1 S2 o r HC H1' H2') as HT. cbv beta in HT. rewrite HT; [|congruence].
    pose proof (answer_some pos_lt (fun r => rstart (rrange seg r)) (fun r => rend (rrange seg r)) (fun r => range_is_empty (rrange seg r)) (fun o r => pos_leb (rstart (rrange seg r)) o && pos_leb o (rend (rrange seg r)))
      L1 L2 L3 S1 S2 o r HC H1' H2') as (A1 & A2 & A3). cbv beta in A1, A3.
    change (filter (at_position seg o) (tokens r)) with (touch (fun r => range_is_empty (rrange seg r)) (fun o r => pos_leb (rstart (rrange seg r)) o && pos_leb o (rend (rrange seg r))) o (tokens r)).
    destruct (touch _ _ o (tokens r)) as [|a [|b [|c l]]]; cbn [answer] in *; [split; [reflexivity|tauto]|reflexivity|exact (conj eq_refl (A3 a b eq_refl))|congruence].
Qed.
Print Assumptions C45_token_at.

(** The tree of a document with a header, a comment and two lines. *)
Definition small_doc : str := lit "[t]" ++ [10] ++ lit "a=1 # c" ++ [10] ++ lit "b=2".
Definition small : green := match parse seg1 10 small_doc with Done (t, _) => green_of seg1 t | _ => GTok EOF [] end.
Example C45_example :
  built seg1 small /\ gtext small = small_doc /\ is_node (new_root small) = true /\
  forallb (fun x => negb (is_node x) || negb (Nat.eqb (List.length (kids x)) 0)) (all (new_root small)) = true /\
  map rtext (tokens (new_root small)) = [lit "["; lit "t"; lit "]"; [10]; lit "a"; lit "="; lit "1"; lit " "; lit "# c"; [10]; lit "b"; lit "="; lit "2"] /\
  option_map (fun t => match t with Between a b => (rtext a, rtext b) | _ => ([], []) end) (token_at_position seg1 (new_root small) (Pos 1 2)) = Some (lit "=", lit "1") /\
  option_map (fun t => match t with Single a => rtext a | _ => [] end) (token_at_offset (new_root small) 10) = Some (lit "# c").
Proof. split; [unfold small; destruct (parse seg1 10 small_doc) as [[t es]| | |]; try constructor; apply green_of_built|]. vm_compute. repeat split; reflexivity. Qed.
