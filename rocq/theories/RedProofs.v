(** * Red trees: what their functions compute *)
From Coq Require Import List NArith Bool Arith Lia.
From Verif Require Import Base SyntaxKind TextModel ParserModel GreenModel GreenProps RedModel.
Import ListNotations.
Open Scope N_scope.
Open Scope list_scope.

(** the children with their places *)
Definition kids (r : red) : list red := map (fun c => rchild r (fst c) (snd c)) (enumerate (raw r)).
Fixpoint green_size (g : green) : nat := match g with GTok _ _ => 1%nat | GNode _ _ _ cs => S (fold_right (fun c n => (green_size (snd c) + n)%nat) 0%nat cs) end.
Lemma kid_size r c : In c (kids r) -> (green_size (rgreen c) < green_size (rgreen r))%nat.
Proof.
  unfold kids, enumerate. intros H. apply in_map_iff in H as ([i x] & <- & H). cbn [fst snd rchild rgreen]. unfold raw in H. destruct (rgreen r) as [|k l p cs]; cbn [gchildren_raw] in H; [destruct H|].
  cbn [green_size]. assert (HI : In x cs). { revert H. generalize 0%nat. induction cs as [|y cs IH]; intros n H; [destruct H|]. cbn [enumerate_from In] in H. destruct H as [H|H]; [injection H as _ ->; left; reflexivity|right; exact (IH _ H)]. }
  clear H. unfold as_ref. induction cs as [|y cs IH]; [destruct HI|]. cbn [fold_right]. destruct HI as [-> |HI]; [lia|]. specialize (IH HI). lia.
Qed.
Lemma red_ind_kids (P : red -> Prop) : (forall r, (forall c, In c (kids r) -> P c) -> P r) -> forall r, P r.
Proof.
  intros H. assert (HN : forall n r, (green_size (rgreen r) < n)%nat -> P r).
  { induction n as [|n IH]; intros r Hn; [lia|]. apply H. intros c Hc. apply IH. pose proof (kid_size r c Hc). lia. }
  intros r. apply (HN (S (green_size (rgreen r)))). lia.
Qed.
Lemma enumerate_length {A} (l : list A) : forall n, List.length (enumerate_from n l) = List.length l.
Proof. induction l as [|x l IH]; intros n; [reflexivity|]. cbn [enumerate_from List.length]. rewrite IH. reflexivity. Qed.
Lemma enumerate_nth {A} (l : list A) : forall n i, nth_error (enumerate_from n l) i = match nth_error l i with Some x => Some ((n + i)%nat, x) | None => None end.
Proof. induction l as [|x l IH]; intros n [|i]; cbn [enumerate_from nth_error]; try reflexivity; [rewrite Nat.add_0_r; reflexivity|]. rewrite IH. destruct (nth_error l i); [|reflexivity]. do 2 f_equal. lia. Qed.
Lemma kids_length r : List.length (kids r) = List.length (raw r).
Proof. unfold kids, enumerate. rewrite map_length. apply enumerate_length. Qed.
Lemma kids_nth r i : nth_error (kids r) i = match nth_error (raw r) i with Some c => Some (rchild r i c) | None => None end.
Proof. unfold kids, enumerate. rewrite nth_error_map, enumerate_nth. destruct (nth_error (raw r) i); reflexivity. Qed.
Lemma kid_inv r c : In c (kids r) -> rparent c = Some r /\ nth_error (kids r) (rindex c) = Some c.
Proof.
  intros H. apply In_nth_error in H as (i & H). pose proof H as H'. rewrite kids_nth in H'. destruct (nth_error (raw r) i) as [x|] eqn:E; [|discriminate]. injection H' as <-.
  split; [reflexivity|]. exact H.
Qed.
Lemma token_kids r : is_node r = false -> kids r = [].
Proof. unfold is_node, kids, raw. destruct (rgreen r); [reflexivity|discriminate]. Qed.
Lemma find_kids r l : child_of r (find green_is_node l) = find is_node (map (fun c => rchild r (fst c) (snd c)) l).
Proof. induction l as [|[i c] l IH]; [reflexivity|]. cbn [find map]. unfold green_is_node at 1, is_node at 1. cbn [snd rgreen rchild fst]. destruct (as_ref c); [exact IH|reflexivity]. Qed.
Lemma first_child_kids r : first_child r = find is_node (kids r).
Proof. apply find_kids. Qed.
Lemma last_child_kids r : last_child r = find is_node (rev (kids r)).
Proof. unfold last_child, kids. rewrite <- map_rev. apply find_kids. Qed.
Lemma nth_child r l i : child_of r (nth_error l i) = nth_error (map (fun c => rchild r (fst c) (snd c)) l) i.
Proof. rewrite nth_error_map. destruct (nth_error l i) as [[j c]|]; reflexivity. Qed.
Lemma first_child_or_token_kids r : first_child_or_token r = nth_error (kids r) 0.
Proof. apply nth_child. Qed.
Lemma last_child_or_token_kids r : last_child_or_token r = nth_error (rev (kids r)) 0.
Proof. unfold last_child_or_token, kids. rewrite <- map_rev. apply nth_child. Qed.
Lemma skipn_map {A B} (f : A -> B) l : forall n, skipn n (map f l) = map f (skipn n l).
Proof. induction l as [|x l IH]; intros [|n]; try reflexivity. apply IH. Qed.
Section kid.
Context (p r : red) (H : rparent r = Some p).
Lemma next_kids : next_sibling r = find is_node (skipn (S (rindex r)) (kids p)).
Proof. unfold next_sibling, child_of_parent, green_siblings. rewrite H. unfold kids. rewrite skipn_map. apply find_kids. Qed.
Lemma next_or_token_kids : next_sibling_or_token r = nth_error (kids p) (S (rindex r)).
Proof. unfold next_sibling_or_token, child_of_parent, green_siblings. rewrite H. apply nth_child. Qed.
Lemma prev_or_token_kids : prev_sibling_or_token r = match rindex r with O => None | S i => nth_error (kids p) i end.
Proof. unfold prev_sibling_or_token, child_of_parent, green_siblings. rewrite H. destruct (rindex r); [reflexivity|]. apply nth_child. Qed.
Lemma prev_kids : (rindex r < List.length (kids p))%nat -> prev_sibling r = find is_node (rev (firstn (rindex r) (kids p))).
Proof.
  intros HL. unfold prev_sibling, child_of_parent, green_siblings. rewrite H. rewrite kids_length in HL. rewrite rev_length. unfold enumerate at 1. rewrite enumerate_length.
  replace (S (rindex r) <=? List.length (raw p))%nat with true by (symmetry; apply Nat.leb_le; lia). rewrite find_kids. f_equal.
  rewrite <- skipn_map, map_rev. fold (kids p). unfold enumerate. rewrite enumerate_length. replace (S (List.length (raw p) - S (rindex r))) with (List.length (kids p) - rindex r)%nat by (rewrite kids_length; lia).
  rewrite skipn_rev. f_equal. f_equal. rewrite kids_length. lia.
Qed.
End kid.
Lemma no_parent r : rparent r = None -> next_sibling r = None /\ prev_sibling r = None /\ next_sibling_or_token r = None /\ prev_sibling_or_token r = None.
Proof.
  intros H. unfold next_sibling, prev_sibling, next_sibling_or_token, prev_sibling_or_token, child_of_parent, green_siblings. rewrite H. repeat split; try reflexivity. destruct (rindex r); reflexivity.
Qed.

(** ** All elements *)
Fixpoint all_in (g : green) (r : red) : list red :=
  r :: match g with
       | GTok _ _ => []
       | GNode _ _ _ cs => (fix go i cs := match cs with [] => [] | c :: cs => all_in (snd c) (rchild r i c) ++ go (S i) cs end) 0%nat cs
       end.
(** the element and everything below it, in document order *)
Definition all (r : red) : list red := all_in (rgreen r) r.
Definition tokens (r : red) : list red := filter (fun x => negb (is_node x)) (all r).
Lemma all_kids r : all r = r :: flat_map all (kids r).
Proof.
  unfold all at 1, kids, raw, enumerate. destruct (rgreen r) as [k t|k l p cs]; cbn [all_in gchildren_raw]; [reflexivity|]. f_equal.
  generalize 0%nat. induction cs as [|c cs IH]; intros n; [reflexivity|]. cbn [enumerate_from map flat_map fst snd]. rewrite IH. reflexivity.
Qed.
Lemma filter_flat_map {A B} (f : B -> bool) (g : A -> list B) l : filter f (flat_map g l) = flat_map (fun x => filter f (g x)) l.
Proof. induction l as [|x l IH]; [reflexivity|]. cbn [flat_map]. rewrite filter_app, IH. reflexivity. Qed.
Lemma tokens_kids r : tokens r = if is_node r then flat_map tokens (kids r) else [r].
Proof.
  unfold tokens at 1. rewrite all_kids. cbn [filter]. destruct (is_node r) eqn:E; cbn [negb].
  - apply filter_flat_map.
  - rewrite (token_kids r E). reflexivity.
Qed.
Fixpoint events_in (g : green) (r : red) : list event :=
  Enter r :: match g with
             | GTok _ _ => []
             | GNode _ _ _ cs => (fix go i cs := match cs with [] => [] | c :: cs => events_in (snd c) (rchild r i c) ++ go (S i) cs end) 0%nat cs
             end ++ [Leave r].
Definition events (r : red) : list event := events_in (rgreen r) r.
Lemma events_kids r : events r = Enter r :: flat_map events (kids r) ++ [Leave r].
Proof.
  unfold events at 1, kids, raw, enumerate. destruct (rgreen r) as [k t|k l p cs]; cbn [events_in gchildren_raw]; [reflexivity|]. f_equal. f_equal.
  generalize 0%nat. induction cs as [|c cs IH]; intros n; [reflexivity|]. cbn [enumerate_from map flat_map fst snd]. rewrite IH. reflexivity.
Qed.
Definition node_event (e : event) : bool := match e with Enter r => is_node r | Leave r => is_node r end.
(** the same without tokens *)
Definition node_events (r : red) : list event := filter node_event (events r).
Lemma node_events_kids r : is_node r = true -> node_events r = Enter r :: flat_map node_events (filter is_node (kids r)) ++ [Leave r].
Proof.
  intros H. unfold node_events at 1. rewrite events_kids. cbn [filter node_event]. rewrite H. f_equal. rewrite filter_app. cbn [filter node_event]. rewrite H. f_equal.
  rewrite filter_flat_map. induction (kids r) as [|c l IH]; [reflexivity|]. cbn [flat_map filter]. fold (node_events c). rewrite IH. destruct (is_node c) eqn:E; [reflexivity|].
  unfold node_events at 1. rewrite events_kids, (token_kids c E). cbn [flat_map app filter node_event]. rewrite E. reflexivity.
Qed.

(** ** Iterators *)
Lemma collect_mono {A} (next : A -> option A) : forall n x l, collect next n x = Some l -> collect next (S n) x = Some l.
Proof.
  induction n as [|n IH]; intros x l H; [discriminate|]. cbn [collect] in *. destruct x as [x|]; [|exact H]. destruct (collect next n (next x)) as [l'|] eqn:E; [|discriminate].
  specialize (IH _ _ E). cbn [collect] in IH. rewrite IH. exact H.
Qed.
Lemma collect_more {A} (next : A -> option A) n x l : collect next n x = Some l -> forall m, (n <= m)%nat -> collect next m x = Some l.
Proof. intros H m HM. induction HM as [|m HM IH]; [exact H|]. apply collect_mono. exact IH. Qed.
Lemma collect_app {A} (next : A -> option A) : forall l x y rest n, collect next n y = Some rest ->
  (forall z, hd_error l = Some z -> x = Some z) -> (l = [] -> x = y) ->
  (forall a b l1 l2, l = l1 ++ a :: b :: l2 -> next a = Some b) -> (forall a l1, l = l1 ++ [a] -> next a = y) -> collect next (List.length l + n) x = Some (l ++ rest).
Proof.
  induction l as [|a l IH]; intros x y rest n HC H1 H2 H3 H4.
  - rewrite (H2 eq_refl). exact HC.
  - rewrite (H1 a eq_refl). cbn [List.length Nat.add collect]. rewrite (IH (next a) y rest n HC).
    + reflexivity.
    + intros z Hz. destruct l as [|b l]; [discriminate|]. injection Hz as <-. exact (H3 a b [] l eq_refl).
    + intros ->. exact (H4 a [] eq_refl).
    + intros b c l1 l2 ->. exact (H3 b c (a :: l1) l2 eq_refl).
    + intros b l1 ->. exact (H4 b (a :: l1) eq_refl).
Qed.
Lemma nth_split_next {A} (l1 : list A) a b l2 : nth_error (l1 ++ a :: b :: l2) (S (List.length l1)) = Some b.
Proof. rewrite nth_error_app2 by lia. replace (S (List.length l1) - List.length l1)%nat with 1%nat by lia. reflexivity. Qed.
Lemma kids_split r l1 c l2 : kids r = l1 ++ c :: l2 -> rparent c = Some r /\ rindex c = List.length l1.
Proof.
  intros H. assert (HN : nth_error (kids r) (List.length l1) = Some c) by (rewrite H, nth_error_app2, Nat.sub_diag by lia; reflexivity).
  rewrite kids_nth in HN. destruct (nth_error (raw r) (List.length l1)); [|discriminate]. injection HN as <-. auto.
Qed.
Lemma children_with_tokens_ok r n : (List.length (kids r) < n)%nat -> children_with_tokens n r = Some (kids r).
Proof.
  intros HN. unfold children_with_tokens. apply (collect_more _ (List.length (kids r) + 1)); [|lia]. rewrite <- (app_nil_r (kids r)) at 2.
  apply (collect_app _ _ _ None [] 1 eq_refl).
  - intros z Hz. rewrite first_child_or_token_kids. destruct (kids r); [discriminate|exact Hz].
  - intros H. rewrite first_child_or_token_kids, H. reflexivity.
  - intros a b l1 l2 H. destruct (kids_split r l1 a (b :: l2) H) as [HP HI]. rewrite (next_or_token_kids r a HP), HI, H. apply nth_split_next.
  - intros a l1 H. destruct (kids_split r l1 a [] H) as [HP HI]. rewrite (next_or_token_kids r a HP), HI, H. apply nth_error_None. rewrite app_length. cbn. lia.
Qed.
Lemma find_filter {A} (f : A -> bool) l : find f l = hd_error (filter f l).
Proof. induction l as [|x l IH]; [reflexivity|]. cbn [find filter]. destruct (f x); [reflexivity|exact IH]. Qed.
Lemma filter_split {A} (f : A -> bool) : forall l l1 a l2, filter f l = l1 ++ a :: l2 -> exists m1 m2, l = m1 ++ a :: m2 /\ filter f m2 = l2 /\ filter f m1 = l1.
Proof.
  induction l as [|x l IH]; intros l1 a l2 H; [destruct l1; discriminate|]. cbn [filter] in H. destruct (f x) eqn:E.
  - destruct l1 as [|y l1]; injection H as <- H.
    + exists [], l. auto.
    + destruct (IH _ _ _ H) as (m1 & m2 & -> & H2 & H1). exists (x :: m1), m2. cbn [filter]. rewrite E, H1. auto.
  - destruct (IH _ _ _ H) as (m1 & m2 & -> & H2 & H1). exists (x :: m1), m2. cbn [filter]. rewrite E. auto.
Qed.
Lemma skipn_split {A} (l1 : list A) a l2 : skipn (S (List.length l1)) (l1 ++ a :: l2) = l2.
Proof. induction l1 as [|x l1 IH]; [reflexivity|exact IH]. Qed.
Lemma next_node_kids r l1 a l2 : filter is_node (kids r) = l1 ++ a :: l2 -> next_sibling a = hd_error l2.
Proof.
  intros H. apply filter_split in H as (m1 & m2 & HK & H2 & H1). destruct (kids_split r m1 a m2 HK) as [HP HI]. rewrite (next_kids r a HP), HI, HK, skipn_split, find_filter, H2. reflexivity.
Qed.
Lemma children_ok r n : (List.length (filter is_node (kids r)) < n)%nat -> children n r = Some (filter is_node (kids r)).
Proof.
  intros HN. unfold children. apply (collect_more _ (List.length (filter is_node (kids r)) + 1)); [|lia]. rewrite <- (app_nil_r (filter is_node (kids r))) at 2.
  apply (collect_app _ _ _ None [] 1 eq_refl).
  - intros z Hz. rewrite first_child_kids, find_filter. exact Hz.
  - intros H. rewrite first_child_kids, find_filter, H. reflexivity.
  - intros a b l1 l2 H. rewrite (next_node_kids r l1 a (b :: l2) H). reflexivity.
  - intros a l1 H. rewrite (next_node_kids r l1 a [] H). reflexivity.
Qed.

(** ** Walks *)
Section walk.
Context (same : red -> red -> bool) (HS : forall a b, same a b = true -> rgreen a = rgreen b) (HR : forall a, same a a = true).
Lemma kid_not_same start r c : (green_size (rgreen r) <= green_size (rgreen start))%nat -> In c (kids r) -> same c start = false.
Proof. intros H HC. destruct (same c start) eqn:E; [|reflexivity]. apply HS in E. pose proof (kid_size r c HC). rewrite E in *. lia. Qed.
Lemma walk_all start r : (green_size (rgreen r) <= green_size (rgreen start))%nat ->
  forall n rest, collect (walk_tokens_step same start) n (walk_tokens_step same start (Leave r)) = Some rest ->
  collect (walk_tokens_step same start) (List.length (events r) + n) (Some (Enter r)) = Some (events r ++ rest).
Proof.
  revert r. apply (red_ind_kids (fun r => (green_size (rgreen r) <= green_size (rgreen start))%nat -> forall n rest,
    collect (walk_tokens_step same start) n (walk_tokens_step same start (Leave r)) = Some rest ->
    collect (walk_tokens_step same start) (List.length (events r) + n) (Some (Enter r)) = Some (events r ++ rest))).
  intros r IH HSz n rest HC. rewrite events_kids. cbn [app]. rewrite <- app_assoc. cbn [app List.length Nat.add collect].
  rewrite app_length, Nat.add_comm with (n := List.length _), <- Nat.add_assoc. cbn [List.length].
  assert (HL : forall l2 l1, kids r = l1 ++ l2 ->
    collect (walk_tokens_step same start) (List.length (flat_map events l2) + (1 + n)) (match l2 with [] => Some (Leave r) | c :: _ => Some (Enter c) end)
    = Some (flat_map events l2 ++ Leave r :: rest)).
  { induction l2 as [|c l2 IHl]; intros l1 HK; [cbn [flat_map app List.length Nat.add collect]; rewrite HC; reflexivity|].
    cbn [flat_map]. rewrite app_length, <- Nat.add_assoc, <- app_assoc.
    assert (HIn : In c (kids r)) by (rewrite HK; apply in_app_iff; right; left; reflexivity).
    apply (IH c HIn); [pose proof (kid_size r c HIn); lia|]. specialize (IHl (l1 ++ [c])). rewrite <- app_assoc in IHl. specialize (IHl HK). rewrite <- IHl. f_equal.
    cbn [walk_tokens_step]. rewrite (kid_not_same start r c HSz HIn). destruct (kids_split r l1 c l2 HK) as [HP HI]. rewrite (next_or_token_kids r c HP), HI, HK.
    destruct l2 as [|d l2]; [|rewrite nth_split_next; reflexivity]. rewrite (proj2 (nth_error_None _ _)) by (rewrite app_length; cbn; lia). rewrite HP. reflexivity. }
  specialize (HL (kids r) [] eq_refl). replace (1 + (List.length (flat_map events (kids r)) + n))%nat with (List.length (flat_map events (kids r)) + (1 + n))%nat by lia.
  rewrite <- (Nat.add_comm 1) || idtac. replace (walk_tokens_step same start (Enter r)) with (match kids r with [] => Some (Leave r) | c :: _ => Some (Enter c) end).
  - rewrite HL. reflexivity.
  - cbn [walk_tokens_step]. destruct (is_node r) eqn:E; [|rewrite (token_kids r E); reflexivity]. rewrite first_child_or_token_kids. destruct (kids r); reflexivity.
Qed.
Lemma walk_nodes start r : is_node r = true -> (green_size (rgreen r) <= green_size (rgreen start))%nat ->
  forall n rest, collect (walk_step same start) n (walk_step same start (Leave r)) = Some rest ->
  collect (walk_step same start) (List.length (node_events r) + n) (Some (Enter r)) = Some (node_events r ++ rest).
Proof.
  revert r. apply (red_ind_kids (fun r => is_node r = true -> (green_size (rgreen r) <= green_size (rgreen start))%nat -> forall n rest,
    collect (walk_step same start) n (walk_step same start (Leave r)) = Some rest ->
    collect (walk_step same start) (List.length (node_events r) + n) (Some (Enter r)) = Some (node_events r ++ rest))).
  intros r IH HNode HSz n rest HC. rewrite (node_events_kids r HNode). cbn [app]. rewrite <- app_assoc. cbn [app List.length Nat.add collect].
  rewrite app_length. cbn [List.length].
  assert (HL : forall l2 l1, filter is_node (kids r) = l1 ++ l2 ->
    collect (walk_step same start) (List.length (flat_map node_events l2) + (1 + n)) (match l2 with [] => Some (Leave r) | c :: _ => Some (Enter c) end)
    = Some (flat_map node_events l2 ++ Leave r :: rest)).
  { induction l2 as [|c l2 IHl]; intros l1 HK; [cbn [flat_map app List.length Nat.add collect]; rewrite HC; reflexivity|].
    cbn [flat_map]. rewrite app_length, <- Nat.add_assoc, <- app_assoc.
    assert (HIn : In c (filter is_node (kids r))) by (rewrite HK; apply in_app_iff; right; left; reflexivity). apply filter_In in HIn as [HIn HCN].
    apply (IH c HIn HCN); [pose proof (kid_size r c HIn); lia|]. specialize (IHl (l1 ++ [c])). rewrite <- app_assoc in IHl. specialize (IHl HK). rewrite <- IHl. f_equal.
    cbn [walk_step]. rewrite (kid_not_same start r c HSz HIn). rewrite (next_node_kids r l1 c l2 HK). destruct l2 as [|d l2]; [|reflexivity]. cbn [hd_error]. rewrite (proj1 (kid_inv r c HIn)). reflexivity. }
  specialize (HL (filter is_node (kids r)) [] eq_refl). replace (List.length (flat_map node_events (filter is_node (kids r))) + 1 + n)%nat with (List.length (flat_map node_events (filter is_node (kids r))) + (1 + n))%nat by lia.
  replace (walk_step same start (Enter r)) with (match filter is_node (kids r) with [] => Some (Leave r) | c :: _ => Some (Enter c) end).
  - rewrite HL. reflexivity.
  - cbn [walk_step]. rewrite first_child_kids, find_filter. destruct (filter is_node (kids r)); reflexivity.
Qed.
Lemma preorder_with_tokens_ok r n : (List.length (events r) < n)%nat -> preorder_with_tokens same n r = Some (events r).
Proof.
  intros H. unfold preorder_with_tokens. apply (collect_more _ (List.length (events r) + 1)); [|lia]. rewrite (walk_all r r (le_n _) 1 []); [rewrite app_nil_r; reflexivity|].
  cbn [walk_tokens_step]. rewrite HR. reflexivity.
Qed.
Lemma preorder_ok r n : is_node r = true -> (List.length (node_events r) < n)%nat -> preorder same n r = Some (node_events r).
Proof.
  intros HN H. unfold preorder. apply (collect_more _ (List.length (node_events r) + 1)); [|lia]. rewrite (walk_nodes r r HN (le_n _) 1 []); [rewrite app_nil_r; reflexivity|].
  cbn [walk_step]. rewrite HR. reflexivity.
Qed.
End walk.
Lemma entered_events r : entered (events r) = all r.
Proof.
  apply (red_ind_kids (fun r => entered (events r) = all r)). clear r. intros r IH. rewrite events_kids, all_kids. cbn [entered flat_map app]. f_equal. unfold entered. rewrite flat_map_app. cbn [flat_map]. rewrite app_nil_r.
  induction (kids r) as [|c l IHl]; [reflexivity|]. cbn [flat_map]. rewrite flat_map_app. rewrite IHl by (intros x Hx; apply IH; right; exact Hx). f_equal. apply IH. left. reflexivity.
Qed.
Lemma entered_nodes l : entered (filter node_event l) = filter is_node (entered l).
Proof. induction l as [|[r|r] l IH]; [reflexivity| |]; cbn [filter node_event entered flat_map]; destruct (is_node r) eqn:E; cbn [entered flat_map app filter]; rewrite ?E; unfold entered in IH |- *; rewrite ?IH; reflexivity. Qed.

(** ** Places *)
Inductive valid (g : green) : red -> Prop :=
  | valid_root : valid g (new_root g)
  | valid_kid r c : valid g r -> In c (kids r) -> valid g c.
Lemma valid_all g r : valid g r <-> In r (all (new_root g)).
Proof.
  split.
  - assert (HT : forall s r, In r (all s) -> forall c, In c (kids r) -> In c (all s)).
    { apply (red_ind_kids (fun s => forall r, In r (all s) -> forall c, In c (kids r) -> In c (all s))). intros s IH x Hx c Hc. rewrite all_kids in *. right. destruct Hx as [<- |Hx].
      - apply in_flat_map. exists c. split; [exact Hc|]. rewrite all_kids. left. reflexivity.
      - apply in_flat_map in Hx as (y & Hy & Hx). apply in_flat_map. exists y. split; [exact Hy|]. exact (IH y Hy x Hx c Hc). }
    induction 1 as [|r c HV IH HC]; [rewrite all_kids; left; reflexivity|]. exact (HT _ _ IH _ HC).
  - assert (HT : forall s, valid g s -> forall r, In r (all s) -> valid g r).
    { apply (red_ind_kids (fun s => valid g s -> forall r, In r (all s) -> valid g r)). intros s IH HV x Hx. rewrite all_kids in Hx. destruct Hx as [<- |Hx]; [exact HV|].
      apply in_flat_map in Hx as (y & Hy & Hx). exact (IH y Hy (valid_kid g s y HV Hy) x Hx). }
    apply HT. constructor.
Qed.
Lemma valid_parent g r p : valid g r -> rparent r = Some p -> valid g p /\ In r (kids p).
Proof. intros H HP. destruct H as [|q c HV HC]; [discriminate|]. destruct (kid_inv q c HC) as [E _]. rewrite E in HP. injection HP as <-. auto. Qed.
Lemma find_valid g p l x f : valid g p -> incl l (kids p) -> find f l = Some x -> valid g x.
Proof. intros HV HI H. apply find_some in H as [H _]. apply (valid_kid g p x HV). apply HI. exact H. Qed.
Lemma skipn_incl {A} n (l : list A) : incl (skipn n l) l.
Proof. intros x H. rewrite <- (firstn_skipn n l). apply in_app_iff. right. exact H. Qed.
Lemma firstn_incl {A} n (l : list A) : incl (firstn n l) l.
Proof. intros x H. rewrite <- (firstn_skipn n l). apply in_app_iff. left. exact H. Qed.
Lemma nth_incl {A} (l : list A) i x : nth_error l i = Some x -> In x l.
Proof. apply nth_error_In. Qed.
Lemma valid_next g r x : valid g r -> next_sibling r = Some x -> valid g x.
Proof.
  intros HV H. destruct (rparent r) as [p|] eqn:HP; [|rewrite (proj1 (no_parent r HP)) in H; discriminate]. rewrite (next_kids p r HP) in H.
  exact (find_valid g p _ x _ (proj1 (valid_parent g r p HV HP)) (skipn_incl _ _) H).
Qed.
Lemma kid_index p r : In r (kids p) -> (rindex r < List.length (kids p))%nat.
Proof. intros H. destruct (kid_inv p r H) as [_ HN]. apply nth_error_Some. rewrite HN. discriminate. Qed.
Lemma valid_prev g r x : valid g r -> prev_sibling r = Some x -> valid g x.
Proof.
  intros HV H. destruct (rparent r) as [p|] eqn:HP; [|rewrite (proj1 (proj2 (no_parent r HP))) in H; discriminate]. destruct (valid_parent g r p HV HP) as [HVP HIn].
  rewrite (prev_kids p r HP (kid_index p r HIn)) in H. refine (find_valid g p _ x _ HVP _ H). intros y Hy. apply in_rev in Hy. exact (firstn_incl _ _ y Hy).
Qed.
Lemma valid_next_token g r x : valid g r -> next_sibling_or_token r = Some x -> valid g x.
Proof.
  intros HV H. destruct (rparent r) as [p|] eqn:HP; [|rewrite (proj1 (proj2 (proj2 (no_parent r HP)))) in H; discriminate]. rewrite (next_or_token_kids p r HP) in H.
  exact (valid_kid g p x (proj1 (valid_parent g r p HV HP)) (nth_incl _ _ _ H)).
Qed.
Lemma valid_prev_token g r x : valid g r -> prev_sibling_or_token r = Some x -> valid g x.
Proof.
  intros HV H. destruct (rparent r) as [p|] eqn:HP; [|rewrite (proj2 (proj2 (proj2 (no_parent r HP)))) in H; discriminate]. rewrite (prev_or_token_kids p r HP) in H. destruct (rindex r) as [|i]; [discriminate|].
  exact (valid_kid g p x (proj1 (valid_parent g r p HV HP)) (nth_incl _ _ _ H)).
Qed.
Lemma valid_child g r x : valid g r -> first_child r = Some x \/ last_child r = Some x \/ first_child_or_token r = Some x \/ last_child_or_token r = Some x -> valid g x.
Proof.
  intros HV [H|[H|[H|H]]].
  - rewrite first_child_kids in H. exact (find_valid g r _ x _ HV (incl_refl _) H).
  - rewrite last_child_kids in H. refine (find_valid g r _ x _ HV _ H). intros y Hy. apply in_rev. exact Hy.
  - rewrite first_child_or_token_kids in H. exact (valid_kid g r x HV (nth_incl _ _ _ H)).
  - rewrite last_child_or_token_kids in H. apply (valid_kid g r x HV). apply nth_incl in H. apply in_rev. exact H.
Qed.
(** [first_token] and [last_token] through the children *)
Lemma first_token_kids r : first_token r = if is_node r then match kids r with [] => None | c :: _ => first_token c end else Some r.
Proof. unfold first_token, is_node, kids, raw, enumerate. destruct (rgreen r) as [k t|k l p [|c cs]]; reflexivity. Qed.
Fixpoint last_of {A} (l : list A) : option A := match l with [] => None | x :: l => match l with [] => Some x | _ => last_of l end end.
Lemma last_token_kids r : last_token r = if is_node r then match last_of (kids r) with None => None | Some c => last_token c end else Some r.
Proof.
  unfold last_token at 1, is_node, kids, raw, enumerate. destruct (rgreen r) as [k t|k l p cs]; [reflexivity|]. cbn [last_token_in gchildren_raw].
  generalize 0%nat. induction cs as [|c cs IH]; intros n; [reflexivity|]. cbn [enumerate_from map last_of]. destruct cs as [|d cs]; [reflexivity|]. rewrite IH. reflexivity.
Qed.
Lemma last_of_in {A} (l : list A) x : last_of l = Some x -> In x l.
Proof. induction l as [|y l IH]; [discriminate|]. cbn [last_of]. destruct l; [intros H; injection H as ->; left; reflexivity|]. intros H. right. apply IH. exact H. Qed.
Lemma valid_first_token g r : valid g r -> forall x, first_token r = Some x \/ last_token r = Some x -> valid g x.
Proof.
  revert r. apply (red_ind_kids (fun r => valid g r -> forall x, first_token r = Some x \/ last_token r = Some x -> valid g x)). intros r IH HV x H.
  rewrite first_token_kids, last_token_kids in H. destruct (is_node r); [|destruct H as [H|H]; injection H as <-; exact HV]. destruct H as [H|H].
  - destruct (kids r) as [|c l] eqn:E; [discriminate|]. apply (IH c); [left; reflexivity| |left; exact H]. apply (valid_kid g r c HV). rewrite E. left. reflexivity.
  - destruct (last_of (kids r)) as [c|] eqn:E; [|discriminate]. apply last_of_in in E. apply (IH c E); [exact (valid_kid g r c HV E)|right; exact H].
Qed.
Lemma ancestors_unfold r : ancestors r = r :: match rparent r with Some p => ancestors p | None => [] end.
Proof. destruct r; reflexivity. Qed.
Lemma valid_ancestors g : forall r, valid g r -> Forall (valid g) (ancestors r).
Proof.
  intros r H. induction H as [|r c HV IH HC].
  - rewrite ancestors_unfold. cbn. constructor; [constructor|constructor].
  - rewrite ancestors_unfold, (proj1 (kid_inv r c HC)). constructor; [exact (valid_kid g r c HV HC)|exact IH].
Qed.
Lemma find_map_some {A B} (f : A -> option B) l y : find_map f l = Some y -> exists x, In x l /\ f x = Some y.
Proof. induction l as [|x l IH]; [discriminate|]. cbn [find_map]. destruct (f x) eqn:E; [intros H; injection H as ->; exists x; split; [left; reflexivity|exact E]|]. intros H. destruct (IH H) as (z & Hz & Hf). exists z. split; [right; exact Hz|exact Hf]. Qed.
Lemma valid_next_prev_token g t x : valid g t -> next_token t = Some x \/ prev_token t = Some x -> valid g x.
Proof.
  intros HV. assert (HA : Forall (valid g) (token_ancestors t)).
  { unfold token_ancestors. destruct (rparent t) as [p|] eqn:HP; [|constructor]. apply valid_ancestors. exact (proj1 (valid_parent g t p HV HP)). }
  rewrite Forall_forall in HA. unfold next_token, prev_token. intros [H|H].
  - destruct (next_sibling_or_token t) as [e|] eqn:E; [exact (valid_first_token g e (valid_next_token g t e HV E) x (or_introl H))|].
    destruct (find_map next_sibling_or_token _) as [e|] eqn:E2; [|discriminate]. apply find_map_some in E2 as (y & Hy & Hn). exact (valid_first_token g e (valid_next_token g y e (HA y Hy) Hn) x (or_introl H)).
  - destruct (prev_sibling_or_token t) as [e|] eqn:E; [exact (valid_first_token g e (valid_prev_token g t e HV E) x (or_intror H))|].
    destruct (find_map prev_sibling_or_token _) as [e|] eqn:E2; [|discriminate]. apply find_map_some in E2 as (y & Hy & Hn). exact (valid_first_token g e (valid_prev_token g y e (HA y Hy) Hn) x (or_intror H)).
Qed.

(** ** What is before and after an element *)
Fixpoint before (r : red) : list red := match r with Red p i _ _ _ => match p with None => [] | Some p => before p ++ flat_map tokens (firstn i (kids p)) end end.
Fixpoint after (r : red) : list red := match r with Red p i _ _ _ => match p with None => [] | Some p => flat_map tokens (skipn (S i) (kids p)) ++ after p end end.
Lemma before_kid p c : In c (kids p) -> before c = before p ++ flat_map tokens (firstn (rindex c) (kids p)).
Proof. intros H. destruct (kid_inv p c H) as [HP _]. destruct c as [q i o ps g]. cbn [rparent] in HP. subst q. reflexivity. Qed.
Lemma after_kid p c : In c (kids p) -> after c = flat_map tokens (skipn (S (rindex c)) (kids p)) ++ after p.
Proof. intros H. destruct (kid_inv p c H) as [HP _]. destruct c as [q i o ps g]. cbn [rparent] in HP. subst q. reflexivity. Qed.
Lemma kid_at p c : In c (kids p) -> kids p = firstn (rindex c) (kids p) ++ c :: skipn (S (rindex c)) (kids p).
Proof.
  intros H. destruct (kid_inv p c H) as [_ HN]. revert HN. generalize (kids p), (rindex c). induction l as [|x l IH]; intros [|i] HN; try discriminate; cbn [firstn skipn app] in *; [injection HN as ->; reflexivity|].
  f_equal. apply IH. exact HN.
Qed.
Lemma kid_node p c : In c (kids p) -> is_node p = true.
Proof. intros H. destruct (is_node p) eqn:E; [reflexivity|]. rewrite (token_kids p E) in H. destruct H. Qed.
Lemma around g r : valid g r -> tokens (new_root g) = before r ++ tokens r ++ after r.
Proof.
  induction 1 as [|p c HV IH HC]; [cbn [before after new_root app]; rewrite app_nil_r; reflexivity|]. rewrite IH, (before_kid p c HC), (after_kid p c HC). rewrite (tokens_kids p), (kid_node p c HC).
  rewrite (kid_at p c HC) at 1. rewrite flat_map_app. cbn [flat_map]. rewrite <- !app_assoc. reflexivity.
Qed.
(** the texts *)
Definition rtext (r : red) : str := match rgreen r with GTok _ t => t | GNode _ _ _ _ => [] end.
Lemma kids_green r : map rgreen (kids r) = gchildren (rgreen r).
Proof. unfold kids, enumerate, gchildren, raw. rewrite map_map. cbn [rchild rgreen]. generalize 0%nat. induction (gchildren_raw (rgreen r)) as [|c l IH]; intros n; [reflexivity|]. cbn [enumerate_from map snd]. rewrite IH. reflexivity. Qed.
Lemma token_texts_children k l p cs : token_texts (GNode k l p cs) = flat_map token_texts (gchildren (GNode k l p cs)).
Proof. cbn [token_texts]. apply (flat_map_as_ref token_texts). Qed.
Lemma tokens_texts r : map rtext (tokens r) = token_texts (rgreen r).
Proof.
  apply (red_ind_kids (fun r => map rtext (tokens r) = token_texts (rgreen r))). clear r. intros r IH. rewrite tokens_kids. unfold is_node. destruct (rgreen r) as [k t|k l p cs] eqn:E.
  - cbn [map token_texts]. unfold rtext. rewrite E. reflexivity.
  - rewrite token_texts_children, <- E, <- kids_green. clear E. induction (kids r) as [|c l' IHl]; [reflexivity|]. cbn [flat_map map]. rewrite map_app. rewrite IHl by (intros x Hx; apply IH; right; exact Hx). f_equal. apply IH. left. reflexivity.
Qed.
Lemma tokens_texts_list l : map rtext (flat_map tokens l) = flat_map token_texts (map rgreen l).
Proof. induction l as [|x l IH]; [reflexivity|]. cbn [flat_map map]. rewrite map_app, IH, tokens_texts. reflexivity. Qed.
Section place.
Context (seg : str -> list str).
Lemma built_kid r c : built seg (rgreen r) -> In c (kids r) -> built seg (rgreen c).
Proof.
  intros HB HC. assert (HI : In (rgreen c) (gchildren (rgreen r))) by (rewrite <- kids_green; apply in_map; exact HC). destruct (rgreen r) as [|k l p cs]; [destruct HI|].
  destruct (built_children seg k l p cs HB) as [HF _]. rewrite Forall_forall in HF. apply HF. exact HI.
Qed.
Lemma valid_built g r : built seg g -> valid g r -> built seg (rgreen r).
Proof. intros HB H. induction H as [|p c HV IH HC]; [exact HB|]. exact (built_kid p c IH HC). Qed.
Lemma concat_token_texts g : built seg g -> concat (token_texts g) = gtext g.
Proof. intros H. symmetry. apply (C21_measures seg g H). Qed.
Lemma flat_texts l : Forall (built seg) l -> concat (flat_map token_texts l) = concat (map gtext l).
Proof. induction 1 as [|x l H HF IH]; [reflexivity|]. cbn [flat_map map concat]. rewrite concat_app, IH, (concat_token_texts x H). reflexivity. Qed.
Lemma kids_firstn r i : map rgreen (firstn i (kids r)) = firstn i (gchildren (rgreen r)).
Proof. rewrite <- kids_green. symmetry. apply firstn_map. Qed.
Lemma kid_place p c : built seg (rgreen p) -> In c (kids p) ->
  roffset c = roffset p + len_bytes (concat (map rtext (flat_map tokens (firstn (rindex c) (kids p))))) /\
  rposition c = pos_add (rposition p) (rel_of_clusters (flat_map seg (map rtext (flat_map tokens (firstn (rindex c) (kids p)))))).
Proof.
  intros HB HC. destruct (kid_inv p c HC) as [_ HN]. pose proof HN as HN'. rewrite kids_nth in HN'. destruct (nth_error (raw p) (rindex c)) as [x|] eqn:E; [|discriminate]. injection HN' as HE.
  destruct (C21_offsets seg (rgreen p) HB (rindex c) x E) as [HO HP]. rewrite tokens_texts_list, kids_firstn. rewrite flat_texts.
  - rewrite <- HO, <- HP. split; [transitivity (roffset (rchild p (rindex c) x)); [rewrite HE; reflexivity|reflexivity]|transitivity (rposition (rchild p (rindex c) x)); [rewrite HE; reflexivity|reflexivity]].
  - apply Forall_firstn_built. rewrite <- kids_green. apply Forall_forall. intros y Hy. apply in_map_iff in Hy as (z & <- & Hz). exact (built_kid p z HB Hz).
Qed.
Lemma place_ok g r : built seg g -> valid g r ->
  roffset r = len_bytes (concat (map rtext (before r))) /\ rposition r = pos_add (Pos 0 0) (rel_of_clusters (flat_map seg (map rtext (before r)))).
Proof.
  intros HB H. induction H as [|p c HV [IH1 IH2] HC]; [split; reflexivity|]. destruct (kid_place p c (valid_built g p HB HV) HC) as [HO HP]. rewrite HO, HP, IH1, IH2, (before_kid p c HC), !map_app, concat_app, len_bytes_app, flat_map_app, rel_of_app. split; [reflexivity|].
  symmetry. apply (proj1 (proj2 (proj2 RangeProps.C34_advance_proof))).
Qed.
End place.

(** ** Next and previous token *)
(** no node is without children *)
Fixpoint full (g : green) : Prop :=
  match g with
  | GTok _ _ => True
  | GNode _ _ _ cs => cs <> [] /\ fold_right (fun c P => full (snd c) /\ P) True cs
  end.
Definition full_red (r : red) : Prop := forall x, In x (all r) -> is_node x = true -> kids x <> [].
Lemma full_kid r c : full_red r -> In c (kids r) -> full_red c.
Proof. intros H HC x Hx. apply H. rewrite all_kids. right. apply in_flat_map. eauto. Qed.
Lemma last_of_app {A} (l1 l2 : list A) : l2 <> [] -> last_of (l1 ++ l2) = last_of l2.
Proof. intros H. induction l1 as [|x l1 IH]; [reflexivity|]. cbn [app last_of]. destruct (l1 ++ l2) eqn:E; [destruct l1; [contradiction|discriminate]|exact IH]. Qed.
Lemma last_of_split {A} (l : list A) : l <> [] -> exists l1 x, l = l1 ++ [x] /\ last_of l = Some x.
Proof. intros H. destruct (exists_last H) as (l1 & x & ->). exists l1, x. split; [reflexivity|]. rewrite last_of_app by discriminate. reflexivity. Qed.
Lemma first_token_full r : full_red r -> exists t, first_token r = Some t /\ hd_error (tokens r) = Some t.
Proof.
  apply (red_ind_kids (fun r => full_red r -> exists t, first_token r = Some t /\ hd_error (tokens r) = Some t)). clear r. intros r IH HF. rewrite first_token_kids, tokens_kids. destruct (is_node r) eqn:E; [|exists r; auto].
  assert (HK : kids r <> []) by (apply HF; [rewrite all_kids; left; reflexivity|exact E]). destruct (kids r) as [|c l] eqn:EK; [contradiction|].
  destruct (IH c (or_introl eq_refl)) as (t & H1 & H2); [apply (full_kid r c HF); rewrite EK; left; reflexivity|]. exists t. split; [exact H1|]. cbn [flat_map]. destruct (tokens c); [discriminate|exact H2].
Qed.
Lemma last_token_full r : full_red r -> exists t, last_token r = Some t /\ last_of (tokens r) = Some t.
Proof.
  apply (red_ind_kids (fun r => full_red r -> exists t, last_token r = Some t /\ last_of (tokens r) = Some t)). clear r. intros r IH HF. rewrite last_token_kids, tokens_kids. destruct (is_node r) eqn:E; [|exists r; auto].
  assert (HK : kids r <> []) by (apply HF; [rewrite all_kids; left; reflexivity|exact E]). destruct (last_of_split _ HK) as (l1 & c & EK & EL). rewrite EL.
  assert (HC : In c (kids r)) by (rewrite EK; apply in_app_iff; right; left; reflexivity).
  destruct (IH c HC (full_kid r c HF HC)) as (t & H1 & H2). exists t. split; [exact H1|]. rewrite EK, flat_map_app. cbn [flat_map]. rewrite app_nil_r. rewrite last_of_app; [exact H2|]. intros H. rewrite H in H2. discriminate.
Qed.
Lemma hd_flat l : (forall c, In c l -> full_red c) -> hd_error (flat_map tokens l) = match l with [] => None | c :: _ => first_token c end.
Proof. intros H. destruct l as [|c l]; [reflexivity|]. destruct (first_token_full c (H c (or_introl eq_refl))) as (t & H1 & H2). cbn [flat_map]. rewrite H1. destruct (tokens c); [discriminate|exact H2]. Qed.
Lemma last_flat l : (forall c, In c l -> full_red c) -> last_of (flat_map tokens l) = match last_of l with None => None | Some c => last_token c end.
Proof.
  intros H. destruct l as [|x l']; [reflexivity|]. destruct (last_of_split (x :: l') ltac:(discriminate)) as (l1 & c & E & EL). rewrite EL, E, flat_map_app. cbn [flat_map]. rewrite app_nil_r.
  destruct (last_token_full c) as (t & H1 & H2); [apply H; rewrite E; apply in_app_iff; right; left; reflexivity|]. rewrite H1, last_of_app; [exact H2|]. intros HN. rewrite HN in H2. discriminate.
Qed.
Lemma nth_hd {A} (l : list A) i : nth_error l i = hd_error (skipn i l).
Proof. revert i. induction l as [|x l IH]; intros [|i]; try reflexivity. apply IH. Qed.
Lemma full_valid g r : full_red (new_root g) -> valid g r -> full_red r.
Proof. intros HF H. induction H as [|p c HV IH HC]; [exact HF|]. exact (full_kid p c IH HC). Qed.
Lemma up_next g r : full_red (new_root g) -> valid g r ->
  match find_map next_sibling_or_token (ancestors r) with Some e => first_token e | None => None end = hd_error (after r).
Proof.
  intros HF H. induction H as [|p c HV IH HC].
  - rewrite ancestors_unfold. cbn [rparent new_root find_map]. rewrite (proj1 (proj2 (proj2 (no_parent (new_root g) eq_refl)))). reflexivity.
  - rewrite ancestors_unfold, (proj1 (kid_inv p c HC)). cbn [find_map]. rewrite (next_or_token_kids p c (proj1 (kid_inv p c HC))), (after_kid p c HC), nth_hd.
    pose proof (hd_flat (skipn (S (rindex c)) (kids p))) as HH. destruct (skipn (S (rindex c)) (kids p)) as [|d l] eqn:ES; cbn [hd_error].
    + exact IH.
    + assert (HD : forall x, In x (d :: l) -> full_red x). { intros x Hx. apply (full_kid p x (full_valid g p HF HV)). apply (skipn_incl (S (rindex c)) (kids p)). rewrite ES. exact Hx. }
      rewrite <- (HH HD). destruct (first_token_full d (HD d (or_introl eq_refl))) as (t & _ & H2). cbn [flat_map]. destruct (tokens d); [discriminate|reflexivity].
Qed.
Lemma last_of_rev {A} (l : list A) : last_of l = hd_error (rev l).
Proof. destruct l as [|x l]; [reflexivity|]. destruct (last_of_split (x :: l) ltac:(discriminate)) as (l1 & y & -> & ->). rewrite rev_app_distr. reflexivity. Qed.
Lemma last_firstn {A} (l : list A) i : (i < List.length l)%nat -> last_of (firstn i l) = match i with O => None | S j => nth_error l j end.
Proof.
  revert i. induction l as [|x l IH]; intros [|i] H; cbn [List.length] in H; try lia; try reflexivity. cbn [firstn last_of nth_error]. destruct i as [|i]; [reflexivity|]. specialize (IH (S i) ltac:(lia)).
  destruct (firstn (S i) l) eqn:E; [destruct l; [cbn in H; lia|discriminate]|]. rewrite IH. reflexivity.
Qed.
Lemma up_prev g r : full_red (new_root g) -> valid g r ->
  match find_map prev_sibling_or_token (ancestors r) with Some e => last_token e | None => None end = last_of (before r).
Proof.
  intros HF H. induction H as [|p c HV IH HC].
  - rewrite ancestors_unfold. cbn [rparent new_root find_map]. rewrite (proj2 (proj2 (proj2 (no_parent (new_root g) eq_refl)))). reflexivity.
  - rewrite ancestors_unfold, (proj1 (kid_inv p c HC)). cbn [find_map]. rewrite (prev_or_token_kids p c (proj1 (kid_inv p c HC))), (before_kid p c HC), <- (last_firstn (kids p) (rindex c) (kid_index p c HC)).
    assert (HD : forall x, In x (firstn (rindex c) (kids p)) -> full_red x). { intros x Hx. apply (full_kid p x (full_valid g p HF HV)). exact (firstn_incl _ _ x Hx). }
    pose proof (last_flat _ HD) as HH. destruct (firstn (rindex c) (kids p)) as [|d l] eqn:ES.
    + cbn [last_of flat_map]. rewrite app_nil_r. exact IH.
    + rewrite last_of_app.
      * rewrite HH. destruct (last_of_split (d :: l) ltac:(discriminate)) as (l1 & x & _ & ->). reflexivity.
      * destruct (first_token_full d (HD d (or_introl eq_refl))) as (t & _ & H2). cbn [flat_map]. destruct (tokens d); discriminate.
Qed.
Lemma next_prev_token g t : full_red (new_root g) -> valid g t -> next_token t = hd_error (after t) /\ prev_token t = last_of (before t).
Proof.
  intros HF HV. pose proof (up_next g t HF HV) as H1. pose proof (up_prev g t HF HV) as H2. rewrite ancestors_unfold in H1, H2. cbn [find_map] in H1, H2. unfold next_token, prev_token, token_ancestors. split.
  - rewrite <- H1. destruct (next_sibling_or_token t); reflexivity.
  - rewrite <- H2. destruct (prev_sibling_or_token t); reflexivity.
Qed.

(** ** No element twice *)
Fixpoint rpath (r : red) : list nat := match r with Red p i _ _ _ => match p with None => [] | Some p => rpath p ++ [i] end end.
Lemma path_kid p c : In c (kids p) -> rpath c = rpath p ++ [rindex c].
Proof. intros H. destruct (kid_inv p c H) as [HP _]. destruct c as [q i o ps g]. cbn [rparent] in HP. subst q. reflexivity. Qed.
Lemma path_all r : forall x, In x (all r) -> exists s, rpath x = rpath r ++ s.
Proof.
  apply (red_ind_kids (fun r => forall x, In x (all r) -> exists s, rpath x = rpath r ++ s)). clear r. intros r IH x Hx. rewrite all_kids in Hx. destruct Hx as [<- |Hx]; [exists []; rewrite app_nil_r; reflexivity|].
  apply in_flat_map in Hx as (c & Hc & Hx). destruct (IH c Hc x Hx) as (s & ->). exists (rindex c :: s). rewrite (path_kid r c Hc), <- app_assoc. reflexivity.
Qed.
Lemma NoDup_flat {A B} (f : A -> list B) l : (forall x, In x l -> NoDup (f x)) -> (forall l1 x l2 y l3 z, l = l1 ++ x :: l2 ++ y :: l3 -> In z (f x) -> In z (f y) -> False) -> NoDup (flat_map f l).
Proof.
  induction l as [|x l IH]; intros H1 H2; [constructor|]. cbn [flat_map]. 
  assert (HA : NoDup (flat_map f l)). { apply IH; [intros y Hy; apply H1; right; exact Hy|]. intros l1 y l2 w l3 z ->. exact (H2 (x :: l1) y l2 w l3 z eq_refl). }
  assert (HD : forall z, In z (f x) -> ~ In z (flat_map f l)). { intros z Hz Hf. apply in_flat_map in Hf as (y & Hy & Hz'). apply in_split in Hy as (m1 & m2 & ->). exact (H2 [] x m1 y m2 z eq_refl Hz Hz'). }
  specialize (H1 x (or_introl eq_refl)). clear H2 IH. induction (f x) as [|z m IHm]; [exact HA|]. cbn [app]. inversion H1; subst. constructor; [|apply IHm; [assumption|intros w Hw; apply HD; right; exact Hw]].
  rewrite in_app_iff. intros [Hi|Hi]; [contradiction|]. exact (HD z (or_introl eq_refl) Hi).
Qed.
Lemma all_nodup r : NoDup (all r).
Proof.
  apply (red_ind_kids (fun r => NoDup (all r))). clear r. intros r IH. rewrite all_kids. constructor.
  - intros H. apply in_flat_map in H as (c & Hc & H). apply path_all in H as (s & H). rewrite (path_kid r c Hc), <- app_assoc in H. apply (f_equal (@List.length nat)) in H. rewrite app_length in H. cbn in H. lia.
  - apply NoDup_flat; [exact IH|]. intros l1 x l2 y l3 z HK Hx Hy. 
    assert (HX : In x (kids r)) by (rewrite HK; apply in_app_iff; right; left; reflexivity).
    assert (HY : In y (kids r)) by (rewrite HK; apply in_app_iff; right; right; apply in_app_iff; right; left; reflexivity).
    apply path_all in Hx as (s & Hx). apply path_all in Hy as (s' & Hy). rewrite Hx, (path_kid r x HX), (path_kid r y HY), <- !app_assoc in Hy. apply app_inv_head in Hy. injection Hy as HI _.
    pose proof (proj2 (kids_split r l1 x _ HK)) as H1. rewrite app_comm_cons, app_assoc in HK. pose proof (proj2 (kids_split r (l1 ++ x :: l2) y l3 HK)) as H2. rewrite app_length in H2. cbn in H2. lia.
Qed.

(** ** The token at a place *)
Section at_place.
Context {T : Type} (lt : T -> T -> Prop) (start fin : red -> T) (empty : red -> bool) (touches : T -> red -> bool).
Context (irr : forall a, ~ lt a a) (trans : forall a b c, lt a b -> lt b c -> lt a c) (total : forall a b, lt a b \/ a = b \/ lt b a).
Context (empty_spec : forall r, empty r = true <-> start r = fin r).
Context (touches_spec : forall o r, touches o r = true <-> ~ lt o (start r) /\ ~ lt (fin r) o).
(** consecutive elements from [s] to [e] *)
Fixpoint chain (s e : T) (l : list red) : Prop :=
  match l with
  | [] => s = e
  | x :: l => start x = s /\ ~ lt (fin x) (start x) /\ chain (fin x) e l
  end.
Definition touch (o : T) (l : list red) : list red := filter (fun t => negb (empty t) && touches o t) l.
Definition le a b := ~ lt b a.
Lemma le_trans a b c : le a b -> le b c -> le a c.
Proof. unfold le. intros H1 H2 H3. destruct (total a b) as [H|[-> |H]]; [|exact (H2 H3)|exact (H1 H)]. apply H2. exact (trans _ _ _ H3 H). Qed.
Lemma le_refl a : le a a. Proof. apply irr. Qed.
Lemma lt_le a b : lt a b -> le a b. Proof. intros H H'. exact (irr _ (trans _ _ _ H H')). Qed.
Lemma le_antisym a b : le a b -> le b a -> a = b.
Proof. unfold le. intros H1 H2. destruct (total a b) as [H|[H|H]]; [contradiction|exact H|contradiction]. Qed.
Lemma lt_le_trans a b c : lt a b -> le b c -> lt a c.
Proof. intros H1 H2. destruct (total a c) as [H|[-> |H]]; [exact H|contradiction|]. exfalso. exact (H2 (trans _ _ _ H H1)). Qed.
Lemma le_lt_trans a b c : le a b -> lt b c -> lt a c.
Proof. intros H1 H2. destruct (total a c) as [H|[-> |H]]; [exact H|contradiction|]. exfalso. exact (H1 (trans _ _ _ H2 H)). Qed.
Lemma chain_le l : forall s e, chain s e l -> le s e.
Proof. induction l as [|x l IH]; intros s e H; cbn [chain] in H; [subst; apply le_refl|]. destruct H as (<- & H1 & H2). exact (le_trans _ _ _ H1 (IH _ _ H2)). Qed.
Lemma chain_app l1 : forall l2 s e, chain s e (l1 ++ l2) <-> exists m, chain s m l1 /\ chain m e l2.
Proof.
  induction l1 as [|x l1 IH]; intros l2 s e; cbn [app chain].
  - split; [intros H; exists s; auto|]. intros (m & -> & H). exact H.
  - rewrite IH. split.
    + intros (H1 & H2 & m & H3 & H4). exists m. auto.
    + intros (m & (H1 & H2 & H3) & H4). eauto.
Qed.
Lemma touch_cons o x l : touch o (x :: l) = (if negb (empty x) && touches o x then [x] else []) ++ touch o l.
Proof. unfold touch. cbn [filter]. destruct (_ && _); reflexivity. Qed.
Lemma touch_out o l : forall s e, chain s e l -> lt o s \/ lt e o -> touch o l = [].
Proof.
  induction l as [|x l IH]; intros s e H HO; [reflexivity|]. cbn [chain] in H. destruct H as (<- & H1 & H2). rewrite touch_cons.
  assert (HX : touches o x = false). { destruct (touches o x) eqn:E; [|reflexivity]. apply touches_spec in E as [E1 E2]. exfalso. destruct HO as [HO|HO]; [exact (E1 HO)|]. apply E2. exact (le_lt_trans _ _ _ (chain_le _ _ _ H2) HO). }
  rewrite HX, andb_false_r. cbn [app]. apply (IH _ _ H2). destruct HO as [HO|HO]; [left; exact (lt_le_trans _ _ _ HO H1)|right; exact HO].
Qed.
Lemma touch_empty o l : forall s, chain s s l -> touch o l = [].
Proof.
  induction l as [|x l IH]; intros s H; [reflexivity|]. cbn [chain] in H. destruct H as (<- & H1 & H2). pose proof (chain_le _ _ _ H2) as H3. pose proof (le_antisym _ _ H1 H3) as E. rewrite <- E in H2.
  rewrite touch_cons. replace (empty x) with true by (symmetry; apply empty_spec; exact E). cbn [negb andb app]. exact (IH _ H2).
Qed.
(** what is touched at the beginning, at the end and in between *)
Lemma touch_start l : forall s e, chain s e l -> lt s e -> exists x, touch s l = [x] /\ start x = s.
Proof.
  induction l as [|x l IH]; intros s e H HL; [cbn in H; subst; contradiction (irr _ HL)|]. cbn [chain] in H. destruct H as (<- & H1 & H2). rewrite touch_cons. destruct (empty x) eqn:E; cbn [negb andb app].
  - apply empty_spec in E. rewrite E. rewrite E in HL. exact (IH _ _ H2 HL).
  - assert (HE : lt (start x) (fin x)). { destruct (total (start x) (fin x)) as [H|[H|H]]; [exact H|apply empty_spec in H; congruence|contradiction]. }
    replace (touches (start x) x) with true by (symmetry; apply touches_spec; split; [apply irr|exact H1]). rewrite (touch_out _ _ _ _ H2 (or_introl HE)). exists x. auto.
Qed.
Lemma touch_end l : forall s e, chain s e l -> lt s e -> exists x, touch e l = [x] /\ fin x = e.
Proof.
  induction l as [|x l IH]; intros s e H HL; [cbn in H; subst; contradiction (irr _ HL)|]. cbn [chain] in H. destruct H as (<- & H1 & H2). rewrite touch_cons.
  destruct (total (fin x) e) as [HX|[HX|HX]].
  - assert (HT : touches e x = false). { destruct (touches e x) eqn:E; [|reflexivity]. apply touches_spec in E as [_ E]. contradiction. }
    rewrite HT, andb_false_r. exact (IH _ _ H2 HX).
  - subst e. rewrite (touch_empty _ _ _ H2). replace (empty x) with false by (symmetry; destruct (empty x) eqn:E; [apply empty_spec in E; rewrite E in HL; contradiction (irr _ HL)|reflexivity]).
    replace (touches (fin x) x) with true by (symmetry; apply touches_spec; split; [exact H1|apply irr]). exists x. auto.
  - exfalso. exact (chain_le _ _ _ H2 HX).
Qed.
Lemma touch_inside l : forall o s e, chain s e l -> lt s e -> le s o -> le o e ->
  (exists x, touch o l = [x]) \/ (exists x y, touch o l = [x; y] /\ fin x = o /\ start y = o).
Proof.
  induction l as [|x l IH]; intros o s e H HL HSo HoE; [cbn in H; subst; contradiction (irr _ HL)|]. pose proof H as H0. cbn [chain] in H. destruct H as (<- & H1 & H2).
  destruct (empty x) eqn:E.
  - rewrite touch_cons, E. cbn [negb andb app]. apply empty_spec in E. rewrite E in HL, HSo. exact (IH o _ _ H2 HL HSo HoE).
  - assert (HE : lt (start x) (fin x)). { destruct (total (start x) (fin x)) as [H|[H|H]]; [exact H|apply empty_spec in H; congruence|contradiction]. }
    rewrite touch_cons, E. cbn [negb andb]. destruct (total o (fin x)) as [HO|[HO|HO]].
    + left. exists x. replace (touches o x) with true by (symmetry; apply touches_spec; split; [exact HSo|exact (lt_le _ _ HO)]). rewrite (touch_out o l _ _ H2 (or_introl HO)). reflexivity.
    + subst o. replace (touches (fin x) x) with true by (symmetry; apply touches_spec; split; [exact H1|apply irr]). destruct (total (fin x) e) as [HF|[HF|HF]].
      * right. destruct (touch_start _ _ _ H2 HF) as (y & Ey & Sy). exists x, y. rewrite Ey. auto.
      * left. exists x. subst e. rewrite (touch_empty _ _ _ H2). reflexivity.
      * contradiction.
    + replace (touches o x) with false by (symmetry; destruct (touches o x) eqn:ET; [apply touches_spec in ET as [_ ET]; contradiction|reflexivity]). cbn [app].
      exact (IH o _ _ H2 (lt_le_trans _ _ _ HO HoE) (lt_le _ _ HO) HoE).
Qed.

(** the tree: an element's children follow each other from its start to its end *)
Definition contiguous (r : red) : Prop := forall x, In x (all r) -> ~ lt (fin x) (start x) /\ (is_node x = true -> chain (start x) (fin x) (kids x)).
Lemma contiguous_kid r c : contiguous r -> In c (kids r) -> contiguous c.
Proof. intros H HC x Hx. apply H. rewrite all_kids. right. apply in_flat_map. eauto. Qed.
Lemma tokens_chain r : contiguous r -> chain (start r) (fin r) (tokens r).
Proof.
  apply (red_ind_kids (fun r => contiguous r -> chain (start r) (fin r) (tokens r))). clear r. intros r IH HC. destruct (HC r) as [HL HK]; [rewrite all_kids; left; reflexivity|].
  rewrite tokens_kids. destruct (is_node r); [|cbn [chain]; auto]. specialize (HK eq_refl). assert (HI : forall c, In c (kids r) -> chain (start c) (fin c) (tokens c)). { intros c Hc. exact (IH c Hc (contiguous_kid r c HC Hc)). }
  clear IH HL HC. revert HK HI. generalize (start r), (fin r), (kids r). intros s e l. revert s. induction l as [|c l IHl]; intros s HK HI; [exact HK|]. cbn [flat_map chain] in *. destruct HK as (<- & _ & HK). apply chain_app. exists (fin c).
  split; [apply HI; left; reflexivity|]. apply IHl; [exact HK|]. intros x Hx. apply HI. right. exact Hx.
Qed.
Lemma token_at_kids o r : token_at_in empty (touches o) (rgreen r) r =
  if is_node r then
    if empty r then Some NoToken
    else match map (fun c => token_at_in empty (touches o) (rgreen c) c) (touch o (kids r)) with
         | [] => None
         | [x] => x
         | x :: y :: _ => match x, y with Some (Single a), Some (Single b) => Some (Between a b) | _, _ => None end
         end
  else Some (Single r).
Proof.
  unfold is_node, kids, raw, enumerate, touch. destruct (rgreen r) as [k t|k l p cs]; [reflexivity|]. cbn [token_at_in gchildren_raw]. destruct (empty r); [reflexivity|].
  match goal with |- match ?a with _ => _ end = match ?b with _ => _ end => replace a with b; [reflexivity|] end.
  generalize 0%nat. induction cs as [|c cs IH]; intros n; [reflexivity|]. cbn [enumerate_from map filter fst snd]. cbv zeta. destruct (negb (empty (rchild r n c)) && touches o (rchild r n c)); cbn [map]; rewrite IH; reflexivity.
Qed.
Definition answer (l : list red) : option token_at := match l with [] => Some NoToken | [t] => Some (Single t) | [a; b] => Some (Between a b) | _ => None end.
Lemma token_at_ok o r : contiguous r -> le (start r) o -> le o (fin r) -> (is_node r = false -> empty r = false) ->
  token_at_in empty (touches o) (rgreen r) r = answer (touch o (tokens r)).
Proof.
  apply (red_ind_kids (fun r => contiguous r -> le (start r) o -> le o (fin r) -> (is_node r = false -> empty r = false) -> token_at_in empty (touches o) (rgreen r) r = answer (touch o (tokens r)))).
  clear r. intros r IH HC H1 H2 HT. rewrite token_at_kids, tokens_kids. destruct (HC r) as [HL HK]; [rewrite all_kids; left; reflexivity|]. destruct (is_node r) eqn:EN.
  - destruct (empty r) eqn:EE.
    + apply empty_spec in EE. pose proof (tokens_chain r HC) as HCh. rewrite tokens_kids, EN, <- EE in HCh. rewrite (touch_empty o _ _ HCh). reflexivity.
    + assert (HE : lt (start r) (fin r)). { destruct (total (start r) (fin r)) as [H|[H|H]]; [exact H|apply empty_spec in H; congruence|contradiction]. }
      specialize (HK eq_refl).
      assert (HTok : touch o (flat_map tokens (kids r)) = flat_map (fun c => touch o (tokens c)) (touch o (kids r))).
      { assert (HCk : forall c, In c (kids r) -> contiguous c) by (intros c Hc; exact (contiguous_kid r c HC Hc)). clear - HCk empty_spec touches_spec irr trans total.
        induction (kids r) as [|c l IHl]; [reflexivity|]. cbn [flat_map]. rewrite touch_cons. unfold touch in *. rewrite filter_app, IHl by (intros x Hx; apply HCk; right; exact Hx). fold (touch o (tokens c)).
        destruct (negb (empty c) && touches o c) eqn:E; [reflexivity|]. cbn [app]. replace (touch o (tokens c)) with (@nil red); [reflexivity|]. symmetry. pose proof (tokens_chain c (HCk c (or_introl eq_refl))) as HCh.
        apply andb_false_iff in E as [E|E].
        - apply negb_false_iff, empty_spec in E. rewrite <- E in HCh. exact (touch_empty o _ _ HCh).
        - apply (touch_out o _ _ _ HCh). destruct (total o (start c)) as [H|H]; [left; exact H|]. destruct (total (fin c) o) as [H'|H']; [right; exact H'|]. exfalso.
          assert (HX : touches o c = true).
          { apply touches_spec. split; intros HX.
            - destruct H as [H|H]; [rewrite H in HX; exact (irr _ HX)|exact (irr _ (trans _ _ _ HX H))].
            - destruct H' as [H'|H']; [rewrite H' in HX; exact (irr _ HX)|exact (irr _ (trans _ _ _ HX H'))]. }
          congruence. }
      rewrite HTok.
      assert (HTouch : forall c, In c (touch o (kids r)) -> In c (kids r) /\ empty c = false /\ le (start c) o /\ le o (fin c)).
      { intros c Hc. unfold touch in Hc. apply filter_In in Hc as [Hc Hb]. apply andb_true_iff in Hb as [Hb1 Hb2]. apply negb_true_iff in Hb1. apply touches_spec in Hb2 as [Hb2 Hb3]. auto. }
      assert (HIH : forall c, In c (touch o (kids r)) -> token_at_in empty (touches o) (rgreen c) c = answer (touch o (tokens c))).
      { intros c Hc. destruct (HTouch c Hc) as (A & B & C & D). apply (IH c A (contiguous_kid r c HC A) C D). intros _. exact B. }
      destruct (touch_inside (kids r) o _ _ HK HE H1 H2) as [(x & Ex)|(x & y & Ex & HF & HS)]; rewrite Ex in *; cbn [map flat_map].
      * rewrite app_nil_r. apply HIH. left. reflexivity.
      * destruct (HTouch x (or_introl eq_refl)) as (Ax & Bx & _). destruct (HTouch y (or_intror (or_introl eq_refl))) as (Ay & By & _).
        assert (Hlt : forall c, In c (kids r) -> empty c = false -> lt (start c) (fin c)).
        { intros c Hc Be. destruct (total (start c) (fin c)) as [H|[H|H]]; [exact H|apply empty_spec in H; congruence|]. exfalso. destruct (HC c) as [HX _]; [rewrite all_kids; right; apply in_flat_map; exists c; split; [exact Hc|rewrite all_kids; left; reflexivity]|]. exact (HX H). }
        rewrite (HIH x (or_introl eq_refl)), (HIH y (or_intror (or_introl eq_refl))).
        destruct (touch_end (tokens x) _ _ (tokens_chain x (contiguous_kid r x HC Ax)) (Hlt x Ax Bx)) as (tx & Etx & _). rewrite HF in Etx.
        destruct (touch_start (tokens y) _ _ (tokens_chain y (contiguous_kid r y HC Ay)) (Hlt y Ay By)) as (ty & Ety & _). rewrite HS in Ety.
        rewrite Etx, Ety. reflexivity.
  - rewrite touch_cons. rewrite (HT eq_refl). replace (touches o r) with true by (symmetry; apply touches_spec; auto). reflexivity.
Qed.
Lemma answer_some o r : contiguous r -> le (start r) o -> le o (fin r) -> (touch o (tokens r) = [] <-> start r = fin r) /\ answer (touch o (tokens r)) <> None /\
  forall a b, touch o (tokens r) = [a; b] -> fin a = o /\ start b = o.
Proof.
  intros HC H1 H2. pose proof (tokens_chain r HC) as HCh. destruct (total (start r) (fin r)) as [H|[H|H]].
  - destruct (touch_inside _ o _ _ HCh H H1 H2) as [(x & ->)|(x & y & -> & HF & HS)]; (split; [split; intros E; [discriminate|rewrite E in H; contradiction (irr _ H)]|]); split; try discriminate.
    intros a b E. injection E as <- <-. auto.
  - rewrite <- H in HCh. rewrite (touch_empty o _ _ HCh). split; [tauto|]. split; discriminate.
  - contradiction (chain_le _ _ _ HCh).
Qed.
End at_place.
