(** * Green trees (C21) and interning (C22) *)
From Coq Require Import List NArith Bool Arith Lia.
From Verif Require Import Base SyntaxKind TextModel ParserModel GreenModel RangeProps.
Import ListNotations.
Open Scope N_scope.
Open Scope list_scope.

(** ** Positions form a monoid *)
Lemma rel_add_assoc a b c : rel_add (rel_add a b) c = rel_add a (rel_add b c).
Proof.
  destruct a as [la ca], b as [lb cb], c as [lc cc]. unfold rel_add. cbn [rline rcolumn].
  destruct (lc =? 0) eqn:E1; destruct (lb =? 0) eqn:E2; cbn [rline rcolumn];
    repeat match goal with H : (_ =? 0) = true |- _ => apply N.eqb_eq in H; subst | H : (_ =? 0) = false |- _ => apply N.eqb_neq in H end;
    repeat match goal with |- context[?x =? 0] => let E := fresh in destruct (x =? 0) eqn:E; [apply N.eqb_eq in E|apply N.eqb_neq in E] end; f_equal; lia.
Qed.
Lemma rel_add_0_l a : rel_add (Rel 0 0) a = a.
Proof. destruct a as [l c]. unfold rel_add. cbn [rline rcolumn]. destruct (l =? 0); f_equal; lia. Qed.
Lemma rel_add_0_r a : rel_add a (Rel 0 0) = a.
Proof. destruct a as [l c]. unfold rel_add. cbn [rline rcolumn N.eqb]. f_equal; lia. Qed.
Lemma rel_of_app a b : rel_of_clusters (a ++ b) = rel_add (rel_of_clusters a) (rel_of_clusters b).
Proof.
  pose proof (proj1 (proj2 C34_advance_proof) (Pos 0 0) a b) as H. pose proof (proj1 (proj2 (proj2 C34_advance_proof)) (Pos 0 0) (rel_of_clusters a) (rel_of_clusters b)) as H2.
  rewrite <- H2 in H. unfold pos_add in H. cbn [line column] in H. destruct (rel_of_clusters (a ++ b)) as [l c], (rel_add _ _) as [l' c']. cbn [rline rcolumn] in H.
  injection H as E1 E2. assert (l = l') by lia. subst. f_equal. destruct (l' =? 0); lia.
Qed.

(** ** Trees that can be built: tokens, and nodes made by [GreenNode::new] from such *)
Section seg.
Context (seg : str -> list str).
Inductive built : green -> Prop :=
  | built_token k t : built (GTok k t)
  | built_node k els : Forall built els -> built (gnew seg k els).
(** the texts of the tokens, from left to right *)
Fixpoint token_texts (g : green) : list str :=
  match g with
  | GTok _ t => [t]
  | GNode _ _ _ cs => flat_map (fun c => token_texts (snd c)) cs
  end.

Lemma place_spec els : forall len rel,
  let '(cs, (l, r)) := place seg len rel els in
  map as_ref cs = els /\ l = len + fold_right (fun e n => gtext_len e + n) 0 els /\ r = rel_add rel (fold_right (fun e n => rel_add (gtext_rel seg e) n) (Rel 0 0) els) /\
  forall i c, nth_error cs i = Some c ->
    relative_offset c = len + fold_right (fun e n => gtext_len e + n) 0 (firstn i els) /\
    relative_position c = rel_add rel (fold_right (fun e n => rel_add (gtext_rel seg e) n) (Rel 0 0) (firstn i els)).
Proof.
  induction els as [|e els IH]; intros len rel; cbn [place].
  - split; [reflexivity|]. split; [cbn; lia|]. split; [cbn; symmetry; apply rel_add_0_r|]. intros [|i] c H; discriminate.
  - specialize (IH (len + gtext_len e) (rel_add rel (gtext_rel seg e))). destruct (place seg _ _ els) as [cs [l r]]. destruct IH as (H1 & H2 & H3 & H4).
    split; [cbn [map]; rewrite H1; reflexivity|]. split; [cbn [fold_right]; lia|]. split; [cbn [fold_right]; rewrite H3; apply rel_add_assoc|].
    intros [|i] c H; cbn [nth_error firstn fold_right] in *.
    + injection H as <-. unfold relative_offset, relative_position. cbn [fst snd]. split; [lia|symmetry; apply rel_add_0_r].
    + destruct (H4 i c H) as [A B]. split; [lia|]. rewrite B. apply rel_add_assoc.
Qed.
Lemma gnew_spec k els : exists cs, gnew seg k els = GNode k (fold_right (fun e n => gtext_len e + n) 0 els) (fold_right (fun e n => rel_add (gtext_rel seg e) n) (Rel 0 0) els) cs /\
  map as_ref cs = els /\
  forall i c, nth_error cs i = Some c ->
    relative_offset c = fold_right (fun e n => gtext_len e + n) 0 (firstn i els) /\
    relative_position c = fold_right (fun e n => rel_add (gtext_rel seg e) n) (Rel 0 0) (firstn i els).
Proof.
  unfold gnew. pose proof (place_spec els 0 (Rel 0 0)) as H. destruct (place seg 0 (Rel 0 0) els) as [cs [l r]]. destruct H as (H1 & H2 & H3 & H4).
  exists cs. rewrite rel_add_0_l in H3. rewrite N.add_0_l in H2. subst l r. split; [reflexivity|]. split; [exact H1|].
  intros i c H. destruct (H4 i c H) as [A B]. rewrite rel_add_0_l in B. rewrite N.add_0_l in A. auto.
Qed.
Lemma gchildren_new k els : gchildren (gnew seg k els) = els.
Proof. destruct (gnew_spec k els) as (cs & -> & H & _). exact H. Qed.
Lemma gkind_new k els : gkind (gnew seg k els) = k.
Proof. destruct (gnew_spec k els) as (cs & -> & _). reflexivity. Qed.
Lemma flat_map_as_ref {A} (f : green -> list A) cs : flat_map (fun c : N * rel_position * green => f (snd c)) cs = flat_map f (map as_ref cs).
Proof. induction cs as [|c cs IH]; [reflexivity|]. cbn [flat_map map]. rewrite IH. reflexivity. Qed.
Lemma gtext_children k l r cs : gtext (GNode k l r cs) = flat_map gtext (gchildren (GNode k l r cs)).
Proof. cbn [gtext]. apply flat_map_as_ref. Qed.
Lemma gtext_new k els : gtext (gnew seg k els) = flat_map gtext els.
Proof. destruct (gnew_spec k els) as (cs & -> & H & _). rewrite gtext_children. unfold gchildren. cbn [gchildren_raw]. rewrite H. reflexivity. Qed.
Lemma token_texts_new k els : token_texts (gnew seg k els) = flat_map token_texts els.
Proof. destruct (gnew_spec k els) as (cs & -> & H & _). cbn [token_texts]. rewrite (flat_map_as_ref token_texts), H. reflexivity. Qed.
Definition built_ind' (P : green -> Prop) (HT : forall k t, P (GTok k t)) (HN : forall k els, Forall built els -> Forall P els -> P (gnew seg k els)) : forall g, built g -> P g :=
  fix F g H := match H in built g return P g with
               | built_token k t => HT k t
               | built_node k els HF => HN k els HF ((fix go l (H : Forall built l) : Forall P l := match H with Forall_nil _ => Forall_nil _ | Forall_cons _ h t => Forall_cons _ (F _ h) (go _ t) end) els HF)
               end.
Lemma fold_len els : Forall (fun g => gtext_len g = len_bytes (gtext g)) els -> fold_right (fun e n => gtext_len e + n) 0 els = len_bytes (flat_map gtext els).
Proof. induction 1 as [|e els H HF IH]; [reflexivity|]. cbn [fold_right flat_map]. rewrite IH, H, len_bytes_app. reflexivity. Qed.
Lemma fold_rel els : Forall (fun g => gtext_rel seg g = rel_of_clusters (flat_map seg (token_texts g))) els ->
  fold_right (fun e n => rel_add (gtext_rel seg e) n) (Rel 0 0) els = rel_of_clusters (flat_map seg (flat_map token_texts els)).
Proof. induction 1 as [|e els H HF IH]; [reflexivity|]. cbn [fold_right flat_map]. rewrite IH, H, flat_map_app, rel_of_app. reflexivity. Qed.
Lemma built_len g : built g -> gtext_len g = len_bytes (gtext g).
Proof.
  intros H. induction H as [k t|k els HB IH] using built_ind'; [reflexivity|]. rewrite gtext_new. destruct (gnew_spec k els) as (cs & -> & _). cbn [gtext_len]. apply fold_len. exact IH.
Qed.
Lemma built_rel g : built g -> gtext_rel seg g = rel_of_clusters (flat_map seg (token_texts g)).
Proof.
  intros H. induction H as [k t|k els HB IH] using built_ind'; [cbn; rewrite app_nil_r; reflexivity|]. rewrite token_texts_new. destruct (gnew_spec k els) as (cs & -> & _).
  cbn [gtext_rel]. apply fold_rel. exact IH.
Qed.
Lemma built_children k l r cs : built (GNode k l r cs) -> Forall built (map as_ref cs) /\ gnew seg k (map as_ref cs) = GNode k l r cs.
Proof.
  intros H. inversion H as [|k' els HF E]. destruct (gnew_spec k' els) as (cs' & E' & H' & _). rewrite E' in E. injection E as E1 E2 E3 E4. subst k' cs'.
  rewrite H'. split; [exact HF|]. rewrite E', E2, E3. reflexivity.
Qed.
Lemma Forall_firstn_built {A} (P : A -> Prop) l i : Forall P l -> Forall P (firstn i l).
Proof. revert i. induction l as [|x l IH]; intros [|i] H; cbn; constructor; inversion H; auto. Qed.
End seg.

(** ** C21 *)
(** The text of a node is its children's, its length is that text's length, and its extent in lines and columns is that of its tokens'
    graphemes. *)
Theorem C21_measures : forall seg g, built seg g ->
  gtext_len g = len_bytes (gtext g) /\ gtext g = concat (token_texts g) /\
  gtext_rel seg g = rel_of_clusters (flat_map seg (token_texts g)) /\
  (forall k l r cs, g = GNode k l r cs -> gtext g = concat (map gtext (gchildren g)) /\ Forall (built seg) (gchildren g)).
Proof.
  intros seg g H. split; [exact (built_len seg g H)|]. split.
  - revert g H. apply built_ind'; [intros k t; cbn; rewrite app_nil_r; reflexivity|]. intros k els HB IH. rewrite gtext_new, token_texts_new.
    clear HB. induction IH as [|e els He _ IH]; [reflexivity|]. cbn [flat_map]. rewrite IH, He, concat_app. reflexivity.
  - split; [exact (built_rel seg g H)|]. intros k l r cs ->. split; [rewrite gtext_children; symmetry; rewrite flat_map_concat_map; reflexivity|]. exact (proj1 (built_children seg k l r cs H)).
Qed.
Print Assumptions C21_measures.
(** Each child's offset and position are those of the text before it. *)
Theorem C21_offsets : forall seg g, built seg g -> forall i c, nth_error (gchildren_raw g) i = Some c ->
  relative_offset c = len_bytes (concat (map gtext (firstn i (gchildren g)))) /\
  relative_position c = rel_of_clusters (flat_map seg (flat_map token_texts (firstn i (gchildren g)))).
Proof.
  intros seg g H i c HC. destruct g as [k t|k l r cs]; [destruct i; discriminate|]. destruct (built_children seg k l r cs H) as [HF HN].
  destruct (gnew_spec seg k (map as_ref cs)) as (cs' & E & _ & HO). rewrite HN in E. injection E as _ _ <-. cbn [gchildren_raw] in HC. destruct (HO i c HC) as [A B].
  unfold gchildren. cbn [gchildren_raw]. rewrite <- flat_map_concat_map. rewrite A, B. split.
  - apply fold_len. apply Forall_firstn_built. eapply Forall_impl; [|exact HF]. intros x Hx. exact (built_len seg x Hx).
  - apply fold_rel. apply Forall_firstn_built. eapply Forall_impl; [|exact HF]. intros x Hx. exact (built_rel seg x Hx).
Qed.
Print Assumptions C21_offsets.

(** Editing the children edits the list of children, and so the text; the result can be built again. *)
Definition edited (seg : str -> list str) (g g' : green) (cs : list green) : Prop :=
  gkind g' = gkind g /\ gchildren g' = cs /\ gtext g' = concat (map gtext cs) /\ (built seg g -> Forall (built seg) cs -> built seg g').
Lemma edited_new seg g cs : edited seg g (gnew seg (gkind g) cs) cs.
Proof.
  split; [apply gkind_new|]. split; [apply gchildren_new|]. split; [rewrite gtext_new; apply flat_map_concat_map|]. intros _ H. constructor. exact H.
Qed.
Theorem C21_edits : forall seg g,
  (forall a b new, (a <= b <= List.length (gchildren g))%nat ->
     exists g', splice_children seg g a b new = Some g' /\ edited seg g g' (firstn a (gchildren g) ++ new ++ skipn b (gchildren g))) /\
  (forall a b new, ~ (a <= b <= List.length (gchildren g))%nat -> splice_children seg g a b new = None) /\
  (forall l c r, gchildren g = l ++ c :: r ->
     (exists g', remove_child seg g (List.length l) = Some g' /\ edited seg g g' (l ++ r)) /\
     (forall new, edited seg g (replace_child seg g (List.length l) new) (l ++ new :: r))) /\
  (forall l r new, gchildren g = l ++ r -> exists g', insert_child seg g (List.length l) new = Some g' /\ edited seg g g' (l ++ new :: r)).
Proof.
  intros seg g.
  assert (HS : forall a b new, (a <= b <= List.length (gchildren g))%nat ->
     exists g', splice_children seg g a b new = Some g' /\ edited seg g g' (firstn a (gchildren g) ++ new ++ skipn b (gchildren g))).
  { intros a b new [H1 H2]. unfold splice_children, vec_splice. apply Nat.leb_le in H1, H2. rewrite H1, H2. cbn [andb]. eexists. split; [reflexivity|]. apply edited_new. }
  split; [exact HS|]. split.
  - intros a b new H. unfold splice_children, vec_splice. destruct ((a <=? b)%nat && (b <=? List.length (gchildren g))%nat) eqn:E; [|reflexivity].
    apply andb_true_iff in E as [E1 E2]. apply Nat.leb_le in E1, E2. contradiction (H (conj E1 E2)).
  - split.
    + intros l c r HL. split.
      * unfold remove_child. destruct (HS (List.length l) (S (List.length l)) []) as (g' & E & HE); [rewrite HL, app_length; cbn [List.length]; lia|]. exists g'. split; [exact E|].
        rewrite HL in HE. rewrite firstn_app, Nat.sub_diag, firstn_all, app_nil_r in HE. cbn [app firstn] in HE. rewrite skipn_app in HE. rewrite skipn_all2 in HE by lia.
        replace (S (List.length l) - List.length l)%nat with 1%nat in HE by lia. exact HE.
      * intros new. unfold replace_child. rewrite HL. replace (replace_nth (l ++ c :: r) (List.length l) new) with (l ++ new :: r); [apply edited_new|].
        clear HL HS. induction l as [|x l IH]; [reflexivity|]. cbn [app List.length replace_nth]. rewrite <- IH. reflexivity.
    + intros l r new HL. unfold insert_child. destruct (HS (List.length l) (List.length l) [new]) as (g' & E & HE); [rewrite HL, app_length; lia|]. exists g'. split; [exact E|].
      rewrite HL in HE. rewrite firstn_app, Nat.sub_diag, firstn_all, app_nil_r in HE. cbn [app firstn] in HE. rewrite skipn_app in HE. rewrite skipn_all2 in HE by lia.
      rewrite Nat.sub_diag in HE. exact HE.
Qed.
Print Assumptions C21_edits.
(** the node [a = 1\n] and its edit *)
Example C21_example : let seg := map (fun c => [c]) in
  let g := gnew seg KEY_VALUE [gnew seg KEYS [GTok BARE_KEY [97]]; GTok EQUAL [61]; GTok LINE_BREAK [10]; GTok INTEGER_DEC [49]] in
  built seg g /\ gtext_len g = 4 /\ gtext_rel seg g = Rel 1 1 /\
  match splice_children seg g 1 3 [GTok WHITESPACE [32]] with Some g' => gtext g' = [97; 32; 49] | None => False end.
Proof. split; [repeat constructor|vm_compute; auto]. Qed.

(** ** C22 *)
Fixpoint subs (e : elem) : list elem := e :: match e with ETok _ _ _ => [] | ENode _ _ cs => flat_map subs cs end.
Fixpoint elem_ind' (P : elem -> Prop) (HT : forall a k t, P (ETok a k t)) (HN : forall a k cs, Forall P cs -> P (ENode a k cs)) (e : elem) : P e :=
  match e with
  | ETok a k t => HT a k t
  | ENode a k cs => HN a k cs ((fix go l : Forall P l := match l with [] => Forall_nil _ | x :: l => Forall_cons _ (elem_ind' P HT HN x) (go l) end) cs)
  end.
Lemma addresses_subs e : addresses e = map element_id (subs e).
Proof.
  induction e as [a k t|a k cs IH] using elem_ind'; [reflexivity|]. cbn [addresses subs map element_id]. f_equal.
  induction IH as [|x cs H _ IH]; [reflexivity|]. cbn [flat_map]. rewrite map_app, H, IH. reflexivity.
Qed.
Lemma subs_self e : In e (subs e). Proof. destruct e; left; reflexivity. Qed.
Definition all_subs (b : cbuilder) : list elem :=
  flat_map subs (nodes (cache b)) ++ flat_map subs (tokens (cache b)) ++ flat_map (fun c : N * elem => subs (snd c)) (children b).
Lemma live_subs b : live b = map element_id (all_subs b).
Proof.
  unfold live, all_subs. rewrite !map_app. f_equal; [|f_equal].
  - induction (nodes (cache b)) as [|x l IH]; [reflexivity|]. cbn [flat_map]. rewrite map_app, IH, addresses_subs. reflexivity.
  - induction (tokens (cache b)) as [|x l IH]; [reflexivity|]. cbn [flat_map]. rewrite map_app, IH, addresses_subs. reflexivity.
  - induction (children b) as [|x l IH]; [reflexivity|]. cbn [flat_map]. rewrite map_app, IH, addresses_subs. reflexivity.
Qed.
(** an address holds one element *)
Definition one_each (l : list elem) : Prop := forall x y, In x l -> In y l -> element_id x = element_id y -> x = y.
Lemma one_each_incl l l' : incl l' l -> one_each l -> one_each l'.
Proof. intros HI H x y Hx Hy. apply H; apply HI; assumption. Qed.
Lemma one_each_fresh l l' n : one_each l -> ~ In (element_id n) (map element_id l) -> (forall x, In x l' -> x = n \/ In x l) -> one_each l'.
Proof.
  intros H HN HI x y Hx Hy E. destruct (HI x Hx) as [-> |Hx'], (HI y Hy) as [-> |Hy']; auto.
  - exfalso. apply HN. rewrite E. apply in_map. exact Hy'.
  - exfalso. apply HN. rewrite <- E. apply in_map. exact Hx'.
Qed.
Lemma ids_same l r L : one_each L -> incl l L -> incl r L -> ids_eq (map element_id l) (map element_id r) = true -> l = r.
Proof.
  intros H. revert r. induction l as [|x l IH]; intros [|y r] HL HR HE; cbn in HE; try discriminate; [reflexivity|].
  apply andb_true_iff in HE as [E HE]. apply N.eqb_eq in E. f_equal.
  - apply H; [apply HL; left; reflexivity|apply HR; left; reflexivity|exact E].
  - apply IH; [intros z Hz; apply HL; right; exact Hz|intros z Hz; apply HR; right; exact Hz|exact HE].
Qed.

Section cache.
Context (hash_token : kind -> str -> N) (hash_node : kind -> list N -> N).
Context (probe : N -> list elem -> list elem) (alloc : list N -> N).
Context (HP : forall h l, incl (probe h l) l) (HA : forall l, ~ In (alloc l) l).

Lemma find_in {A} (f : A -> bool) l x : find f l = Some x -> In x l /\ f x = true.
Proof. apply find_some. Qed.
Definition rest_subs (b : cbuilder) (cs : list (N * elem)) (ca : node_cache) : list elem := all_subs {| cache := ca; parents := []; children := cs |}.

Lemma token_ok b k t : one_each (all_subs b) ->
  let '(c, ca) := cache_token hash_token probe alloc b k t in
  erase (snd c) = TToken k t /\ one_each (all_subs {| cache := ca; parents := parents b; children := c :: children b |}).
Proof.
  intros HI. unfold cache_token. destruct (find _ _) as [e|] eqn:E.
  - apply find_in in E as [HE EK]. apply HP in HE. destruct e as [a k' t'|]; [|discriminate]. apply andb_true_iff in EK as [K T]. apply kind_eqb_eq in K. apply str_eqb_eq in T. subst.
    split; [reflexivity|]. eapply one_each_incl; [|exact HI]. intros x Hx. unfold all_subs in *. cbn [cache nodes tokens children] in Hx. rewrite !in_app_iff in *. cbn [flat_map snd] in Hx. rewrite in_app_iff in Hx.
    destruct Hx as [Hx|[Hx|[Hx|Hx]]]; auto. right. left. apply in_flat_map. exists (ETok a k t). auto.
  - split; [reflexivity|]. apply (one_each_fresh (all_subs b) _ (ETok (alloc (live b)) k t) HI).
    + cbn [element_id]. rewrite <- live_subs. apply HA.
    + intros x Hx. unfold all_subs in *. cbn [cache nodes tokens children] in Hx. rewrite !in_app_iff in *. cbn [flat_map snd subs] in Hx. rewrite !in_app_iff in Hx. cbn [In] in Hx. intuition.
Qed.
Lemma in_app_iff4 {A} (x : A) a b c : In x (a ++ b ++ c) <-> In x a \/ In x b \/ In x c.
Proof. rewrite !in_app_iff. tauto. Qed.
Lemma node_ok b k n : one_each (all_subs b) ->
  let cs := rev (firstn n (children b)) in
  let '(c, ca) := cache_node hash_node probe alloc b k cs in
  erase (snd c) = TNode k (map (fun c => erase (snd c)) cs) /\ one_each (all_subs {| cache := ca; parents := []; children := c :: skipn n (children b) |}).
Proof.
  intros HI cs. unfold cache_node.
  assert (HC : forall x, In x (flat_map (fun c : N * elem => subs (snd c)) cs) -> In x (all_subs b)).
  { intros x Hx. unfold all_subs. apply in_app_iff4. right. right. apply in_flat_map in Hx as (c & Hc & Hx). apply in_flat_map. exists c. split; [|exact Hx]. unfold cs in Hc. apply in_rev in Hc.
    rewrite <- (firstn_skipn n (children b)). apply in_app_iff. left. exact Hc. }
  assert (HS : forall x, In x (flat_map (fun c : N * elem => subs (snd c)) (skipn n (children b))) -> In x (all_subs b)).
  { intros x Hx. unfold all_subs. apply in_app_iff4. right. right. rewrite <- (firstn_skipn n (children b)). rewrite flat_map_app. apply in_app_iff. right. exact Hx. }
  assert (HB : forall x, In x (subs (ENode (alloc (live b)) k (map snd cs))) -> x = ENode (alloc (live b)) k (map snd cs) \/ In x (all_subs b)).
  { intros x Hx. cbn [subs In] in Hx. destruct Hx as [Hx|Hx]; [left; auto|]. right. apply HC. rewrite flat_map_concat_map, map_map in Hx. rewrite flat_map_concat_map. exact Hx. }
  assert (HE : erase (ENode (alloc (live b)) k (map snd cs)) = TNode k (map (fun c => erase (snd c)) cs)) by (cbn [erase]; rewrite map_map; reflexivity).
  assert (HF : ~ In (element_id (ENode (alloc (live b)) k (map snd cs))) (map element_id (all_subs b))) by (cbn [element_id]; rewrite <- live_subs; apply HA).
  destruct (_ || _).
  - split; [exact HE|]. apply (one_each_fresh _ _ _ HI HF). intros x Hx. unfold all_subs in Hx at 1. cbn [cache children flat_map snd] in Hx. rewrite in_app_iff4, in_app_iff in Hx.
    destruct Hx as [Hx|[Hx|[Hx|Hx]]]; [right; unfold all_subs; apply in_app_iff4; auto|right; unfold all_subs; apply in_app_iff4; auto|apply HB; exact Hx|right; apply HS; exact Hx].
  - destruct (find _ _) as [e|] eqn:E.
    + apply find_in in E as [He EK]. apply HP in He. destruct e as [|a k' cs']; [discriminate|]. apply andb_true_iff in EK as [EK EI]. apply andb_true_iff in EK as [K _]. apply kind_eqb_eq in K. subst k'.
      rewrite <- (map_map snd element_id) in EI. apply (ids_same _ _ (all_subs b) HI) in EI.
      * subst cs'. split; [cbn [snd erase]; rewrite map_map; reflexivity|]. eapply one_each_incl; [|exact HI]. intros x Hx. unfold all_subs in Hx. cbn [cache children flat_map snd] in Hx. rewrite in_app_iff4, in_app_iff in Hx.
        destruct Hx as [Hx|[Hx|[Hx|Hx]]]; [unfold all_subs; apply in_app_iff4; auto|unfold all_subs; apply in_app_iff4; auto| |apply HS; exact Hx].
        unfold all_subs. apply in_app_iff4. left. apply in_flat_map. eexists. split; [exact He|exact Hx].
      * intros x Hx. unfold all_subs. apply in_app_iff4. left. apply in_flat_map. eexists. split; [exact He|]. cbn [subs In]. right. apply in_flat_map. exists x. split; [exact Hx|apply subs_self].
      * intros x Hx. apply HC. apply in_map_iff in Hx as (c & <- & Hc). apply in_flat_map. exists c. split; [exact Hc|apply subs_self].
    + split; [exact HE|]. apply (one_each_fresh _ _ _ HI HF). intros x Hx. unfold all_subs in Hx at 1. cbn [cache nodes tokens children] in Hx. rewrite in_app_iff4 in Hx. cbn [flat_map snd] in Hx. rewrite !in_app_iff in Hx.
      destruct Hx as [[Hx|Hx]|[Hx|[Hx|Hx]]]; [apply HB; exact Hx|right; unfold all_subs; apply in_app_iff4; auto|right; unfold all_subs; apply in_app_iff4; auto|apply HB; exact Hx|right; apply HS; exact Hx].
Qed.
Definition same_state (b : cbuilder) (g : gbuilder) : Prop := parents b = g_parents g /\ map (fun c : N * elem => erase (snd c)) (children b) = g_children g.
Lemma step_ok s b g : one_each (all_subs b) -> same_state b g ->
  match g_step s g with
  | Done g' => exists b', c_step hash_token hash_node probe alloc s b = Done b' /\ same_state b' g' /\ one_each (all_subs b')
  | Panic => c_step hash_token hash_node probe alloc s b = Panic
  | _ => False
  end.
Proof.
  intros HI [H1 H2]. destruct s as [k w|k| |e]; cbn [g_step c_step].
  - pose proof (token_ok b k w HI) as HT. destruct (cache_token _ _ _ b k w) as [c ca]. destruct HT as [E HI']. eexists. split; [reflexivity|]. split; [|exact HI'].
    split; [exact H1|]. cbn [children g_children map]. rewrite E, H2. reflexivity.
  - eexists. split; [reflexivity|]. split; [|exact HI]. split; cbn [parents g_parents children g_children]; [|exact H2]. rewrite <- H1, <- H2, map_length. reflexivity.
  - rewrite <- H1. destruct (parents b) as [|[k first] ps]; [reflexivity|]. rewrite <- H2, map_length.
    pose proof (node_ok b k (List.length (children b) - first) HI) as HN. cbv zeta in *. destruct (cache_node _ _ _ b k _) as [c ca]. destruct HN as [E HI']. eexists. split; [reflexivity|].
    split; [|exact HI']. split; [reflexivity|]. cbn [children g_children map]. rewrite E, skipn_map, firstn_map, map_rev. reflexivity.
  - eexists. split; [reflexivity|]. split; [split; [exact H1|exact H2]|exact HI].
Qed.
Lemma steps_ok ss : forall b g, one_each (all_subs b) -> same_state b g ->
  match g_steps ss g with
  | Done g' => exists b', c_steps hash_token hash_node probe alloc ss b = Done b' /\ same_state b' g' /\ one_each (all_subs b')
  | Panic => c_steps hash_token hash_node probe alloc ss b = Panic
  | _ => False
  end.
Proof.
  induction ss as [|s ss IH]; intros b g HI HS; cbn [g_steps c_steps]; [eauto|]. pose proof (step_ok s b g HI HS) as H. destruct (g_step s g) as [g'| | |]; cbn [bind]; try contradiction.
  - destruct H as (b' & -> & HS' & HI'). cbn [bind]. apply IH; assumption.
  - rewrite H. reflexivity.
Qed.
(** the caches that earlier builders can have left behind *)
Inductive used : node_cache -> Prop :=
  | used_empty : used empty_cache
  | used_after c ss b : used c -> c_steps hash_token hash_node probe alloc ss (with_cache c) = Done b -> used (cache b).
Lemma used_ok c : used c -> one_each (all_subs (with_cache c)).
Proof.
  induction 1 as [|c ss b HU IH HS]; [intros x y []|]. pose proof (steps_ok ss (with_cache c) (MkG [] [] []) IH (conj eq_refl eq_refl)) as H.
  destruct (g_steps ss _); try contradiction.
  - destruct H as (b' & E & _ & HI). rewrite HS in E. injection E as <-. eapply one_each_incl; [|exact HI]. intros x Hx. unfold all_subs in *. cbn [with_cache cache children flat_map] in Hx. rewrite app_nil_r in Hx.
    apply in_app_iff4. apply in_app_iff in Hx. tauto.
  - congruence.
Qed.
End cache.

(** Building with a cache, whatever was built with it before, gives the tree that is built without one (and panics exactly if that
    does), for every hash function (they may collide), every hash table and every allocator.  A hash table answers with one of the
    entries it holds; an allocator returns an address that is not in use. *)
Theorem C22_transparent : forall hash_token hash_node probe alloc,
  (forall h l, incl (probe h l) l) -> (forall l, ~ In (alloc l) l) ->
  forall c, used hash_token hash_node probe alloc c -> forall steps,
  match g_steps steps (MkG [] [] []) with
  | Done g => exists b, c_steps hash_token hash_node probe alloc steps (with_cache c) = Done b /\
                        parents b = g_parents g /\ map (fun x => erase (snd x)) (children b) = g_children g
  | r => c_steps hash_token hash_node probe alloc steps (with_cache c) = match r with Panic => Panic | Diverge => Diverge | _ => Deep end
  end.
Proof.
  intros ht hn probe alloc HP HA c HU steps. pose proof (steps_ok ht hn probe alloc HP HA steps (with_cache c) (MkG [] [] []) (used_ok ht hn probe alloc HP HA c HU) (conj eq_refl eq_refl)) as H.
  destruct (g_steps steps _); try contradiction; [|exact H]. destruct H as (b & E & [H1 H2] & _). eauto.
Qed.
Print Assumptions C22_transparent.

(** a hash function that always collides, a table that looks at everything and an allocator *)
Definition biggest (l : list N) : N := 1 + fold_right N.max 0 l.
Lemma biggest_fresh l : ~ In (biggest l) l.
Proof.
  assert (H : forall x, In x l -> x < biggest l). { unfold biggest. induction l as [|y l IH]; intros x Hx; [destruct Hx|]. destruct Hx as [<- |Hx]; cbn [fold_right]; [lia|]. specialize (IH x Hx). lia. }
  intros HI. specialize (H _ HI). lia.
Qed.
Example C22_example :
  let steps := [StartNode ROOT; StartNode KEYS; AddToken BARE_KEY [97]; FinishNode; StartNode KEYS; AddToken BARE_KEY [97]; FinishNode; FinishNode] in
  match c_steps (fun _ _ => 7) (fun _ _ => 7) (fun _ l => l) biggest steps (with_cache empty_cache) with
  | Done b =>
      children b = [(7, ENode 3 ROOT [ENode 2 KEYS [ETok 1 BARE_KEY [97]]; ENode 2 KEYS [ETok 1 BARE_KEY [97]]])] /\
      used (fun _ _ => 7) (fun _ _ => 7) (fun _ l => l) biggest (cache b) /\ (forall l, ~ In (biggest l) l) /\
      match c_steps (fun _ _ => 7) (fun _ _ => 7) (fun _ l => l) biggest (StartNode TABLE :: AddToken BARE_KEY [98] :: steps ++ [FinishNode]) (with_cache (cache b)) with
      | Done b' => map (fun x => erase (snd x)) (children b') =
          [TNode TABLE [TToken BARE_KEY [98]; TNode ROOT [TNode KEYS [TToken BARE_KEY [97]]; TNode KEYS [TToken BARE_KEY [97]]]]]
      | _ => False
      end
  | _ => False
  end.
Proof.
  cbv zeta. destruct (c_steps _ _ _ _ _ (with_cache empty_cache)) as [b| | |] eqn:E; try discriminate E. split; [|split; [exact (used_after _ _ _ _ _ _ b (used_empty _ _ _ _) E)|split; [exact biggest_fresh|]]].
  - vm_compute in E. injection E as <-. reflexivity.
  - vm_compute in E. injection E as <-. vm_compute. reflexivity.
Qed.
