(** Final theorems about the syntactic lint rules (C27, C32). *)
From Coq Require Import String Ascii List NArith Bool Arith Lia ZifyBool Permutation Sorted.
From Verif Require Import Base SyntaxKind TextModel LexerModel LexerSpec LexerProofs TomlTextModel ParserModel ParserInv ParserBuild AstModel LinterModel LspTextSpec.
Import ListNotations.
Open Scope N_scope.
Open Scope list_scope.

(** * Groups *)
Section Groups.
  Context {X : Type}.
  Definition build (l : list (str * X)) : list (str * list X) := fold_left (fun gs '(k, x) => push_group k x gs) l [].
  Definition of_key (k : str) (l : list (str * X)) : list X := map snd (filter (fun e => str_eqb (fst e) k) l).

  Lemma push_perm (c : str -> bool) (k : str) (x : X) gs :
    Permutation (flat_map (fun g => if c (fst g) then snd g else []) (push_group k x gs))
      (flat_map (fun g => if c (fst g) then snd g else []) gs ++ (if c k then [x] else [])).
  Proof.
    induction gs as [|[k' xs] gs IH]; cbn [push_group flat_map fst snd]; [rewrite app_nil_r; reflexivity|].
    destruct (str_eqb k k') eqn:E; cbn [flat_map fst snd].
    - apply str_eqb_eq in E. subst k'. destruct (c k).
      + rewrite <- !app_assoc. apply Permutation_app_head. apply Permutation_app_comm.
      + rewrite app_nil_r. reflexivity.
    - rewrite <- app_assoc. apply Permutation_app_head. exact IH.
  Qed.
  Definition inv (gs : list (str * list X)) (l : list (str * X)) : Prop :=
    NoDup (map fst gs) /\ (forall k, In k (map fst gs) <-> In k (map fst l)) /\ (forall k xs, In (k, xs) gs -> xs = of_key k l).
  Lemma push_keys (k : str) (x : X) gs k' : In k' (map fst (push_group k x gs)) <-> k' = k \/ In k' (map fst gs).
  Proof.
    induction gs as [|[k0 xs] gs IH]; cbn [push_group map fst In]; [intuition|].
    destruct (str_eqb k k0) eqn:E; cbn [map fst In]; [apply str_eqb_eq in E; subst; intuition|]. rewrite IH. intuition.
  Qed.
  Lemma push_in (k : str) (x : X) gs : NoDup (map fst gs) -> forall k' xs, In (k', xs) (push_group k x gs) ->
    (k' <> k /\ In (k', xs) gs) \/ (k' = k /\ ((exists ys, In (k, ys) gs /\ xs = ys ++ [x]) \/ (~ In k (map fst gs) /\ xs = [x]))).
  Proof.
    induction gs as [|[k0 xs0] gs IH]; intros ND k' xs HIn; cbn [push_group] in HIn.
    - destruct HIn as [H|[]]. injection H as <- <-. right. split; auto.
    - inversion ND as [|? ? N1 N2]; subst. destruct (str_eqb k k0) eqn:E.
      + apply str_eqb_eq in E. subst k0. destruct HIn as [H|H].
        * injection H as <- <-. right. split; auto. left. eexists. split; [left; reflexivity|reflexivity].
        * left. split; [|right; auto]. intros ->. apply N1. apply in_map with (f := fst) in H. exact H.
      + apply str_eqb_neq in E. destruct HIn as [H|H].
        * injection H as <- <-. left. split; [auto|left; reflexivity].
        * destruct (IH N2 _ _ H) as [[A B]|[A [(ys & B & C)|[B C]]]].
          { left. split; [auto|right; auto]. }
          { right. split; auto. left. exists ys. split; [right; auto|auto]. }
          { right. split; auto. right. split; auto. cbn [map fst In]. intros [K|K]; [congruence|auto]. }
  Qed.
  Lemma push_nodup (k : str) (x : X) gs : NoDup (map fst gs) -> NoDup (map fst (push_group k x gs)).
  Proof.
    induction gs as [|[k0 xs] gs IH]; intros ND; cbn [push_group map fst]; [constructor; auto; constructor|].
    inversion ND as [|? ? N1 N2]; subst. destruct (str_eqb k k0) eqn:E; cbn [map fst]; [constructor; auto|].
    apply str_eqb_neq in E. constructor; [|auto]. rewrite push_keys. intros [K|K]; [congruence|auto].
  Qed.
  Lemma of_key_app k l1 l2 : of_key k (l1 ++ l2) = of_key k l1 ++ of_key k l2.
  Proof. unfold of_key. rewrite filter_app, map_app. reflexivity. Qed.
  Lemma of_key_none k l : ~ In k (map fst l) -> of_key k l = [].
  Proof.
    unfold of_key. induction l as [|[a b] l IH]; [reflexivity|]. cbn [map fst filter In]. intros H. destruct (str_eqb a k) eqn:E; [apply str_eqb_eq in E; exfalso; apply H; auto|]. apply IH. auto.
  Qed.
  Lemma push_inv k x gs l : inv gs l -> inv (push_group k x gs) (l ++ [(k, x)]).
  Proof.
    intros (N1 & N2 & N3). split; [apply push_nodup; auto|]. split.
    - intros k'. rewrite push_keys, map_app, in_app_iff, N2. cbn [map fst In]. intuition.
    - intros k' xs H. rewrite of_key_app. unfold of_key at 2. cbn [filter fst map].
      destruct (push_in k x gs N1 k' xs H) as [[A B]|[-> [(ys & B & ->)|[B ->]]]].
      + destruct (str_eqb k k') eqn:E; [apply str_eqb_eq in E; congruence|]. cbn [map]. rewrite app_nil_r. apply N3. exact B.
      + rewrite str_eqb_refl. cbn [map snd]. f_equal. apply N3. exact B.
      + rewrite str_eqb_refl. cbn [map snd]. rewrite of_key_none; [reflexivity|]. rewrite <- N2. exact B.
  Qed.
  Lemma build_snoc l k x : build (l ++ [(k, x)]) = push_group k x (build l).
  Proof. unfold build. rewrite fold_left_app. reflexivity. Qed.
  Lemma build_inv l : inv (build l) l.
  Proof.
    induction l as [|[k x] l IH] using rev_ind; [split; [constructor|]; split; [intros k; tauto|intros k xs []]|].
    rewrite build_snoc. apply push_inv. exact IH.
  Qed.
  Lemma build_perm (c : str -> bool) l :
    Permutation (flat_map (fun g => if c (fst g) then snd g else []) (build l)) (map snd (filter (fun e => c (fst e)) l)).
  Proof.
    induction l as [|[k x] l IH] using rev_ind; [constructor|]. rewrite build_snoc, push_perm, filter_app, map_app. cbn [filter fst].
    apply Permutation_app; [exact IH|]. destruct (c k); reflexivity.
  Qed.
  (** A selection of whole groups that depends on the group. *)
  Lemma build_select {Y} (c : str -> list X -> bool) (f : X -> Y) l :
    Permutation (flat_map (fun '(k, xs) => if c k xs then map f xs else []) (build l))
      (map f (map snd (filter (fun e => c (fst e) (of_key (fst e) l)) l))).
  Proof.
    rewrite <- (build_perm (fun k => c k (of_key k l))). pose proof (build_inv l) as (_ & _ & H).
    induction (build l) as [|[k xs] gs IH]; [constructor|]. cbn [flat_map fst snd]. rewrite map_app. apply Permutation_app.
    - rewrite (H k xs) by (left; reflexivity). destruct (c k _); reflexivity.
    - apply IH. intros k' xs' Hin. apply H. right. exact Hin.
  Qed.
End Groups.

(** * Order *)
Lemma fold_min_le : forall l a, fold_left N.min l a <= a /\ forall x, In x l -> fold_left N.min l a <= x.
Proof.
  induction l as [|b l IH]; intros a; cbn [fold_left]; [split; [lia|contradiction]|]. destruct (IH (N.min a b)) as [H1 H2]. split; [lia|].
  intros x [->|H]; [lia|]. apply H2. exact H.
Qed.
Lemma list_min_le l x : In x l -> list_min l <= x.
Proof.
  destruct l as [|a l]; [contradiction|]. cbn [list_min]. destruct (fold_min_le l a) as [H1 H2]. intros [->|H]; auto.
Qed.
Lemma list_min_in l : l <> [] -> In (list_min l) l.
Proof.
  destruct l as [|a l]; [contradiction|]. intros _. cbn [list_min]. revert a. induction l as [|b l IH]; intros a; cbn [fold_left]; [left; reflexivity|].
  destruct (IH (N.min a b)) as [H|H]; [|right; right; exact H]. rewrite <- H. destruct (N.min_spec a b) as [[_ ->]|[_ ->]]; [left|right; left]; reflexivity.
Qed.
Lemma fold_max_le : forall l a, a <= fold_left N.max l a /\ forall x, In x l -> x <= fold_left N.max l a.
Proof.
  induction l as [|b l IH]; intros a; cbn [fold_left]; [split; [lia|contradiction]|]. destruct (IH (N.max a b)) as [H1 H2]. split; [lia|].
  intros x [->|H]; [lia|]. apply H2. exact H.
Qed.
Lemma list_max_ge l x : In x l -> x <= list_max l.
Proof.
  destruct l as [|a l]; [contradiction|]. cbn [list_max]. destruct (fold_max_le l a) as [H1 H2]. intros [->|H]; auto.
Qed.
Lemma list_max_in l : l <> [] -> In (list_max l) l.
Proof.
  destruct l as [|a l]; [contradiction|]. intros _. cbn [list_max]. revert a. induction l as [|b l IH]; intros a; cbn [fold_left]; [left; reflexivity|].
  destruct (IH (N.max a b)) as [H|H]; [|right; right; exact H]. rewrite <- H. destruct (N.max_spec a b) as [[_ ->]|[_ ->]]; [right; left|left]; reflexivity.
Qed.

(** Positions that grow along the list. *)
Definition growing {A} (f : A -> N) (l : list A) : Prop := StronglySorted (fun a b => f a < f b) l.
Lemma growing_split {A} (f : A -> N) l x y : growing f l -> In x l -> In y l -> f x < f y -> exists a b c, l = a ++ x :: b ++ y :: c.
Proof.
  induction 1 as [|z l HS IH HF]; [contradiction|]. intros [->|Hx] [->|Hy] Hlt.
  - lia.
  - apply in_split in Hy as (b & c & ->). exists [], b, c. reflexivity.
  - rewrite Forall_forall in HF. apply HF in Hx. lia.
  - destruct (IH Hx Hy Hlt) as (a & b & c & ->). exists (z :: a), b, c. reflexivity.
Qed.
Lemma growing_three {A} (f : A -> N) l x y z : growing f l -> In x l -> In y l -> In z l -> f x < f y -> f y < f z ->
  exists a b c d, l = a ++ x :: b ++ y :: c ++ z :: d.
Proof.
  intros HS Hx Hy Hz H1 H2. destruct (growing_split f l x y HS Hx Hy H1) as (a & b & c & ->).
  assert (HS' : growing f (y :: c)).
  { clear - HS. change (a ++ x :: b ++ y :: c) with (a ++ (x :: b) ++ (y :: c)) in HS. rewrite app_assoc in HS.
    induction (a ++ x :: b) as [|u l IH]; [exact HS|]. inversion HS; auto. }
  assert (Hz' : In z (y :: c)).
  { assert (G : forall l1 l2, growing f (l1 ++ y :: l2) -> In z (l1 ++ y :: l2) -> f y < f z -> In z (y :: l2)).
    { clear. induction l1 as [|u l1 IH]; intros l2 HS H Hlt; [exact H|]. cbn [app] in HS. inversion HS as [|? ? S1 S2]; subst.
      destruct H as [->|H]; [|apply IH; auto]. rewrite Forall_forall in S2. specialize (S2 y ltac:(apply in_or_app; right; left; auto)). lia. }
    apply (G (a ++ x :: b) c); [rewrite <- app_assoc; exact HS|rewrite <- app_assoc; exact Hz|exact H2]. }
  destruct (growing_split f (y :: c) y z HS' (or_introl eq_refl) Hz' H2) as (a' & b' & c' & E).
  assert (a' = []).
  { destruct a' as [|u a']; [reflexivity|]. injection E as E1 E2. subst u. exfalso. inversion HS' as [|? ? S1 S2]; subst.
    rewrite Forall_forall in S2. specialize (S2 y ltac:(apply in_or_app; right; left; auto)). lia. }
  subst a'. injection E as ->. exists a, b, b', c'. reflexivity.
Qed.
Lemma growing_app_lt {A} (f : A -> N) l1 x l2 y : growing f (l1 ++ x :: l2) -> In y l2 -> f x < f y.
Proof. induction l1 as [|z l1 IH]; cbn [app]; intros H Hy; inversion H as [|? ? H1 H2]; subst; [rewrite Forall_forall in H2; auto|auto]. Qed.

(** * C27: tables *)
(** The text of the first key of a header as the rule sees it: without quotes, escapes not decoded. *)
Definition written_key (key : el) : str := match ekind_of key with BARE_KEY => etext key | _ => removelast (tl (etext key)) end.
(** The tables of a document that have a key in their header, with the first key. *)
Definition headed (item : el) : list (str * el) :=
  if is_table_or_array_of_table (ekind_of item) then
    match keys_child item with
    | Some header => match keys_of header with key :: _ => [(written_key key, item)] | [] => [] end
    | None => []
    end
  else [].
Definition headed_tables (root : el) : list (str * el) := flat_map headed (root_items root).

(** The entries with key [k] are interrupted in a list of entries: an entry with another key stands between two of them. *)
Definition interrupted {A K} (key : A -> K) (l : list A) (k : K) : Prop :=
  exists a x b y c z d, l = a ++ x :: b ++ y :: c ++ z :: d /\ key x = k /\ key z = k /\ key y <> k.

(** [e] is at its place in the source. *)
Definition within (source : str) (e : el) : Prop := exists rest, source = pre e ++ etext e ++ rest.
Lemma within_place p cs e : In e (place_children p cs) -> exists a b, cs = a ++ it e :: b /\ pre e = p ++ ttexts a.
Proof.
  revert p. induction cs as [|c cs IH]; intros p H; [contradiction|]. destruct H as [<-|H].
  - exists [], cs. split; [reflexivity|]. cbn. rewrite app_nil_r. reflexivity.
  - destruct (IH _ H) as (a & b & -> & E). exists (c :: a), b. split; [reflexivity|]. rewrite E. unfold ttexts. cbn [flat_map]. rewrite app_assoc. reflexivity.
Qed.
Lemma within_child source e c : within source e -> In c (children_with_tokens e) -> within source c.
Proof.
  intros (rest & ->) H. unfold children_with_tokens in H. destruct (it e) as [k cs|k w] eqn:E; [|contradiction].
  destruct (within_place _ _ _ H) as (a & b & -> & EP). exists (ttexts b ++ rest). unfold within, etext. rewrite E, EP. cbn [ttext].
  rewrite flat_map_app. cbn [flat_map]. fold (ttexts a). fold (ttexts b). rewrite <- !app_assoc. reflexivity.
Qed.
Lemma children_sub e c : In c (children e) -> In c (children_with_tokens e).
Proof. unfold children. rewrite filter_In. tauto. Qed.
Lemma children_of_sub f e c : In c (children_of f e) -> In c (children_with_tokens e) /\ f (ekind_of c) = true.
Proof. unfold children_of. rewrite filter_In. intros [H1 H2]. split; [apply children_sub; auto|auto]. Qed.
Lemma child_sub f e c : child f e = Some c -> In c (children_with_tokens e) /\ f (ekind_of c) = true.
Proof. intros H. apply find_some in H as [H1 H2]. split; [apply children_sub; auto|auto]. Qed.

Lemma len_slice source e : within source e -> text_slice source (sstart (espan_of e)) (send (espan_of e)) = Some (etext e).
Proof. intros (rest & ->). unfold espan_of. cbn [sstart send]. rewrite <- len_bytes_app. apply text_slice_app. Qed.

(** Quoted keys have their quotes: the tokens of the lexer do (C05). *)
Definition quoted (key : el) : Prop := ekind_of key = BARE_KEY \/ exists q body q', etext key = q :: body ++ [q'] /\ len_utf8 q = 1 /\ len_utf8 q' = 1.
Lemma key_part_spec source key : within source key -> quoted key -> key_part source key = Some (written_key key).
Proof.
  intros HW HQ. unfold key_part, written_key. destruct HQ as [HQ|(q & body & q' & E & L1 & L2)].
  - rewrite HQ. apply len_slice. exact HW.
  - assert (T : text_slice source (sstart (espan_of key) + 1) (send (espan_of key) - 1) = Some body).
    { destruct HW as (rest & ->). unfold espan_of. cbn [sstart send]. rewrite E. cbn [app len_bytes]. rewrite len_bytes_app. cbn [len_bytes]. rewrite L1, L2.
      replace (pre key ++ q :: (body ++ [q']) ++ rest) with ((pre key ++ [q]) ++ body ++ (q' :: rest)) by (rewrite <- !app_assoc; reflexivity).
      replace (len_bytes (pre key) + 1) with (len_bytes (pre key ++ [q])) by (rewrite len_bytes_app; cbn [len_bytes]; lia).
      replace (len_bytes (pre key) + (1 + (len_bytes body + (1 + 0))) - 1) with (len_bytes ((pre key ++ [q]) ++ body)) by (rewrite !len_bytes_app; cbn [len_bytes]; lia).
      apply text_slice_app. }
    rewrite T. destruct (ekind_of key) eqn:EK; try (rewrite E; cbn [tl]; rewrite removelast_last; reflexivity).
    (* BARE_KEY *) pose proof HW as HW'. apply len_slice in HW'. exact HW'.
Qed.

Definition keys_quoted (root : el) : Prop :=
  forall item header key, In item (root_items root) -> keys_child item = Some header -> In key (keys_of header) -> quoted key.

Lemma parts_spec source keys : (forall k, In k keys -> within source k /\ quoted k) -> extract_key_parts source keys = Some (map written_key keys).
Proof.
  induction keys as [|k ks IH]; intros H; [reflexivity|]. cbn [extract_key_parts map]. destruct (H k (or_introl eq_refl)) as [H1 H2].
  rewrite (key_part_spec _ _ H1 H2), IH by (intros k' Hk; apply H; right; exact Hk). reflexivity.
Qed.
Lemma positions_spec source items : forall n,
  (forall item header key, In item items -> keys_child item = Some header -> In key (keys_of header) -> within source key /\ quoted key) ->
  exists ts, table_positions source n items = Some ts /\ growing (fun e : N * list str * el => fst (fst e)) ts /\
    (forall t, In t ts -> n <= fst (fst t)) /\
    map (fun '(_, ks, e) => (hd [] ks, e)) ts = flat_map headed items /\ (forall t, In t ts -> snd (fst t) <> []).
Proof.
  induction items as [|item items IH]; intros n H; [exists []; cbn; repeat split; auto; try constructor; contradiction|].
  destruct (IH (n + 1)) as (ts & E & HG & HL & HM & HN); [intros i h k Hi; apply H; right; exact Hi|].
  cbn [table_positions flat_map]. rewrite E. unfold headed at 1.
  assert (SKIP : exists ts0, Some ts = Some ts0 /\ growing (fun e : N * list str * el => fst (fst e)) ts0 /\ (forall t, In t ts0 -> n <= fst (fst t)) /\
    map (fun '(_, ks, e) => (hd [] ks, e)) ts0 = [] ++ flat_map headed items /\ (forall t, In t ts0 -> snd (fst t) <> [])).
  { exists ts. split; [reflexivity|]. split; [exact HG|]. split; [intros t Ht; specialize (HL t Ht); lia|]. split; [exact HM|exact HN]. }
  destruct (is_table_or_array_of_table (ekind_of item)); [|exact SKIP]. destruct (keys_child item) as [header|] eqn:EH; [|exact SKIP].
  rewrite parts_spec by (intros k Hk; apply (H item header k); [left; reflexivity|exact EH|exact Hk]).
  destruct (keys_of header) as [|key keys] eqn:EK; [exact SKIP|]. cbn [map].
  eexists. split; [reflexivity|]. split.
  - constructor; [exact HG|]. apply Forall_forall. intros t Ht. specialize (HL t Ht). cbn [fst]. lia.
  - split; [intros t [<-|Ht]; [cbn; lia|specialize (HL t Ht); lia]|]. split; [cbn [map hd app]; f_equal; exact HM|].
    intros t [<-|Ht]; [cbn; discriminate|auto].
Qed.

Lemma of_key_in {X} k (x : X) l : In x (of_key k l) <-> In (k, x) l.
Proof.
  unfold of_key. rewrite in_map_iff. split.
  - intros ([k' x'] & <- & H). apply filter_In in H as [H1 H2]. cbn [fst] in H2. apply str_eqb_eq in H2. subst. exact H1.
  - intros H. exists (k, x). split; [reflexivity|]. apply filter_In. split; [exact H|]. apply str_eqb_refl.
Qed.
Lemma map_split3 {A B} (f : A -> B) l a x b y c z d : map f l = a ++ x :: b ++ y :: c ++ z :: d ->
  exists a' x' b' y' c' z' d', l = a' ++ x' :: b' ++ y' :: c' ++ z' :: d' /\ f x' = x /\ f y' = y /\ f z' = z.
Proof.
  intros H. apply map_eq_app in H as (a' & l1 & -> & _ & H). apply map_eq_cons in H as (x' & l2 & -> & Hx & H).
  apply map_eq_app in H as (b' & l3 & -> & _ & H). apply map_eq_cons in H as (y' & l4 & -> & Hy & H).
  apply map_eq_app in H as (c' & l5 & -> & _ & H). apply map_eq_cons in H as (z' & d' & -> & Hz & _).
  exists a', x', b', y', c', z', d'. auto.
Qed.

Lemma tables_proof source root : within source root -> keys_quoted root ->
  exists reported keep, tables_out_of_order source root = Some reported /\
    Permutation reported (map snd (filter keep (headed_tables root))) /\
    (forall k t, In (k, t) (headed_tables root) -> (keep (k, t) = true <-> interrupted fst (headed_tables root) k)).
Proof.
  intros HW HQ. unfold tables_out_of_order.
  destruct (positions_spec source (root_items root) 0) as (ts & E & HG & _ & HM & HN).
  { intros item header key Hi Hh Hk. split; [|apply (HQ item header key); auto].
    apply within_child with (e := header); [|apply children_of_sub in Hk; tauto].
    apply within_child with (e := item); [|apply child_sub in Hh; tauto].
    apply within_child with (e := root); [exact HW|]. apply children_of_sub in Hi. tauto. }
  rewrite E. cbn [option_map].
  (* entries with position and table as the value of the group *)
  set (entry := fun t : N * list str * el => (hd [] (snd (fst t)), (fst (fst t), snd t))).
  assert (FG : forall ts' gs, (forall t, In t ts' -> snd (fst t) <> []) ->
    fold_left (fun gs '(pos, keys, e) => match keys with k :: _ => push_group k (pos, e) gs | [] => gs end) ts' gs =
    fold_left (fun gs '(k, x) => push_group k x gs) (map entry ts') gs).
  { induction ts' as [|[[p ks] e] ts' IH]; intros gs H; [reflexivity|]. cbn [fold_left map]. destruct ks as [|k ks].
    - exfalso. apply (H (p, [], e)); [left; reflexivity|reflexivity].
    - rewrite IH by (intros t Ht; apply H; right; exact Ht). reflexivity. }
  assert (HT : headed_tables root = map (fun x => (fst x, snd (snd x))) (map entry ts)).
  { unfold headed_tables. rewrite <- HM, map_map. apply map_ext. intros [[p ks] e]. reflexivity. }
  set (cond := fun (prefix : str) (positions : list (N * el)) =>
    if Nat.ltb 1 (length positions) then
      existsb (fun '(pos, keys, _) => (list_min (map fst positions) <? pos) && (pos <? list_max (map fst positions)) &&
                    (match keys with k :: _ => negb (str_eqb k prefix) | [] => false end)) ts
    else false).
  exists (out_of_order_tables ts), (fun kt => cond (fst kt) (of_key (fst kt) (map entry ts))). split; [reflexivity|]. split.
  - unfold out_of_order_tables. rewrite FG by exact HN. fold (build (map entry ts)).
    pose proof (build_select cond (snd : N * el -> el) (map entry ts)) as P.
    replace (flat_map _ (build (map entry ts))) with (flat_map (fun '(k, xs) => if cond k xs then map snd xs else []) (build (map entry ts))).
    2:{ apply flat_map_ext. intros [k xs]. unfold cond. destruct (Nat.ltb 1 (length xs)); reflexivity. }
    rewrite P, HT. clear P. induction (map entry ts) as [|[k x] l IH] at 2 4; [constructor|]. cbn [filter map fst snd].
    destruct (cond k (of_key k (map entry ts))); cbn [map snd]; [constructor|]; exact IH.
  - intros k t Hin. cbn [fst]. unfold cond. set (ps := of_key k (map entry ts)).
    assert (INP : forall p e, In (p, e) ps <-> exists t, In t ts /\ hd [] (snd (fst t)) = k /\ fst (fst t) = p /\ snd t = e).
    { intros p e. unfold ps. rewrite of_key_in, in_map_iff. unfold entry. split.
      - intros (t0 & H1 & H2). injection H1 as <- <- <-. exists t0. auto.
      - intros (t0 & H1 & <- & <- & <-). exists t0. auto. }
    split.
    + destruct (Nat.ltb 1 (length ps)) eqn:EL; [|discriminate]. intros HE. apply existsb_exists in HE as ([[pos keys] e] & Hy & HC).
      apply andb_prop in HC as [HC HK]. apply andb_prop in HC as [H1 H2].
      assert (NE : map fst ps <> []). { destruct ps; [discriminate EL|discriminate]. }
      pose proof (list_min_in _ NE) as HMin. pose proof (list_max_in _ NE) as HMax.
      apply in_map_iff in HMin as ([p1 e1] & E1 & I1). apply in_map_iff in HMax as ([p2 e2] & E2 & I2). cbn [fst] in E1, E2.
      apply INP in I1 as (t1 & A1 & A2 & A3 & A4). apply INP in I2 as (t2 & B1 & B2 & B3 & B4).
      destruct (growing_three (fun e : N * list str * el => fst (fst e)) ts t1 (pos, keys, e) t2 HG A1 Hy B1) as (a & b & c & d & ET); [cbn [fst]; lia|cbn [fst]; lia|].
      exists (map (fun '(_, ks, e) => (hd [] ks, e)) a), (hd [] (snd (fst t1)), snd t1), (map (fun '(_, ks, e) => (hd [] ks, e)) b), (hd [] keys, e),
        (map (fun '(_, ks, e) => (hd [] ks, e)) c), (hd [] (snd (fst t2)), snd t2), (map (fun '(_, ks, e) => (hd [] ks, e)) d).
      split; [|cbn [fst]; split; [exact A2|split; [exact B2|]]].
      * unfold headed_tables. rewrite <- HM, ET. rewrite !map_app. cbn [map]. rewrite !map_app. cbn [map]. rewrite !map_app. cbn [map].
        destruct t1 as [[? ?] ?], t2 as [[? ?] ?]. reflexivity.
      * destruct keys as [|k0 keys]; [discriminate|]. cbn [hd]. destruct (str_eqb k0 k) eqn:EK; [discriminate|]. apply str_eqb_neq in EK. exact EK.
    + intros (a & x & b & y & c & z & d & EL & Kx & Kz & Ky). unfold headed_tables in EL. rewrite <- HM in EL.
      apply map_split3 in EL as (a' & x' & b' & y' & c' & z' & d' & -> & Fx & Fy & Fz).
      assert (Lxy : fst (fst x') < fst (fst y')) by (eapply (growing_app_lt (fun e : N * list str * el => fst (fst e)) a'); [exact HG|apply in_or_app; right; left; reflexivity]).
      assert (Lyz : fst (fst y') < fst (fst z')).
      { assert (HG' := HG). change (a' ++ x' :: b' ++ y' :: c' ++ z' :: d') with (a' ++ (x' :: b') ++ (y' :: c' ++ z' :: d')) in HG'. rewrite app_assoc in HG'.
        eapply (growing_app_lt (fun e : N * list str * el => fst (fst e)) (a' ++ x' :: b')); [exact HG'|apply in_or_app; right; left; reflexivity]. }
      assert (Ix : In (fst (fst x'), snd x') ps). { apply INP. exists x'. split; [apply in_or_app; right; left; reflexivity|]. destruct x' as [[? ?] ?]. cbn [fst snd] in *. subst x. cbn [fst] in Kx. auto. }
      assert (Iz : In (fst (fst z'), snd z') ps). { apply INP. exists z'. split; [apply in_or_app; right; right; apply in_or_app; right; right; apply in_or_app; right; left; reflexivity|]. destruct z' as [[? ?] ?]. cbn [fst snd] in *. subst z. cbn [fst] in Kz. auto. }
      assert (LL : Nat.ltb 1 (length ps) = true).
      { destruct ps as [|p1 [|p2 ps']]; [contradiction| |reflexivity]. destruct Ix as [Ix|[]]. destruct Iz as [Iz|[]]. rewrite Ix in Iz. injection Iz as Iz _. lia. }
      rewrite LL. apply existsb_exists. exists y'. split; [apply in_or_app; right; right; apply in_or_app; right; left; reflexivity|].
      destruct y' as [[py ky] ey]. cbn [fst snd] in *.
      assert (list_min (map fst ps) <= fst (fst x')) by (apply list_min_le; apply in_map with (f := fst) in Ix; exact Ix).
      assert (fst (fst z') <= list_max (map fst ps)) by (apply list_max_ge; apply in_map with (f := fst) in Iz; exact Iz).
      replace (list_min (map fst ps) <? py) with true by lia. replace (py <? list_max (map fst ps)) with true by lia. cbn [andb].
      assert (HNy := HN (py, ky, ey) ltac:(apply in_or_app; right; right; apply in_or_app; right; left; reflexivity)). cbn [fst snd] in HNy.
      destruct ky as [|k0 ky]; [congruence|]. subst y. cbn [fst hd] in Ky. apply str_eqb_neq in Ky. rewrite Ky. reflexivity.
Qed.

(** * C27: dotted keys *)
Definition first_key (v : toml_version) (kv : el) : option str := match first_key_text v kv with Some k => k | None => None end.
Definition keyed (v : toml_version) (kvs : list el) : list (option str * el) := map (fun kv => (first_key v kv, kv)) kvs.

Fixpoint indexed (v : toml_version) (i : N) (kvs : list el) : list (str * (N * el)) :=
  match kvs with
  | [] => []
  | kv :: kvs' => match first_key v kv with Some k => (k, (i, kv)) :: indexed v (i + 1) kvs' | None => indexed v (i + 1) kvs' end
  end.
Lemma dotted_groups_build v kvs : (forall kv, In kv kvs -> first_key_text v kv <> None) -> forall i gs,
  dotted_groups v i kvs gs = Some (fold_left (fun gs '(k, x) => push_group k x gs) (indexed v i kvs) gs).
Proof.
  induction kvs as [|kv kvs IH]; intros H i gs; [reflexivity|]. cbn [dotted_groups indexed]. unfold first_key.
  assert (H' : forall kv0, In kv0 kvs -> first_key_text v kv0 <> None) by (intros; apply H; right; auto).
  destruct (first_key_text v kv) as [[k|]|] eqn:E; [apply IH; auto|apply IH; auto|]. exfalso. exact (H kv (or_introl eq_refl) E).
Qed.
Lemma indexed_in v kvs : forall i k j e, In (k, (j, e)) (indexed v i kvs) <->
  exists a b, kvs = a ++ e :: b /\ first_key v e = Some k /\ j = i + N.of_nat (length a).
Proof.
  induction kvs as [|kv kvs IH]; intros i k j e; cbn [indexed].
  - split; [contradiction|]. intros (a & b & E & _). destruct a; discriminate.
  - assert (STEP : In (k, (j, e)) (indexed v (i + 1) kvs) -> exists a b, kv :: kvs = a ++ e :: b /\ first_key v e = Some k /\ j = i + N.of_nat (length a)).
    { intros H. apply IH in H as (a & b & -> & H1 & ->). exists (kv :: a), b. split; [reflexivity|]. split; [exact H1|]. cbn [length]. lia. }
    assert (BACK : forall a b, kv :: kvs = (kv :: a) ++ e :: b -> first_key v e = Some k -> j = i + N.of_nat (length (kv :: a)) -> In (k, (j, e)) (indexed v (i + 1) kvs)).
    { intros a b H1 H2 H3. apply IH. exists a, b. injection H1 as ->. split; [reflexivity|]. split; [exact H2|]. cbn [length] in H3. lia. }
    destruct (first_key v kv) as [k'|] eqn:E; cbn [In]; split.
    + intros [H|H]; [|apply STEP; exact H]. injection H as <- <- <-. exists [], kvs. split; [reflexivity|]. split; [exact E|]. cbn. lia.
    + intros (a & b & H1 & H2 & H3). destruct a as [|x a].
      * injection H1 as <- <-. left. rewrite E in H2. injection H2 as ->. cbn in H3. rewrite N.add_0_r in H3. subst. reflexivity.
      * injection H1 as <- H1. right. apply (BACK a b); [cbn; rewrite H1; reflexivity|exact H2|exact H3].
    + exact STEP.
    + intros (a & b & H1 & H2 & H3). destruct a as [|x a]; [injection H1 as <- <-; congruence|].
      injection H1 as <- H1. apply (BACK a b); [cbn; rewrite H1; reflexivity|exact H2|exact H3].
Qed.
Lemma indexed_growing v kvs : forall i, StronglySorted N.lt (map (fun e => fst (snd e)) (indexed v i kvs)) /\ Forall (fun e => i <= fst (snd e)) (indexed v i kvs).
Proof.
  induction kvs as [|kv kvs IH]; intros i; cbn [indexed]; [split; constructor|]. destruct (IH (i + 1)) as [H1 H2].
  assert (H3 : Forall (fun e : str * (N * el) => i <= fst (snd e)) (indexed v (i + 1) kvs)) by (eapply Forall_impl; [|exact H2]; cbn; intros; lia).
  destruct (first_key v kv) as [k|]; [|split; assumption]. cbn [map fst snd]. split.
  - constructor; [exact H1|]. apply Forall_map. eapply Forall_impl; [|exact H2]. cbn. intros; lia.
  - constructor; [cbn; lia|exact H3].
Qed.
Lemma of_key_growing v kvs i k : StronglySorted N.lt (map fst (of_key k (indexed v i kvs))).
Proof.
  destruct (indexed_growing v kvs i) as [H _]. unfold of_key. rewrite map_map. induction (indexed v i kvs) as [|e l IH]; [constructor|].
  cbn [map] in H. inversion H as [|? ? H1 H2]; subst. cbn [filter]. destruct (str_eqb (fst e) k); [|apply IH; exact H1]. cbn [map]. constructor; [apply IH; exact H1|].
  rewrite Forall_forall in *. intros x Hx. apply H2. apply in_map_iff in Hx as (y & <- & Hy). apply filter_In in Hy as [Hy _]. apply in_map_iff. exists y. auto.
Qed.
(** A gap: a number between two members that is not a member. *)
Lemma has_gap_spec l : StronglySorted N.lt l -> (has_gap l = true <-> exists x y z, In x l /\ In z l /\ x < y /\ y < z /\ ~ In y l).
Proof.
  induction l as [|a l IH]; intros HS; [split; [discriminate|intros (x & y & z & [] & _)]|].
  inversion HS as [|? ? S1 S2]; subst. destruct l as [|b l].
  - split; [discriminate|]. intros (x & y & z & [<-|[]] & [<-|[]] & H1 & H2 & _). lia.
  - cbn [has_gap]. rewrite orb_true_iff. rewrite (IH S1). inversion S1 as [|? ? T1 T2]; subst. rewrite Forall_forall in S2, T2. assert (a < b) by (apply S2; left; reflexivity). split.
    + intros [H1|(x & y & z & H1 & H2 & H3 & H4 & H5)].
      * exists a, (a + 1), b. split; [left; reflexivity|]. split; [right; left; reflexivity|]. split; [lia|]. split; [lia|]. intros [K|[K|K]]; [lia|lia|]. specialize (T2 _ K). lia.
      * exists x, y, z. split; [right; exact H1|]. split; [right; exact H2|]. split; [exact H3|]. split; [exact H4|]. intros [K|K]; [|auto]. specialize (S2 x H1). lia.
    + intros (x & y & z & H1 & H2 & H3 & H4 & H5). destruct (N.eqb_spec (a + 1) b) as [E|E]; [|left; reflexivity]. right.
      assert (y <> b) by (intros ->; apply H5; right; left; reflexivity).
      assert (Hz : In z (b :: l)). { destruct H2 as [<-|H2]; [|exact H2]. destruct H1 as [<-|H1]; [lia|]. specialize (S2 _ H1). lia. }
      assert (b < y). { destruct H1 as [<-|H1]; [lia|]. destruct H1 as [<-|H1]; [lia|]. specialize (T2 _ H1). lia. }
      exists b, y, z. split; [left; reflexivity|]. split; [exact Hz|]. split; [lia|]. split; [lia|]. intros K. apply H5. right. exact K.
Qed.
Lemma nth_split' {A} (l : list A) n : (n < length l)%nat -> exists a x b, l = a ++ x :: b /\ length a = n.
Proof.
  revert n. induction l as [|y l IH]; intros n H; [cbn in H; lia|]. destruct n as [|n]; [exists [], y, l; auto|].
  cbn in H. destruct (IH n) as (a & x & b & -> & E); [lia|]. exists (y :: a), x, b. split; [reflexivity|cbn; lia].
Qed.
Lemma split_order {A} (l a1 b1 a2 b2 : list A) x y : l = a1 ++ x :: b1 -> l = a2 ++ y :: b2 -> (length a1 < length a2)%nat -> exists m, a2 = a1 ++ x :: m /\ b1 = m ++ y :: b2.
Proof.
  revert l a2. induction a1 as [|u a1 IH]; intros l a2 -> E H.
  - destruct a2 as [|w a2]; [cbn in H; lia|]. injection E as <- E. exists a2. split; [reflexivity|exact E].
  - destruct a2 as [|w a2]; [cbn in H; lia|]. injection E as <- E. cbn in H. destruct (IH _ a2 eq_refl E) as (m & -> & ->); [lia|]. exists m. auto.
Qed.

Lemma dotted_proof v kvs : (forall kv, In kv kvs -> first_key_text v kv <> None) ->
  exists reported keep, dotted_keys_out_of_order v kvs = Some reported /\
    Permutation reported (filter keep kvs) /\
    (forall kv, In kv kvs -> (keep kv = true <-> exists k, first_key v kv = Some k /\ interrupted fst (keyed v kvs) (Some k))).
Proof.
  intros H. unfold dotted_keys_out_of_order. rewrite (dotted_groups_build v kvs H). cbn [option_map]. fold (build (indexed v 0 kvs)).
  set (cond := fun (k : str) (ps : list (N * el)) => has_gap (map fst ps)).
  set (keep := fun kv => match first_key v kv with Some k => cond k (of_key k (indexed v 0 kvs)) | None => false end).
  eexists. exists keep. split; [reflexivity|]. split.
  - pose proof (build_select cond (snd : N * el -> el) (indexed v 0 kvs)) as P.
    replace (flat_map _ (build (indexed v 0 kvs))) with (flat_map (fun '(k, xs) => if cond k xs then map snd xs else []) (build (indexed v 0 kvs))) by (apply flat_map_ext; intros [k xs]; reflexivity).
    rewrite P. clear P. unfold keep. generalize (of_key (X := N * el)). intros F.
    assert (G : forall i l, map snd (map snd (filter (fun e : str * (N * el) => cond (fst e) (F (fst e) (indexed v 0 kvs))) (indexed v i l))) =
      filter (fun kv => match first_key v kv with Some k => cond k (F k (indexed v 0 kvs)) | None => false end) l).
    { intros i l. revert i. induction l as [|kv l IH]; intros i; [reflexivity|]. cbn [indexed filter]. destruct (first_key v kv) as [k|] eqn:E; [|apply IH].
      cbn [filter fst]. destruct (cond k (F k (indexed v 0 kvs))); cbn [map snd]; [f_equal|]; apply IH. }
    rewrite G. reflexivity.
  - intros kv Hin. unfold keep. split.
    + destruct (first_key v kv) as [k|] eqn:E; [|discriminate]. unfold cond. rewrite has_gap_spec by apply of_key_growing.
      intros (x & y & z & H1 & H2 & H3 & H4 & H5). exists k. split; [reflexivity|].
      apply in_map_iff in H1 as ([x' ex] & E1 & H1). apply in_map_iff in H2 as ([z' ez] & E2 & H2). cbn [fst] in E1, E2. subst x' z'.
      apply of_key_in in H1, H2. apply indexed_in in H1 as (a1 & b1 & L1 & K1 & P1). apply indexed_in in H2 as (a2 & b2 & L2 & K2 & P2).
      destruct (nth_split' kvs (N.to_nat y)) as (a3 & ey & b3 & L3 & P3). { rewrite L2, app_length. cbn. lia. }
      destruct (split_order _ _ _ _ _ _ _ L1 L3) as (m & -> & ->); [lia|]. destruct (split_order _ _ _ _ _ _ _ L3 L2) as (m' & -> & ->); [lia|].
      exists (keyed v a1), (first_key v ex, ex), (keyed v m), (first_key v ey, ey), (keyed v m'), (first_key v ez, ez), (keyed v b2).
      split; [|cbn [fst]; split; [exact K1|split; [exact K2|]]].
      * rewrite L1. unfold keyed. rewrite !map_app. cbn [map]. rewrite !map_app. cbn [map]. rewrite !map_app. reflexivity.
      * intros K3. apply H5. apply in_map_iff. exists (y, ey). split; [reflexivity|]. apply of_key_in. apply indexed_in. exists (a1 ++ ex :: m), (m' ++ ez :: b2). split; [exact L3|]. split; [exact K3|]. lia.
    + intros (k & -> & (a & x & b & y & c & z & d & E & Kx & Kz & Ky)). unfold cond. rewrite has_gap_spec by apply of_key_growing.
      unfold keyed in E. apply map_split3 in E as (a' & x' & b' & y' & c' & z' & d' & -> & Fx & Fy & Fz). subst x y z. cbn [fst] in *.
      exists (N.of_nat (length a')), (N.of_nat (length (a' ++ x' :: b'))), (N.of_nat (length ((a' ++ x' :: b') ++ y' :: c'))).
      set (L := a' ++ x' :: b' ++ y' :: c' ++ z' :: d').
      assert (L1 : L = (a' ++ x' :: b') ++ y' :: c' ++ z' :: d') by (unfold L; rewrite <- app_assoc; reflexivity).
      assert (L2 : L = ((a' ++ x' :: b') ++ y' :: c') ++ z' :: d') by (unfold L; rewrite <- !app_assoc; cbn [app]; rewrite <- ?app_assoc; reflexivity).
      split; [|split; [|split; [|split]]].
      * apply in_map_iff. exists (N.of_nat (length a'), x'). split; [reflexivity|]. apply of_key_in, indexed_in. exists a', (b' ++ y' :: c' ++ z' :: d'). split; [reflexivity|]. split; [exact Kx|lia].
      * apply in_map_iff. exists (N.of_nat (length ((a' ++ x' :: b') ++ y' :: c')), z'). split; [reflexivity|]. apply of_key_in, indexed_in. exists ((a' ++ x' :: b') ++ y' :: c'), d'. split; [exact L2|]. split; [exact Kz|lia].
      * rewrite app_length. cbn [length]. lia.
      * rewrite (app_length (a' ++ x' :: b')). cbn [length]. lia.
      * intros K. apply in_map_iff in K as ([p e] & K1 & K2). cbn [fst] in K1. subst p. apply of_key_in, indexed_in in K2 as (a2 & b2 & L3 & K2 & P). apply Ky. rewrite <- K2. f_equal.
        fold L in L3. assert (length a2 = length (a' ++ x' :: b')) by lia. clear - L1 L3 H0. rewrite L1 in L3. revert a2 L3 H0. generalize (a' ++ x' :: b'). induction l as [|u l IH]; intros a2 E HL; destruct a2; try discriminate HL; injection E; auto.
        intros E' _. apply (IH a2); auto.
Qed.

(** * C32: commas *)
(** Items and commas of a group, in order. *)
Definition is_comma (e : el) : bool := has_kind COMMA e.
Definition signs (item : kind -> bool) (group : el) : list el := filter (fun e => item (ekind_of e) || is_comma e) (children group).
Definition starts_with_comma (l : list el) : bool := match l with e :: _ => is_comma e | [] => false end.

(** [v] lacks a comma in a sequence of items and commas: an item that another item follows and whose next sign is not a comma. *)
Definition lacks_comma (item : kind -> bool) (l : list el) (v : el) : Prop :=
  exists a b, l = a ++ v :: b /\ item (ekind_of v) = true /\ starts_with_comma b = false /\ existsb (fun e => item (ekind_of e)) b = true.
Inductive subsequence {A} : list A -> list A -> Prop :=
| SubNil l : subsequence [] l
| SubTake x l1 l2 : subsequence l1 l2 -> subsequence (x :: l1) (x :: l2)
| SubSkip x l1 l2 : subsequence l1 l2 -> subsequence l1 (x :: l2).
Lemma subsequence_app {A} (a b c d : list A) : subsequence a b -> subsequence c d -> subsequence (a ++ c) (b ++ d).
Proof. induction 1 as [l|x a b H IH|x a b H IH]; intros H2; cbn [app]; [induction l; [exact H2|constructor; auto]|constructor; auto|constructor; auto]. Qed.
Lemma subsequence_refl {A} (l : list A) : subsequence l l.
Proof. induction l; constructor; auto. Qed.
Lemma subsequence_trans {A} (a b c : list A) : subsequence a b -> subsequence b c -> subsequence a c.
Proof.
  intros H1 H2. revert a H1. induction H2 as [l|x l1 l2 H IH|x l1 l2 H IH]; intros a H1.
  - inversion H1; subst. constructor.
  - inversion H1; subst; [constructor|constructor; apply IH; assumption|constructor; apply IH; assumption].
  - constructor. apply IH. exact H1.
Qed.

Section Commas.
  Context (item : kind -> bool) (item_not_comma : item COMMA = false).
  Let sign := fun e => item (ekind_of e) || is_comma e.

  Lemma item_comma e : item (ekind_of e) = true -> is_comma e = false.
  Proof. unfold is_comma, has_kind. intros H. destruct (kind_eqb (ekind_of e) COMMA) eqn:E; [|reflexivity]. apply kind_eqb_eq in E. rewrite E in H. congruence. Qed.
  Lemma with_comma_signs nodes : forall p, with_comma item nodes p = with_comma item (filter sign nodes) p.
  Proof.
    induction nodes as [|n ns IH]; intros p; [reflexivity|]. cbn [with_comma filter]. unfold sign at 1. unfold is_comma. destruct (item (ekind_of n)) eqn:E1; cbn [orb].
    - cbn [with_comma]. rewrite E1. destruct p; [f_equal|]; apply IH.
    - destruct (has_kind COMMA n) eqn:E2; [cbn [with_comma]; rewrite E1, E2; destruct p; [f_equal|]; apply IH|apply IH].
  Qed.
  Definition pairs (s : list el) : list (el * option el) := with_comma item s None.
  (** The pairs of a sequence, unfolded at an item. *)
  Lemma pairs_item v s : forallb sign s = true -> item (ekind_of v) = true ->
    pairs (v :: s) = match s with c :: s' => if is_comma c then (v, Some c) :: pairs s' else (v, None) :: pairs s | [] => [(v, None)] end.
  Proof.
    intros HS Hv. unfold pairs. cbn [with_comma]. rewrite Hv. destruct s as [|c s]; [reflexivity|]. cbn [forallb] in HS. apply andb_prop in HS as [HS _].
    cbn [with_comma]. unfold sign in HS. unfold is_comma in *. destruct (item (ekind_of c)) eqn:E.
    - rewrite (item_comma c E : has_kind COMMA c = false). reflexivity.
    - cbn [orb] in HS. rewrite HS. reflexivity.
  Qed.
  Lemma pairs_comma c s : is_comma c = true -> pairs (c :: s) = pairs s.
  Proof.
    intros H. unfold pairs. cbn [with_comma]. destruct (item (ekind_of c)) eqn:E; [rewrite (item_comma c E) in H; discriminate|]. unfold is_comma in H. rewrite H. reflexivity.
  Qed.
  Lemma pairs_none s v : forallb sign s = true ->
    forall b, (exists a, pairs s = a ++ (v, None) :: b) <-> exists a' b', s = a' ++ v :: b' /\ item (ekind_of v) = true /\ starts_with_comma b' = false /\ b = pairs b'.
  Proof.
    remember (length s) as n eqn:EN. revert s EN. induction n as [n IHn] using (well_founded_induction lt_wf). intros s EN HS b. subst n.
    destruct s as [|e s].
    { split; [intros ([|? ?] & H); discriminate|intros ([|? ?] & ? & H & _); discriminate]. }
    pose proof HS as HS0. cbn [forallb] in HS. apply andb_prop in HS as [He HS]. unfold sign in He. destruct (item (ekind_of e)) eqn:Ei.
    - rewrite (pairs_item e s HS Ei). destruct s as [|c s].
      + split.
        * intros ([|x a] & H); [|destruct a; discriminate]. injection H as <- <-. exists [], []. auto.
        * intros ([|x a] & b' & H & H1 & H2 & ->); [|destruct a; discriminate]. injection H as <- <-. exists []. reflexivity.
      + destruct (is_comma c) eqn:Ec.
        * cbn [forallb] in HS. apply andb_prop in HS as [_ HS]. assert (L : (length s < length (e :: c :: s))%nat) by (cbn; lia). specialize (IHn _ L s eq_refl HS b). split.
          { intros ([|x a] & H); [discriminate|]. injection H as _ H. destruct IHn as [IHn _]. destruct (IHn (ex_intro _ a H)) as (a' & b' & -> & H1). exists (e :: c :: a'), b'. split; [reflexivity|exact H1]. }
          { intros (a' & b' & H & H1 & H2 & ->). destruct a' as [|x a']; [injection H as <- <-; cbn in H2; congruence|]. destruct a' as [|y a'].
            - injection H as _ H _. subst c. rewrite (item_comma v H1) in Ec. discriminate.
            - injection H as _ _ H. destruct IHn as [_ IHn]. destruct (IHn (ex_intro _ a' (ex_intro _ b' (conj H (conj H1 (conj H2 eq_refl)))))) as (a & ->). exists ((e, Some c) :: a). reflexivity. }
        * assert (L : (length (c :: s) < length (e :: c :: s))%nat) by (cbn; lia). specialize (IHn _ L (c :: s) eq_refl HS b). split.
          { intros ([|x a] & H).
            - injection H as <- <-. exists [], (c :: s). auto.
            - injection H as _ H. destruct IHn as [IHn _]. destruct (IHn (ex_intro _ a H)) as (a' & b' & -> & H1). exists (e :: a'), b'. split; [reflexivity|exact H1]. }
          { intros (a' & b' & H & H1 & H2 & ->). destruct a' as [|x a']; [injection H as <- <-; exists []; reflexivity|].
            injection H as _ H. destruct IHn as [_ IHn]. destruct (IHn (ex_intro _ a' (ex_intro _ b' (conj H (conj H1 (conj H2 eq_refl)))))) as (a & ->). exists ((e, None) :: a). reflexivity. }
    - cbn [orb] in He. rewrite (pairs_comma e s He). assert (L : (length s < length (e :: s))%nat) by (cbn; lia). specialize (IHn _ L s eq_refl HS b). rewrite IHn. split.
      + intros (a' & b' & -> & H). exists (e :: a'), b'. split; [reflexivity|exact H].
      + intros (a' & b' & H & H1 & H2). destruct a' as [|x a']; [injection H as <- _; congruence|]. injection H as _ ->. exists a', b'. auto.
  Qed.
  Lemma pairs_empty s : forallb sign s = true -> (pairs s <> [] <-> existsb (fun e => item (ekind_of e)) s = true).
  Proof.
    induction s as [|e s IH]; intros HS; [split; [intros H; exfalso; apply H; reflexivity|discriminate]|].
    cbn [forallb existsb] in *. apply andb_prop in HS as [He HS]. unfold sign in He. destruct (item (ekind_of e)) eqn:Ei; cbn [orb] in *.
    - split; [reflexivity|]. intros _. rewrite (pairs_item e s HS Ei). destruct s as [|c s]; [discriminate|]. destruct (is_comma c); discriminate.
    - rewrite (pairs_comma e s He). apply IH. exact HS.
  Qed.
  Lemma missing_in l v : In v (missing_commas l) <-> exists a b, l = a ++ (v, None) :: b /\ b <> [].
  Proof.
    induction l as [|[x c] l IH]; [split; [contradiction|intros ([|? ?] & ? & H & _); discriminate]|]. cbn [missing_commas].
    assert (STEP : In v (missing_commas l) -> exists a b, (x, c) :: l = a ++ (v, None) :: b /\ b <> []).
    { intros H. apply IH in H as (a & b & -> & H). exists ((x, c) :: a), b. auto. }
    assert (BACK : forall a b, l = a ++ (v, None) :: b -> b <> [] -> In v (missing_commas l)) by (intros a b H1 H2; apply IH; exists a, b; auto).
    split.
    - destruct l as [|p l]; [intros []|]. destruct c; [exact STEP|]. intros [<-|H]; [|apply STEP; exact H]. exists [], (p :: l). split; [reflexivity|discriminate].
    - intros ([|y a] & b & H & H2).
      + injection H as -> -> ->. destruct b; [congruence|]. left. reflexivity.
      + injection H as _ H. specialize (BACK _ _ H H2). destruct l; [exact BACK|]. destruct c; [exact BACK|right; exact BACK].
  Qed.
  Lemma flat_map_split {A B} (f : A -> list B) l a x b : flat_map f l = a ++ x :: b ->
    exists l1 y l2 a' b', l = l1 ++ y :: l2 /\ f y = a' ++ x :: b' /\ b = b' ++ flat_map f l2 /\ a = flat_map f l1 ++ a'.
  Proof.
    revert a. induction l as [|y l IH]; intros a H; [destruct a; discriminate|]. cbn [flat_map] in H. apply app_eq_app in H as (m & [[HF H]|[H1 H2]]).
    - destruct m as [|z m]; cbn [app] in *.
      + destruct (IH [] ) as (l1 & y' & l2 & a' & b' & -> & H2 & -> & E); [exact (eq_sym H)|]. exists (y :: l1), y', l2, a', b'. split; [reflexivity|]. split; [exact H2|]. split; [reflexivity|].
        cbn [flat_map]. rewrite <- app_assoc, <- E, HF, !app_nil_r. reflexivity.
      + injection H as <- ->. exists [], y, l, a, m. auto.
    - subst a. destruct (IH m H2) as (l1 & y' & l2 & a' & b' & -> & H3 & -> & ->). exists (y :: l1), y', l2, a', b'. cbn [flat_map]. rewrite <- app_assoc. auto.
  Qed.
  Lemma flat_map_nonempty {A B} (f : A -> list B) l : flat_map f l <> [] <-> exists x, In x l /\ f x <> [].
  Proof.
    induction l as [|x l IH]; cbn [flat_map]; [split; [congruence|intros (y & [] & _)]|]. split.
    - destruct (f x) eqn:E; [cbn [app]; rewrite IH; intros (y & H1 & H2); exists y; split; [right; auto|auto]|]. intros _. exists x. split; [left; auto|congruence].
    - intros (y & [<-|H] & H2); [destruct (f x); [congruence|discriminate]|]. destruct (f x); [apply IH; exists y; auto|discriminate].
  Qed.
  Lemma signs_signs g : forallb sign (signs item g) = true.
  Proof. apply forallb_forall. intros e H. apply filter_In in H as [_ H]. exact H. Qed.
  Lemma items_pairs g : items_with_comma item g = pairs (signs item g).
  Proof. apply with_comma_signs. Qed.
  Lemma starts_concat (ls : list (list el)) : (forall l, In l ls -> starts_with_comma l = false) -> starts_with_comma (concat ls) = false.
  Proof. induction ls as [|l ls IH]; intros H; [reflexivity|]. cbn [concat]. destruct l as [|e l]; [apply IH; intros; apply H; right; auto|]. exact (H (e :: l) (or_introl eq_refl)). Qed.
  Lemma existsb_items gs : existsb (fun e => item (ekind_of e)) (concat (map (signs item) gs)) = true <-> flat_map (items_with_comma item) gs <> [].
  Proof.
    rewrite flat_map_nonempty, existsb_exists. split.
    - intros (e & H1 & H2). apply in_concat in H1 as (l & H1 & H3). apply in_map_iff in H1 as (g & <- & H1). exists g. split; [exact H1|]. rewrite items_pairs. apply pairs_empty; [apply signs_signs|].
      apply existsb_exists. exists e. auto.
    - intros (g & H1 & H2). rewrite items_pairs in H2. apply pairs_empty in H2; [|apply signs_signs]. apply existsb_exists in H2 as (e & H2 & H3). exists e. split; [|exact H3]. apply in_concat. exists (signs item g). split; [apply in_map; exact H1|exact H2].
  Qed.
  Lemma missing_spec gs : (forall g, In g gs -> starts_with_comma (signs item g) = false) -> forall v,
    In v (missing_commas (flat_map (items_with_comma item) gs)) <-> lacks_comma item (concat (map (signs item) gs)) v.
  Proof.
    intros HC v. rewrite missing_in. split.
    - intros (a & b & H & HB). apply flat_map_split in H as (g1 & g & g2 & a' & b' & -> & H1 & -> & ->). rewrite items_pairs in H1.
      destruct (proj1 (pairs_none _ v (signs_signs g) b') (ex_intro _ a' H1)) as (s1 & s2 & E1 & E2 & E3 & ->).
      exists (concat (map (signs item) g1) ++ s1), (s2 ++ concat (map (signs item) g2)). split; [|split; [exact E2|split]].
      + rewrite map_app, concat_app. cbn [map concat]. rewrite E1, <- !app_assoc. reflexivity.
      + destruct s2 as [|e s2]; [|exact E3]. apply starts_concat. intros l Hl. apply in_map_iff in Hl as (g' & <- & Hl). apply HC. apply in_or_app. right. right. exact Hl.
      + rewrite existsb_app. pose proof (signs_signs g) as HS. rewrite E1, forallb_app in HS. apply andb_prop in HS as [_ HS]. cbn [forallb] in HS. apply andb_prop in HS as [_ HS].
        destruct (existsb (fun e => item (ekind_of e)) s2) eqn:EE; [reflexivity|]. cbn [orb]. apply existsb_items. intros K. apply HB. rewrite K, app_nil_r.
        destruct (pairs s2) eqn:EP; [reflexivity|]. exfalso. assert (X : pairs s2 <> []) by congruence. apply pairs_empty in X; [congruence|exact HS].
    - intros (a & b & H & E2 & E3 & E4). rewrite <- flat_map_concat_map in H. apply flat_map_split in H as (g1 & g & g2 & s1 & s2 & -> & H1 & -> & ->).
      pose proof (signs_signs g) as HS. rewrite H1, forallb_app in HS. apply andb_prop in HS as [_ HS]. cbn [forallb] in HS. apply andb_prop in HS as [_ HS].
      assert (E3' : starts_with_comma s2 = false) by (destruct s2; [reflexivity|exact E3]).
      destruct (proj2 (pairs_none _ v (signs_signs g) (pairs s2)) (ex_intro _ s1 (ex_intro _ s2 (conj H1 (conj E2 (conj E3' eq_refl)))))) as (a' & EP).
      exists (flat_map (items_with_comma item) g1 ++ a'), (pairs s2 ++ flat_map (items_with_comma item) g2). split.
      + rewrite flat_map_app. cbn [flat_map]. rewrite (items_pairs g), EP, <- !app_assoc. reflexivity.
      + rewrite existsb_app in E4. apply orb_prop in E4 as [E4|E4].
        * apply pairs_empty in E4; [|exact HS]. destruct (pairs s2); [congruence|discriminate].
        * rewrite flat_map_concat_map in E4. apply existsb_items in E4. intros K. apply app_eq_nil in K as [_ K]. exact (E4 K).
  Qed.
  Lemma missing_sub l : subsequence (missing_commas l) (map fst l).
  Proof. induction l as [|[x c] l IH]; [constructor|]. cbn [missing_commas map fst]. destruct l; [repeat constructor|]. destruct c; constructor; exact IH. Qed.
  Lemma with_comma_sub ns : forall p, subsequence (map fst (with_comma item ns p)) (match p with Some p => [p] | None => [] end ++ filter (fun e => item (ekind_of e)) ns).
  Proof.
    induction ns as [|n ns IH]; intros p; cbn [with_comma filter].
    - destruct p; repeat constructor.
    - destruct (item (ekind_of n)).
      + destruct p; cbn [map fst app]; [constructor|]; apply (IH (Some n)).
      + destruct (has_kind COMMA n); [|apply IH]. destruct p; cbn [map fst app]; [constructor|]; apply (IH None).
  Qed.
  Lemma missing_subsequence gs : subsequence (missing_commas (flat_map (items_with_comma item) gs)) (flat_map (children_of item) gs).
  Proof.
    eapply subsequence_trans; [apply missing_sub|]. induction gs as [|g gs IH]; [constructor|]. cbn [flat_map]. rewrite map_app. apply subsequence_app; [|exact IH].
    apply (with_comma_sub (children g) None).
  Qed.
End Commas.

(** The groups of a container that begins with its bracket. *)
Lemma filter_drop_while {A} (f g : A -> bool) l : (forall x, f x = true -> g x = false) -> filter f (drop_while g l) = filter f l.
Proof.
  intros H. induction l as [|x l IH]; [reflexivity|]. cbn [drop_while]. destruct (g x) eqn:E; [|reflexivity]. rewrite IH. cbn [filter]. destruct (f x) eqn:F; [apply H in F; congruence|reflexivity].
Qed.
Lemma filter_next_if (f : el -> bool) k es : (forall e, f e = true -> has_kind k e = false) -> filter f (snd (next_if k es)) = filter f es.
Proof. intros H. destruct es as [|e es]; [reflexivity|]. cbn [next_if]. destruct (has_kind k e) eqn:E; [|reflexivity]. cbn [snd filter]. destruct (f e) eqn:F; [apply H in F; congruence|reflexivity]. Qed.
Lemma groups_spec (group : kind) open w k p cs :
  (group = VALUE_WITH_COMMA_GROUP \/ group = KEY_VALUE_WITH_COMMA_GROUP) -> kind_eqb open group = false ->
  item_groups (dangling_comment_group_or (is_kind group) (after_opening open (El p (TNode k (TToken open w :: cs))))) =
  children_of (is_kind group) (El p (TNode k (TToken open w :: cs))).
Proof.
  intros HG HO. set (f := fun e => is_node e && is_kind group (ekind_of e)).
  assert (FK : forall e k', f e = true -> kind_eqb group k' = false -> has_kind k' e = false).
  { intros e k' H H'. unfold f in H. apply andb_prop in H as [_ H]. unfold is_kind in H. apply kind_eqb_eq in H. unfold has_kind. rewrite H. exact H'. }
  assert (A : forall es, item_groups (dangling_comment_group_or (is_kind group) es) = filter f es).
  { intros es. rewrite <- (filter_drop_while f dangling_kind).
    - unfold dangling_comment_group_or, item_groups. induction (drop_while dangling_kind es) as [|e l IH]; [reflexivity|]. cbn [flat_map filter]. rewrite flat_map_app, IH. unfold f at 2.
      destruct (is_node e); [|reflexivity]. destruct (has_kind DANGLING_COMMENT_GROUP e) eqn:E; cbn [andb].
      + unfold has_kind in E. apply kind_eqb_eq in E. rewrite E. destruct HG as [-> | ->]; reflexivity.
      + destruct (is_kind group (ekind_of e)); reflexivity.
    - intros e H. unfold dangling_kind, kind_in. cbn [existsb]. assert (B : forall k', kind_eqb group k' = false -> kind_eqb (ekind_of e) k' = false) by (intros k' H'; apply (FK e k' H H')).
      rewrite !B; [reflexivity| | |]; destruct HG as [-> | ->]; reflexivity. }
  rewrite A. unfold after_opening, children_of, children, children_with_tokens. cbn [it pre place_children drop_while]. unfold has_kind at 1. cbn [ekind_of tkind_of it].
  replace (kind_eqb open open) with true by (symmetry; apply kind_eqb_eq; reflexivity). cbn [negb tl].
  replace (filter _ (filter is_node _)) with (filter f (place_children (p ++ ttext (TToken open w)) cs)).
  2:{ cbn [filter is_node it]. induction (place_children _ cs) as [|e l IH]; [reflexivity|]. cbn [filter]. unfold f at 1. destruct (is_node e); cbn [andb filter]; [|exact IH]. destruct (is_kind group (ekind_of e)); [f_equal|]; exact IH. }
  set (es := place_children _ cs). unfold skip_trailing_comment.
  assert (B : forall k' es', kind_eqb group k' = false -> filter f (snd (next_if k' es')) = filter f es') by (intros k' es' H; apply filter_next_if; intros e He; apply FK; auto).
  pose proof (B WHITESPACE es ltac:(destruct HG as [-> | ->]; reflexivity)) as B1. destruct (next_if WHITESPACE es) as [b1 es1]. cbn [snd] in B1.
  pose proof (B COMMENT es1 ltac:(destruct HG as [-> | ->]; reflexivity)) as B2. destruct (next_if COMMENT es1) as [b2 es2]. cbn [snd] in B2.
  destruct b2; [rewrite B by (destruct HG as [-> | ->]; reflexivity)|]; congruence.
Qed.

(** * Final theorems *)

(** C27, tables.  [headed_tables root] lists the tables and arrays of tables of the document with the first key of the header as written, without
    quotes.  The rule does not panic and reports each table at most once, exactly those whose first key is interrupted.  The part that is missing: the
    rule compares keys as written and not by value, so that two spellings of a key count as different ([C27_escaped_key_refuted]). *)
Theorem C27_tables_partial source root : within source root -> keys_quoted root ->
  exists reported keep, tables_out_of_order source root = Some reported /\
    Permutation reported (map snd (filter keep (headed_tables root))) /\
    (forall k t, In (k, t) (headed_tables root) -> (keep (k, t) = true <-> interrupted fst (headed_tables root) k)).
Proof. apply tables_proof. Qed.
Print Assumptions C27_tables_partial.

(** C27, dotted keys: the first keys are compared by value.  A key/value whose first key is not a valid string counts as another key. *)
Theorem C27_dotted_keys v kvs : (forall kv, In kv kvs -> first_key_text v kv <> None) ->
  exists reported keep, dotted_keys_out_of_order v kvs = Some reported /\
    Permutation reported (filter keep kvs) /\
    (forall kv, In kv kvs -> (keep kv = true <-> exists k, first_key v kv = Some k /\ interrupted fst (keyed v kvs) (Some k))).
Proof. apply dotted_proof. Qed.
Print Assumptions C27_dotted_keys.

Definition parsed (s : str) : el := match parse (seg_by is_combining) 129 s with Done (t, _) => El [] t | _ => El [] (TNode ROOT []) end.
Definition reported_texts (r : option (list el)) : option (list str) := option_map (map etext) r.
Definition doc_interrupted : str := lit "[a.x]" ++ [10] ++ lit "[c]" ++ [10] ++ lit "['a'.y]" ++ [10] ++ lit "[d]" ++ [10].
Example C27_tables_example :
  within doc_interrupted (parsed doc_interrupted) /\ map fst (headed_tables (parsed doc_interrupted)) = [lit "a"; lit "c"; lit "a"; lit "d"] /\
  reported_texts (tables_out_of_order doc_interrupted (parsed doc_interrupted)) = Some [lit "[a.x]" ++ [10]; lit "['a'.y]" ++ [10]].
Proof. split; [|split]; [|vm_compute; reflexivity|vm_compute; reflexivity]. exists []. vm_compute. reflexivity. Qed.
Example C27_tables_example_quoted : keys_quoted (parsed doc_interrupted).
Proof.
  unfold keys_quoted. intros item header key. vm_compute root_items. intros [<-|[<-|[<-|[<-|[]]]]]; vm_compute keys_child; intros H; injection H as <-; vm_compute keys_of; intros H; cbn [In] in H;
    repeat (destruct H as [<-|H]); try contradiction; try (left; reflexivity); right; exists 39, [97], 39; vm_compute; auto.
Qed.

(** Two spellings of one key: [["a\u0062".y]] continues the group of [[ab.x]] and is not reported. *)
Definition doc_escaped : str := lit "[ab.x]" ++ [10] ++ lit "[c]" ++ [10] ++ lit "[""a\u0062"".y]" ++ [10].
Definition header_value (t : el) : option decoded :=
  match keys_child t with Some h => match keys_of h with k :: _ => Some (try_to_raw_text V1_0_0 k) | [] => None end | None => None end.
Theorem C27_escaped_key_refuted :
  map header_value (root_items (parsed doc_escaped)) = [Some (DOk (lit "ab")); Some (DOk (lit "c")); Some (DOk (lit "ab"))] /\
  tables_out_of_order doc_escaped (parsed doc_escaped) = Some [].
Proof. split; vm_compute; reflexivity. Qed.
Print Assumptions C27_escaped_key_refuted.

Definition doc_dotted : str := lit "a.x=1" ++ [10] ++ lit "b=2" ++ [10] ++ lit "'a'.y=3" ++ [10].
Example C27_dotted_example :
  map (first_key V1_0_0) (key_values (parsed doc_dotted)) = [Some (lit "a"); Some (lit "b"); Some (lit "a")] /\
  map (first_key_text V1_0_0) (key_values (parsed doc_dotted)) = [Some (Some (lit "a")); Some (Some (lit "b")); Some (Some (lit "a"))] /\
  reported_texts (dotted_keys_out_of_order V1_0_0 (key_values (parsed doc_dotted))) = Some [lit "a.x=1"; [10] ++ lit "'a'.y=3"].
Proof. repeat split; vm_compute; reflexivity. Qed.

(** C32.  [sequence item group_kind e]: the items and commas of an array or inline table, in order, across its groups. *)
Definition sequence (item : kind -> bool) (group : kind) (e : el) : list el := concat (map (signs item) (children_of (is_kind group) e)).
Definition commas_follow (item : kind -> bool) (group : kind) (e : el) : Prop := forall g, In g (children_of (is_kind group) e) -> starts_with_comma (signs item g) = false.

Theorem C32_array p w cs (array := El p (TNode ARRAY (TToken BRACKET_START w :: cs))) : commas_follow is_value VALUE_WITH_COMMA_GROUP array ->
  (forall v, In v (array_missing_comma array) <-> lacks_comma is_value (sequence is_value VALUE_WITH_COMMA_GROUP array) v) /\
  subsequence (array_missing_comma array) (flat_map (children_of is_value) (children_of (is_kind VALUE_WITH_COMMA_GROUP) array)).
Proof.
  intros H. unfold array_missing_comma, value_with_comma_groups, sequence. unfold array. rewrite groups_spec by (try left; reflexivity). fold array.
  split; [apply missing_spec; [reflexivity|exact H]|]. apply missing_subsequence.
Qed.
Print Assumptions C32_array.

Theorem C32_inline_table p w cs (table := El p (TNode INLINE_TABLE (TToken BRACE_START w :: cs))) : commas_follow (is_kind KEY_VALUE) KEY_VALUE_WITH_COMMA_GROUP table ->
  (forall v, In v (inline_table_missing_comma table) <-> lacks_comma (is_kind KEY_VALUE) (sequence (is_kind KEY_VALUE) KEY_VALUE_WITH_COMMA_GROUP table) v) /\
  subsequence (inline_table_missing_comma table) (flat_map (children_of (is_kind KEY_VALUE)) (children_of (is_kind KEY_VALUE_WITH_COMMA_GROUP) table)).
Proof.
  intros H. unfold inline_table_missing_comma, key_value_with_comma_groups, sequence. unfold table. rewrite groups_spec by (try right; reflexivity). fold table.
  split; [apply missing_spec; [reflexivity|exact H]|]. apply missing_subsequence.
Qed.
Print Assumptions C32_inline_table.

(** A container without a report has a comma between every two neighbouring items. *)
Lemma no_report item l : item COMMA = false -> (forall v, ~ lacks_comma item l v) ->
  forall a x b y c, l = a ++ x :: b ++ y :: c -> item (ekind_of x) = true -> item (ekind_of y) = true -> starts_with_comma b = true.
Proof.
  intros HI H a x b y c -> Hx Hy. destruct (starts_with_comma b) eqn:E; [reflexivity|]. exfalso. apply (H x). exists a, (b ++ y :: c). split; [reflexivity|]. split; [exact Hx|].
  split; [destruct b as [|z b]; [exact (item_comma item HI y Hy)|exact E]|]. rewrite existsb_app. cbn [existsb]. rewrite Hy, orb_true_r. reflexivity.
Qed.
Theorem C32_no_report p w cs (array := El p (TNode ARRAY (TToken BRACKET_START w :: cs))) : commas_follow is_value VALUE_WITH_COMMA_GROUP array ->
  array_missing_comma array = [] ->
  forall a x b y c, sequence is_value VALUE_WITH_COMMA_GROUP array = a ++ x :: b ++ y :: c -> is_value (ekind_of x) = true -> is_value (ekind_of y) = true ->
    exists comma b', b = comma :: b' /\ ekind_of comma = COMMA.
Proof.
  intros HC H a x b y c E Hx Hy. destruct (C32_array p w cs HC) as [HR _]. fold array in HR. rewrite H in HR.
  pose proof (no_report is_value _ eq_refl (fun v L => proj2 (HR v) L) a x b y c E Hx Hy) as R. destruct b as [|z b]; [discriminate|]. exists z, b. split; [reflexivity|].
  apply kind_eqb_eq. exact R.
Qed.
Print Assumptions C32_no_report.
Theorem C32_no_report_inline p w cs (table := El p (TNode INLINE_TABLE (TToken BRACE_START w :: cs))) : commas_follow (is_kind KEY_VALUE) KEY_VALUE_WITH_COMMA_GROUP table ->
  inline_table_missing_comma table = [] ->
  forall a x b y c, sequence (is_kind KEY_VALUE) KEY_VALUE_WITH_COMMA_GROUP table = a ++ x :: b ++ y :: c -> ekind_of x = KEY_VALUE -> ekind_of y = KEY_VALUE ->
    exists comma b', b = comma :: b' /\ ekind_of comma = COMMA.
Proof.
  intros HC H a x b y c E Hx Hy. destruct (C32_inline_table p w cs HC) as [HR _]. fold table in HR. rewrite H in HR.
  assert (K : forall e, ekind_of e = KEY_VALUE -> is_kind KEY_VALUE (ekind_of e) = true) by (intros e ->; reflexivity).
  pose proof (no_report (is_kind KEY_VALUE) _ eq_refl (fun v L => proj2 (HR v) L) a x b y c E (K x Hx) (K y Hy)) as R. destruct b as [|z b]; [discriminate|]. exists z, b. split; [reflexivity|].
  apply kind_eqb_eq. exact R.
Qed.
Print Assumptions C32_no_report_inline.

(** An array over two groups: the [2] lacks its comma, the [1] has it, the [3] is last. *)
Definition doc_commas : str := lit "a=[1, 2" ++ [10; 10] ++ lit "# note" ++ [10; 10] ++ lit "3]".
Definition first_value (root : el) : el :=
  match key_values root with kv :: _ => match value_child kv with Some v => v | None => root end | [] => root end.
Example C32_array_example : let array := first_value (parsed doc_commas) in
  exists p w cs, array = El p (TNode ARRAY (TToken BRACKET_START w :: cs)) /\
  forallb (fun g => negb (starts_with_comma (signs is_value g))) (children_of (is_kind VALUE_WITH_COMMA_GROUP) array) = true /\
  map etext (sequence is_value VALUE_WITH_COMMA_GROUP array) = [lit "1"; lit ","; lit "2"; lit "3"] /\
  map etext (array_missing_comma array) = [lit "2"].
Proof. eexists _, _, _. split; [vm_compute; reflexivity|]. repeat split; vm_compute; reflexivity. Qed.
Definition doc_inline : str := lit "a={x=1 y=2, z=3}".
Example C32_inline_example : let table := first_value (parsed doc_inline) in
  exists p w cs, table = El p (TNode INLINE_TABLE (TToken BRACE_START w :: cs)) /\
  forallb (fun g => negb (starts_with_comma (signs (is_kind KEY_VALUE) g))) (children_of (is_kind KEY_VALUE_WITH_COMMA_GROUP) table) = true /\
  map etext (sequence (is_kind KEY_VALUE) KEY_VALUE_WITH_COMMA_GROUP table) = [lit "x=1"; lit "y=2"; lit ","; lit "z=3"] /\
  map etext (inline_table_missing_comma table) = [lit "x=1"].
Proof. eexists _, _, _. split; [vm_compute; reflexivity|]. repeat split; vm_compute; reflexivity. Qed.
