(** Lemmas about ArraySortModel. *)
From Coq Require Import String Ascii List NArith ZArith Bool Arith Lia Permutation Sorted.
From Verif Require Import Base VersionSortModel SortModel SortProofs ArraySortModel.
Import ListNotations.
Open Scope N_scope.
Open Scope list_scope.

Section Group.
Context {V : Type}.
Notation entry := (entry V).
Notation child := (child V).
Definition opt {A} (o : option A) : list A := match o with Some a => [a] | None => [] end.
Definition comma_comments (c : option comma) : list str := match c with Some c => c_leading c ++ opt (c_trailing c) | None => [] end.
(** all comments of an entry, in order *)
Definition comments (x : entry) : list str := i_leading (fst x) ++ opt (i_trailing (fst x)) ++ comma_comments (snd x).
Definition content (x : entry) : V * list str := (i_value (fst x), comments x).
Definition id_of (x : entry) : nat := i_id (fst x).

Definition removes (x : entry) (flag : bool) : bool :=
  match i_trailing (fst x), snd x with
  | Some _, Some c => negb (has_comments c)
  | Some _, None => flag
  | None, _ => false
  end.
Definition appended (x : entry) (flag : bool) : list child :=
  match i_trailing (fst x), snd x with
  | Some t, Some c => if has_comments c then [] else [CComma (make_comma_with_trailing_comment t)]
  | Some t, None => if flag then [CComma (make_comma_with_trailing_comment t)] else []
  | None, None => if flag then [CComma make_comma] else []
  | None, Some _ => []
  end.
Definition own (x : entry) : list child := match snd x with Some c => [CComma c] | None => [] end.
Definition step (f : item V -> item V) (x : entry) (flag : bool) : list child :=
  CValue (if removes x flag then without_trailing (f (fst x)) else f (fst x)) :: appended x flag ++ own x.
Fixpoint steps (f : item V -> item V) (lst : bool) (l : list entry) : list child :=
  match l with [] => [] | [x] => step f x lst | x :: l => step f x true ++ steps f lst l end.
Definition laid (f : item V -> item V) (l : list entry) : list child := flat_map (fun x => CValue (f (fst x)) :: own x) l.
Definition absent (k : nat) (g : list child) : Prop := forall x, In x g -> is_value k x = false.

Lemma map_absent k (h : child -> child) g : absent k g -> map (fun x => if is_value k x then h x else x) g = g.
Proof. intros H. induction g as [|x g IH]; [reflexivity|]. cbn [map]. rewrite (H x) by (left; reflexivity). f_equal. apply IH. intros y Hy. apply H. right. exact Hy. Qed.
Lemma flat_absent k (h : child -> list child) g : absent k g -> flat_map (fun x => if is_value k x then h x else [x]) g = g.
Proof. intros H. induction g as [|x g IH]; [reflexivity|]. cbn [flat_map]. rewrite (H x) by (left; reflexivity). cbn [app]. f_equal. apply IH. intros y Hy. apply H. right. exact Hy. Qed.
Lemma absent_app k g h : absent k g -> absent k h -> absent k (g ++ h).
Proof. intros A B x Hx. apply in_app_iff in Hx. destruct Hx; auto. Qed.
Lemma apply_remove k P i S : i_id i = k -> absent k P -> absent k S ->
  apply_change (P ++ CValue i :: S) (RemoveTrailing k) = P ++ CValue (without_trailing i) :: S.
Proof.
  intros E HP HS. unfold apply_change. rewrite map_app.
  rewrite (map_absent k (fun x => match x with CValue i => CValue (without_trailing i) | _ => x end) P HP). f_equal. cbn [map is_value].
  rewrite E, Nat.eqb_refl. f_equal. apply (map_absent k (fun x => match x with CValue i => CValue (without_trailing i) | _ => x end) S HS).
Qed.
Lemma apply_append k c P i S : i_id i = k -> absent k P -> absent k S ->
  apply_change (P ++ CValue i :: S) (AppendAfter k c) = P ++ CValue i :: CComma c :: S.
Proof.
  intros E HP HS. unfold apply_change. rewrite flat_map_app. rewrite (flat_absent k (fun x => [x; CComma c]) P HP). f_equal.
  cbn [flat_map is_value]. rewrite E, Nat.eqb_refl. cbn [app]. do 2 f_equal. apply (flat_absent k (fun x => [x; CComma c]) S HS).
Qed.
Lemma own_absent k (x : entry) : absent k (own x).
Proof. unfold own. destruct (snd x); intros y [<-|[]] || intros y []; reflexivity. Qed.
Lemma apply_step f x flag P S : i_id (f (fst x)) = i_id (fst x) -> absent (id_of x) P -> absent (id_of x) S ->
  fold_left apply_change (comma_trailing_comment x flag) (P ++ (CValue (f (fst x)) :: own x) ++ S) = P ++ step f x flag ++ S.
Proof.
  intros E HP HS. unfold comma_trailing_comment, step, removes, appended. pose proof (own_absent (id_of x) x) as HO.
  assert (HS' : absent (id_of x) (own x ++ S)) by (apply absent_app; assumption).
  destruct (snd x) as [c|] eqn:Ec.
  - destruct (i_trailing (fst x)) as [t|] eqn:Et; [|reflexivity]. destruct (has_comments c); [reflexivity|]. cbn [fold_left negb].
    cbn [app]. rewrite apply_remove by assumption. rewrite apply_append by assumption. reflexivity.
  - destruct flag.
    + destruct (i_trailing (fst x)) as [t|] eqn:Et; cbn [fold_left app].
      * rewrite apply_remove by assumption. rewrite apply_append by assumption. reflexivity.
      * rewrite apply_append by assumption. reflexivity.
    + destruct (i_trailing (fst x)); reflexivity.
Qed.
Lemma in_laid f k (l : list entry) : (forall x, In x l -> i_id (f (fst x)) = i_id (fst x)) -> ~ In k (map id_of l) -> absent k (laid f l).
Proof.
  intros HF HN y Hy. apply in_flat_map in Hy. destruct Hy as (x & Hx & [<-|Hy]).
  - cbn [is_value]. rewrite HF by exact Hx. apply Nat.eqb_neq. intros <-. apply HN. apply (in_map id_of). exact Hx.
  - apply (own_absent k x). exact Hy.
Qed.
Lemma step_absent f k x flag : i_id (f (fst x)) = i_id (fst x) -> k <> id_of x -> absent k (step f x flag).
Proof.
  intros E HN y [<-|Hy].
  - cbn [is_value]. apply Nat.eqb_neq. destruct (removes x flag); cbn [without_trailing i_id]; rewrite E; intros H; apply HN; symmetry; exact H.
  - apply in_app_iff in Hy. destruct Hy as [Hy|Hy]; [|apply (own_absent k x); exact Hy].
    unfold appended in Hy. destruct (i_trailing (fst x)), (snd x); [destruct (has_comments _)|destruct flag| |destruct flag]; destruct Hy as [<-|[]] || destruct Hy; reflexivity.
Qed.
Lemma apply_steps f : forall l lst P S, (forall x, In x l -> i_id (f (fst x)) = i_id (fst x)) -> NoDup (map id_of l) ->
  (forall x, In x l -> absent (id_of x) P) -> (forall x, In x l -> absent (id_of x) S) ->
  fold_left apply_change (comma_changes lst l) (P ++ laid f l ++ S) = P ++ steps f lst l ++ S.
Proof.
  induction l as [|x l IH]; intros lst P S HF HD HP HS; [reflexivity|]. inversion HD as [|? ? Hx HD']; subst.
  assert (Ex := HF x (or_introl eq_refl)). assert (Px := HP x (or_introl eq_refl)). assert (Sx := HS x (or_introl eq_refl)).
  destruct l as [|y l].
  - cbn [comma_changes steps laid flat_map]. rewrite app_nil_r. apply apply_step; assumption.
  - change (comma_changes lst (x :: y :: l)) with (comma_trailing_comment x true ++ comma_changes lst (y :: l)).
    change (steps f lst (x :: y :: l)) with (step f x true ++ steps f lst (y :: l)).
    change (laid f (x :: y :: l)) with ((CValue (f (fst x)) :: own x) ++ laid f (y :: l)).
    rewrite fold_left_app, <- (app_assoc (CValue (f (fst x)) :: own x)).
    rewrite apply_step; [|assumption|assumption|apply absent_app; [apply in_laid; [intros z Hz; apply HF; right; exact Hz|exact Hx]|exact Sx]].
    rewrite app_assoc, IH.
    + rewrite <- !app_assoc. reflexivity.
    + intros z Hz. apply HF. right. exact Hz.
    + exact HD'.
    + intros z Hz. apply absent_app; [apply HP; right; exact Hz|]. apply step_absent; [exact Ex|]. intros E. apply Hx. rewrite <- E. apply in_map. exact Hz.
    + intros z Hz. apply HS. right. exact Hz.
Qed.

(** the state of an item in a group *)
Definition cur (g : list child) (i : item V) : item V := match find (is_value (i_id i)) g with Some (CValue j) => j | _ => i end.
Lemma current_cur g i : current g (CValue i) = CValue (cur g i).
Proof.
  unfold current, cur. destruct (find (is_value (i_id i)) g) as [[j|c]|] eqn:E; try reflexivity.
  apply find_some in E. destruct E as [_ E]. discriminate.
Qed.
Lemma cur_id g i : i_id (cur g i) = i_id i.
Proof.
  unfold cur. destruct (find (is_value (i_id i)) g) as [[j|c]|] eqn:E; try reflexivity.
  apply find_some in E. destruct E as [_ E]. cbn [is_value] in E. apply Nat.eqb_eq. exact E.
Qed.
Lemma map_current g (l : list entry) : map (current g) (group_of l) = laid (cur g) l.
Proof.
  induction l as [|x l IH]; [reflexivity|].
  change (group_of (x :: l)) with ((CValue (fst x) :: own x) ++ group_of l).
  change (laid (cur g) (x :: l)) with ((CValue (cur g (fst x)) :: own x) ++ laid (cur g) l). rewrite map_app, IH. f_equal. cbn [map].
  rewrite current_cur. f_equal. unfold own. destruct (snd x); reflexivity.
Qed.
Definition flag_of (lst : bool) (l : list entry) : list (entry * bool) := 
  match rev l with [] => [] | x :: r => map (fun y => (y, true)) (rev r) ++ [(x, lst)] end.
Fixpoint flagged (lst : bool) (l : list entry) : list (entry * bool) :=
  match l with [] => [] | [x] => [(x, lst)] | x :: l => (x, true) :: flagged lst l end.
Lemma steps_flagged f lst l : steps f lst l = flat_map (fun y => step f (fst y) (snd y)) (flagged lst l).
Proof.
  induction l as [|x l IH]; [reflexivity|]. destruct l as [|y l]; [cbn; rewrite app_nil_r; reflexivity|].
  change (flagged lst (x :: y :: l)) with ((x, true) :: flagged lst (y :: l)). cbn [flat_map fst snd]. rewrite <- IH. reflexivity.
Qed.
Lemma flagged_fst lst l : map fst (flagged lst l) = l.
Proof.
  induction l as [|x l IH]; [reflexivity|]. destruct l as [|y l]; [reflexivity|].
  change (flagged lst (x :: y :: l)) with ((x, true) :: flagged lst (y :: l)). cbn [map fst]. rewrite IH. reflexivity.
Qed.
(** after the first changes a value is as it was, or without its trailing comment *)
Lemma cur_steps : forall l lst x b, NoDup (map id_of l) -> In (x, b) (flagged lst l) ->
  cur (steps (fun i => i) lst l) (fst x) = if removes x b then without_trailing (fst x) else fst x.
Proof.
  intros l lst x b. rewrite steps_flagged. assert (E := flagged_fst lst l). revert E. generalize (flagged lst l) as fl. revert l.
  intros l fl. revert l. induction fl as [|[y c] fl IH]; intros l E HD Hin; [destruct Hin|].
  cbn [map fst] in E. subst l. cbn [map] in HD. inversion HD as [|? ? Hy HD']; subst. cbn [flat_map fst snd].
  unfold cur. destruct Hin as [Hin|Hin].
  - injection Hin as -> ->. unfold step at 1. cbn [app find is_value].
    replace (i_id (if removes x b then without_trailing (fst x) else fst x) =? i_id (fst x))%nat with true; [reflexivity|].
    destruct (removes x b); cbn [without_trailing i_id]; rewrite Nat.eqb_refl; reflexivity.
  - assert (HN : id_of x <> id_of y). { intros H. apply Hy. rewrite <- H. apply in_map. apply (in_map fst) in Hin. exact Hin. }
    specialize (IH _ eq_refl HD' Hin). unfold cur in IH. rewrite <- IH.
    assert (HA : absent (id_of x) (step (fun i => i) y c)) by (apply step_absent; [reflexivity|exact HN]).
    replace (find (is_value (i_id (fst x))) (step (fun i => i) y c ++ flat_map (fun y => step (fun i => i) (fst y) (snd y)) fl))
      with (find (is_value (i_id (fst x))) (flat_map (fun y => step (fun i => i) (fst y) (snd y)) fl)); [reflexivity|].
    revert HA. generalize (step (fun i => i) y c) as s. induction s as [|z s IHs]; intros HA; [reflexivity|].
    cbn [app find]. change (is_value (i_id (fst x)) z) with (is_value (id_of x) z). rewrite (HA z (or_introl eq_refl)). apply IHs. intros w Hw. apply HA. right. exact Hw.
Qed.

(** what is after the last value *)
Lemma steps_last f lst l x d : (forall x, In x l -> i_id (f (fst x)) = i_id (fst x)) -> NoDup (map id_of l) -> l <> [] -> last l d = x ->
  tl (drop_while (fun y => negb (is_value (id_of x) y)) (steps f lst l)) = appended x lst ++ own x.
Proof.
  intros HF HD HN HL. revert HF HD HN HL. induction l as [|y l IH]; intros HF HD HN HL; [congruence|].
  destruct l as [|z l].
  - cbn in HL. subst y. cbn [steps]. unfold step. cbn [drop_while is_value].
    replace (i_id _ =? id_of x)%nat with true; [reflexivity|]. symmetry. apply Nat.eqb_eq.
    specialize (HF x (or_introl eq_refl)). destruct (removes x lst); cbn [without_trailing i_id]; exact HF.
  - change (steps f lst (y :: z :: l)) with (step f y true ++ steps f lst (z :: l)). inversion HD as [|? ? Hy HD']; subst.
    assert (HI : In (last (y :: z :: l) d) (z :: l)).
    { change (In (last (z :: l) d) (z :: l)). clear. revert z. induction l as [|w l IH]; intros z; [left; reflexivity|]. right. apply IH. }
    assert (HA : absent (id_of (last (y :: z :: l) d)) (step f y true)).
    { apply step_absent; [apply HF; left; reflexivity|]. intros E. apply Hy. rewrite <- E. apply (in_map id_of _ _ HI). }
    rewrite <- IH; [|intros w Hw; apply HF; right; exact Hw|exact HD'|discriminate|reflexivity].
    revert HA. generalize (step f y true) as s. induction s as [|w s IHs]; intros HA; [reflexivity|].
    cbn [app drop_while]. rewrite (HA w (or_introl eq_refl)). apply IHs. intros v Hv. apply HA. right. exact Hv.
Qed.
Definition is_comma (x : child) : Prop := match x with CComma _ => True | CValue _ => False end.
Lemma strays_commas x b : Forall is_comma (appended x b ++ own x).
Proof.
  apply Forall_app. unfold appended, own. split; [|destruct (snd x); repeat constructor].
  destruct (i_trailing (fst x)), (snd x); [destruct (has_comments _)|destruct b| |destruct b]; repeat constructor.
Qed.

(** ** Reading back *)
Definition result (f : item V -> item V) (x : entry) (flag : bool) : entry :=
  (if removes x flag then without_trailing (f (fst x)) else f (fst x),
   match appended x flag ++ own x with CComma c :: _ => Some c | _ => None end).
Lemma skip_commas strays : Forall is_comma strays -> forall g, with_comma None (strays ++ g) = with_comma None g.
Proof. induction 1 as [|[i|c] s H _ IH]; intros g; [reflexivity|destruct H|]. cbn. apply IH. Qed.
Lemma read_step f x flag g : appended x flag ++ own x <> [] -> with_comma None (step f x flag ++ g) = result f x flag :: with_comma None g.
Proof.
  intros HN. unfold step, result. pose proof (strays_commas x flag) as HC. destruct (appended x flag ++ own x) as [|y s] eqn:E; [congruence|].
  cbn [app with_comma]. inversion HC as [|? ? Hy Hs]; subst. destruct y as [j|c]; [destruct Hy|]. f_equal. apply skip_commas. exact Hs.
Qed.
Lemma appended_true x : appended x true ++ own x <> [].
Proof. unfold appended, own. destruct (i_trailing (fst x)), (snd x) as [c|]; try destruct (has_comments c); discriminate. Qed.
Lemma read_steps f lst strays : forall l, Forall is_comma strays -> l <> [] -> (lst = true \/ strays = []) ->
  with_comma None (steps f lst l ++ strays) = map (fun y => result f (fst y) (snd y)) (flagged lst l).
Proof.
  intros l HC HN HS. induction l as [|x l IH]; [congruence|]. destruct l as [|y l].
  - cbn [steps flagged map fst snd]. destruct (appended x lst ++ own x) as [|z s] eqn:E.
    + destruct HS as [->| ->]; [exfalso; apply (appended_true x); exact E|]. unfold step, result. rewrite E. reflexivity.
    + rewrite read_step by congruence. f_equal. rewrite <- (app_nil_r strays), skip_commas by exact HC. reflexivity.
  - change (steps f lst (x :: y :: l)) with (step f x true ++ steps f lst (y :: l)).
    change (flagged lst (x :: y :: l)) with ((x, true) :: flagged lst (y :: l)). rewrite <- app_assoc, read_step by apply appended_true.
    cbn [map fst snd]. f_equal. apply IH. discriminate.
Qed.

Lemma plain_comments c : has_comments c = false -> comma_comments (Some c) = [].
Proof. unfold has_comments, comma_comments. destruct (c_leading c), (c_trailing c); simpl; congruence. Qed.
Lemma result_content f x flag : i_value (f (fst x)) = i_value (fst x) -> i_leading (f (fst x)) = i_leading (fst x) ->
  (removes x flag = true \/ f (fst x) = fst x) -> content (result f x flag) = content x.
Proof.
  intros EV EL H. unfold content, result. cbn [fst snd]. f_equal; [destruct (removes x flag); exact EV|].
  unfold comments. cbn [fst snd].
  destruct (removes x flag) eqn:ER.
  - cbn [without_trailing i_leading i_trailing]. rewrite EL. f_equal. unfold removes in ER. unfold appended, own.
    destruct (i_trailing (fst x)) as [t|]; [|discriminate]. destruct (snd x) as [c|].
    + destruct (has_comments c) eqn:EC; [discriminate|]. rewrite (plain_comments c EC). reflexivity.
    + subst flag. reflexivity.
  - destruct H as [H|H]; [discriminate|]. rewrite H. do 2 f_equal. unfold removes in ER. unfold appended, own.
    destruct (i_trailing (fst x)) as [t|], (snd x) as [c|]; try reflexivity.
    + apply negb_false_iff in ER. rewrite ER. reflexivity.
    + subst flag. reflexivity.
    + destruct flag; reflexivity.
Qed.

(** ** No new order *)
Lemma group_laid (l : list entry) : group_of l = laid (fun i => i) l.
Proof. reflexivity. Qed.
Lemma unsorted_content lst (l : list entry) : NoDup (map id_of l) -> map content (with_comma None (edit_group lst l None)) = map content l.
Proof.
  intros HD. unfold edit_group. rewrite app_nil_r. rewrite group_laid.
  pose proof (apply_steps (fun i => i) l lst [] []) as H. rewrite !app_nil_r in H. cbn [app] in H. rewrite H; try assumption; try reflexivity; [|intros ? _ ? []..].
  destruct l as [|x l]; [reflexivity|].
  pose proof (read_steps (fun i => i) lst [] (x :: l) (Forall_nil _)) as R. rewrite app_nil_r in R. rewrite R; [|discriminate|right; reflexivity].
  rewrite map_map. rewrite <- (flagged_fst lst (x :: l)) at 2. rewrite map_map. apply map_ext. intros y. apply result_content; auto.
Qed.

(** ** A new order *)
(** the entries of [l], some with a comma added, in some order *)
Definition filled (x y : entry) : Prop := fst x = fst y /\ (snd y = snd x \/ snd x = None /\ snd y = Some make_comma).
Definition reorders (l sorted : list entry) : Prop := exists l', Forall2 filled l l' /\ Permutation l' sorted.
(** the original entry of the value with this number *)
Definition origin (l : list entry) (k : nat) : option entry := find (fun x => Nat.eqb (id_of x) k) l.

Lemma drop_last_split (l : list entry) : l <> [] -> exists r i c, l = r ++ [(i, c)] /\
  drop_last_comma l = r ++ [(i, match c with Some c => if has_comments c then Some c else None | None => None end)].
Proof.
  induction l as [|x l IH]; intros HN; [congruence|]. destruct l as [|y l].
  - destruct x as [i c]. exists [], i, c. split; [reflexivity|]. cbn. destruct c as [c|]; [|reflexivity]. destruct (has_comments c); reflexivity.
  - destruct IH as (r & i & c & E & E'); [discriminate|]. exists (x :: r), i, c. split; [rewrite E; reflexivity|].
    change (drop_last_comma (x :: y :: l)) with (match x with (i0, Some c0) => x :: drop_last_comma (y :: l) | _ => x :: drop_last_comma (y :: l) end).
    rewrite E'. destruct x as [? [?|]]; reflexivity.
Qed.
Lemma flagged_app lst (r : list entry) x : flagged lst (r ++ [x]) = map (fun y => (y, true)) r ++ [(x, lst)].
Proof.
  induction r as [|y r IH]; [reflexivity|]. cbn [app map]. rewrite <- IH. destruct (r ++ [x]) eqn:E; [destruct r; discriminate|]. reflexivity.
Qed.

(** What is read after the edits: each entry of the new order with the value as the first changes left it. *)
Lemma order_read (l sorted : list entry) : l <> [] -> NoDup (map id_of l) -> reorders l sorted ->
  let al := is_last_comma l in
  let s := if al then sorted else drop_last_comma sorted in
  with_comma None (edit_group al l (Some sorted)) =
  map (fun y => result (cur (steps (fun i => i) al l)) (fst y) (snd y)) (flagged al s).
Proof.
  intros HN HD HR al s. unfold edit_group. rewrite fold_left_app, group_laid.
  pose proof (apply_steps (fun i => i) l al [] []) as HA. rewrite !app_nil_r in HA. cbn [app] in HA.
  rewrite HA by (try assumption; try reflexivity; intros ? _ ? []). clear HA.
  set (g := steps (fun i => i) al l). assert (HE : exists x0 l0, l = x0 :: l0) by (destruct l as [|x0 l0]; [congruence|exists x0, l0; reflexivity]).
  destruct HE as (x0 & l0 & El).
  assert (Hord : order_changes l sorted = ReplaceRange (id_of x0) (id_of (last l x0)) (group_of s) :: comma_changes al s) by (unfold s, al; rewrite El; reflexivity).
  rewrite Hord. cbn [fold_left].
  assert (HG : apply_change g (ReplaceRange (id_of x0) (id_of (last l x0)) (group_of s)) =
    laid (cur g) s ++ filter (fun x => negb (moved (group_of s) x)) (appended (last l x0) al ++ own (last l x0))).
  { unfold apply_change. rewrite map_current.
    assert (HT : take_while (fun x => negb (is_value (id_of x0) x)) g = []).
    { unfold g. rewrite El. assert (Hs : exists r, steps (fun i => i) al (x0 :: l0) = step (fun i => i) x0 (match l0 with [] => al | _ => true end) ++ r).
      { destruct l0; [exists []; cbn [steps]; rewrite app_nil_r; reflexivity|eexists; reflexivity]. }
      destruct Hs as [r ->]. unfold step. cbn [app take_while is_value].
      replace (i_id _ =? id_of x0)%nat with true; [reflexivity|]. symmetry. apply Nat.eqb_eq. destruct (removes x0 _); reflexivity. }
    assert (HTl : tl (drop_while (fun x => negb (is_value (id_of (last l x0)) x)) g) = appended (last l x0) al ++ own (last l x0))
      by (apply (steps_last (fun i => i) al l (last l x0) x0); [reflexivity|exact HD|congruence|reflexivity]).
    cbv zeta. rewrite HT, HTl. reflexivity. }
  rewrite HG. set (strays := filter _ _).
  assert (HSC : Forall is_comma strays) by (apply incl_Forall with (l1 := appended (last l x0) al ++ own (last l x0)); [intros ?; unfold strays; rewrite filter_In; tauto|apply strays_commas]).
  destruct HR as (l' & HF & HP).
  assert (Hids : map id_of l' = map id_of l).
  { clear -HF. induction HF as [|x y l l' [E _] _ IH]; [reflexivity|]. cbn [map]. rewrite IH. unfold id_of. rewrite E. reflexivity. }
  assert (HDs : NoDup (map id_of sorted)).
  { apply (Permutation_NoDup (l := map id_of l')); [apply Permutation_map; exact HP|]. rewrite Hids. exact HD. }
  assert (Hlen : sorted <> []).
  { intros ->. apply Permutation_sym, Permutation_nil in HP. subst l'. inversion HF. subst. congruence. }
  assert (HDs' : NoDup (map id_of s) /\ s <> []).
  { unfold s. destruct al; [split; assumption|]. destruct (drop_last_split sorted Hlen) as (r & i & c & E & ->).
    split; [|destruct r; discriminate]. rewrite E in HDs. rewrite map_app in *. exact HDs. }
  destruct HDs' as [HDs' Hs'].
  pose proof (apply_steps (cur g) s al [] strays) as HA. cbn [app] in HA. rewrite HA.
  - apply read_steps; [exact HSC|exact Hs'|]. destruct al eqn:Eal; [left; reflexivity|right].
    assert (HL : appended (last l x0) false ++ own (last l x0) = []).
    { unfold al, is_last_comma in Eal. destruct (exists_last HN) as (r & [i c] & E). rewrite E, rev_unit in Eal. rewrite E, last_last.
      destruct c; [discriminate|]. unfold appended, own. cbn [fst snd]. destruct (i_trailing i); reflexivity. }
    unfold strays. rewrite HL. reflexivity.
  - intros x _. apply cur_id.
  - exact HDs'.
  - intros x _ y [].
  - intros x _ y Hy. rewrite Forall_forall in HSC. specialize (HSC y Hy). destruct y; [destruct HSC|reflexivity].
Qed.

Lemma cur_value l b x : NoDup (map id_of l) -> In x l -> let f := cur (steps (fun i => i) b l) in
  i_value (f (fst x)) = i_value (fst x) /\ i_leading (f (fst x)) = i_leading (fst x).
Proof.
  intros HD Hx f. assert (HI : In x (map fst (flagged b l))) by (rewrite flagged_fst; exact Hx). apply in_map_iff in HI.
  destruct HI as ([x' fl] & E & HI). cbn in E. subst x'. unfold f. rewrite (cur_steps l b x fl HD HI). destruct (removes x fl); split; reflexivity.
Qed.
Lemma reorders_in l sorted x : reorders l sorted -> In x sorted -> exists y, In y l /\ filled y x.
Proof.
  intros (l' & HF & HP) Hx. apply (Permutation_in x (Permutation_sym HP)) in Hx. clear HP. induction HF as [|a b l l' E _ IH]; [destruct Hx|].
  destruct Hx as [->|Hx]; [exists a; split; [left; reflexivity|exact E]|]. destruct (IH Hx) as (y & Hy & Ey). exists y. split; [right; exact Hy|exact Ey].
Qed.

(** values *)
Lemma order_values l sorted : NoDup (map id_of l) -> reorders l sorted -> l <> [] ->
  map (fun x => i_value (fst x)) (with_comma None (edit_group (is_last_comma l) l (Some sorted))) = map (fun x => i_value (fst x)) sorted.
Proof.
  intros HD HR HN. rewrite order_read by assumption. rewrite map_map. set (f := cur _).
  assert (HF : forall x, In x sorted -> i_value (f (fst x)) = i_value (fst x)).
  { intros x Hx. destruct (reorders_in l sorted x HR Hx) as (y & Hy & [E _]). rewrite <- E. apply (cur_value l _ y HD Hy). }
  assert (HS : forall s, (forall x, In x s -> i_value (f (fst x)) = i_value (fst x)) ->
    map (fun y => i_value (fst (result f (fst y) (snd y)))) (flagged (is_last_comma l) s) = map (fun x => i_value (fst x)) s).
  { intros s H. rewrite <- (flagged_fst (is_last_comma l) s) at 2. rewrite map_map. apply map_ext_in. intros y Hy.
    assert (In (fst y) s) by (rewrite <- (flagged_fst (is_last_comma l) s); apply in_map; exact Hy). unfold result. cbn [fst].
    destruct (removes (fst y) (snd y)); cbn [without_trailing i_value]; apply H; assumption. }
  destruct (is_last_comma l) eqn:El; [apply HS; exact HF|]. destruct sorted as [|z s']; [reflexivity|].
  destruct (drop_last_split (z :: s')) as (r & i & c & E & E'); [discriminate|]. rewrite E'. rewrite E in HF |- *. rewrite HS.
  - rewrite !map_app. reflexivity.
  - intros x Hx. apply in_app_iff in Hx. destruct Hx as [Hx|[<-|[]]]; [apply HF; apply in_app_iff; left; exact Hx|].
    apply (HF (i, c)). apply in_app_iff. right. left. reflexivity.
Qed.

(** comments: all are kept, unless the last value of the new order lost its trailing comment to a comma that is dropped *)
Definition loses_comment (l sorted : list entry) : Prop :=
  is_last_comma l = false /\ exists r i c c' t, sorted = r ++ [(i, c')] /\ In (i, Some c) l /\ has_comments c = false /\ i_trailing i = Some t.
Lemma same_id l x y : NoDup (map id_of l) -> In x l -> In y l -> fst x = fst y -> x = y.
Proof.
  intros HD Hx Hy E. induction l as [|z l IH]; [destruct Hx|]. inversion HD as [|? ? Hz HD']; subst.
  destruct Hx as [->|Hx], Hy as [->|Hy]; try reflexivity.
  - exfalso. apply Hz. replace (id_of x) with (id_of y) by (unfold id_of; rewrite E; reflexivity). apply in_map. exact Hy.
  - exfalso. apply Hz. replace (id_of y) with (id_of x) by (unfold id_of; rewrite E; reflexivity). apply in_map. exact Hx.
  - apply IH; assumption.
Qed.
Lemma flagged_none (l : list entry) x b : Forall (fun x => snd x <> None) (removelast l) -> NoDup (map id_of l) ->
  In (x, b) (flagged false l) -> snd x = None -> b = false.
Proof.
  intros HC HD HI HN. assert (HE : l <> []) by (intros ->; destruct HI). destruct (exists_last HE) as (r & y & E'). rewrite E' in *. rewrite removelast_last in HC. rewrite flagged_app in HI.
  apply in_app_iff in HI. destruct HI as [HI|[HI|[]]]; [|congruence]. apply in_map_iff in HI. destruct HI as (w & Ew & Hw). injection Ew as -> _.
  rewrite Forall_forall in HC. exfalso. apply (HC x Hw). exact HN.
Qed.
Lemma order_content l sorted : NoDup (map id_of l) -> reorders l sorted -> l <> [] -> Forall (fun x => snd x <> None) (removelast l) ->
  ~ loses_comment l sorted ->
  map content (with_comma None (edit_group (is_last_comma l) l (Some sorted))) = map content sorted.
Proof.
  intros HD HR HN HC HL. rewrite order_read by assumption. rewrite map_map. set (f := cur _).
  assert (HF : forall x, In x sorted -> exists y by_, In (y, by_) (flagged (is_last_comma l) l) /\ filled y x /\
    f (fst x) = if removes y by_ then without_trailing (fst x) else fst x).
  { intros x Hx. destruct (reorders_in l sorted x HR Hx) as (y & Hy & HE). rewrite <- (flagged_fst (is_last_comma l) l) in Hy. apply in_map_iff in Hy.
    destruct Hy as ([y' b] & Ey & Hy). cbn in Ey. subst y'. exists y, b. split; [exact Hy|split; [exact HE|]]. destruct HE as [E _]. rewrite <- E. apply cur_steps; assumption. }
  assert (HM : forall x, In x sorted -> content (result f x true) = content x).
  { intros x Hx. destruct (HF x Hx) as (y & b & Hy & [E1 E2] & Ef). apply result_content.
    - rewrite Ef. destruct (removes y b); reflexivity.
    - rewrite Ef. destruct (removes y b); reflexivity.
    - destruct (removes y b) eqn:ER; [left|right; exact Ef]. unfold removes in *. rewrite E1 in ER. destruct (i_trailing (fst x)); [|discriminate].
      destruct E2 as [E2|[E2 E3]]; [rewrite E2; destruct (snd y); [exact ER|reflexivity]|rewrite E3; reflexivity]. }
  assert (HS : forall r, incl r sorted -> map (fun y => content (result f (fst y) (snd y))) (map (fun y => (y, true)) r) = map content r).
  { intros r Hr. rewrite map_map. apply map_ext_in. intros x Hx. apply HM. apply Hr. exact Hx. }
  assert (HNs : sorted <> []).
  { destruct HR as (l' & H1 & H2). intros ->. apply Permutation_sym, Permutation_nil in H2. subst l'. inversion H1. subst. congruence. }
  destruct (is_last_comma l) eqn:El.
  - destruct (exists_last HNs) as (r & x & E). rewrite E in *. rewrite flagged_app, !map_app. cbn [map fst snd]. rewrite HS by (intros z Hz; apply in_app_iff; left; exact Hz).
    do 2 f_equal. apply HM. apply in_app_iff. right. left. reflexivity.
  - destruct (drop_last_split sorted HNs) as (r & i & c & E & E'). rewrite E'. rewrite E in *. rewrite flagged_app, !map_app. cbn [map fst snd].
    rewrite HS by (intros z Hz; apply in_app_iff; left; exact Hz). do 2 f_equal.
    destruct (HF (i, c)) as (y & b & Hy & [E1 E2] & Ef); [apply in_app_iff; right; left; reflexivity|]. cbn [fst snd] in E1, E2, Ef.
    assert (Hyl : In y l) by (rewrite <- (flagged_fst false l); apply (in_map fst) in Hy; exact Hy).
    set (c' := match c with Some c => if has_comments c then Some c else None | None => None end).
    assert (Ec : content (i, c') = content (i, c)).
    { unfold c'. destruct c as [c|]; [|reflexivity]. destruct (has_comments c) eqn:Eh; [reflexivity|]. unfold content, comments. cbn [fst snd]. rewrite (plain_comments c Eh). reflexivity. }
    rewrite <- Ec. apply result_content; cbn [fst].
    + rewrite Ef. destruct (removes y b); reflexivity.
    + rewrite Ef. destruct (removes y b); reflexivity.
    + destruct (removes y b) eqn:ER; [exfalso|right; exact Ef]. unfold removes in ER. rewrite E1 in ER. destruct (i_trailing i) as [t|] eqn:Et; [|discriminate].
      destruct (snd y) as [d|] eqn:Ed.
      * apply HL. split; [exact El|]. exists r, i, d, c, t. split; [reflexivity|]. split; [|split; [apply negb_true_iff; exact ER|exact Et]].
        replace (i, Some d) with y; [exact Hyl|]. destruct y as [yi yc]. cbn in E1, Ed. congruence.
      * pose proof (flagged_none l y b HC HD Hy Ed) as Hb. congruence.
Qed.
(** the commas *)
Lemma result_comma f x : snd (result f x true) <> None.
Proof.
  unfold result. cbn [snd]. pose proof (strays_commas x true) as HC. pose proof (appended_true x) as HT.
  destruct (appended x true ++ own x) as [|[i|c] s]; [congruence| |discriminate]. inversion HC. contradiction.
Qed.
Lemma order_commas l sorted : NoDup (map id_of l) -> reorders l sorted -> l <> [] ->
  let r := with_comma None (edit_group (is_last_comma l) l (Some sorted)) in
  Forall (fun x => snd x <> None) (removelast r) /\ (is_last_comma l = true -> Forall (fun x => snd x <> None) r).
Proof.
  intros HD HR HN r. unfold r. rewrite order_read by assumption. set (f := cur _). set (s := if is_last_comma l then sorted else drop_last_comma sorted).
  destruct s as [|z s0] eqn:Es; [split; intros; constructor|]. destruct (exists_last (l := z :: s0)) as (q & x & E); [discriminate|]. rewrite E.
  rewrite flagged_app, map_app. cbn [map fst snd]. rewrite removelast_last, map_map. cbn [fst snd].
  assert (HA : Forall (fun x0 => snd x0 <> None) (map (fun y => result f y true) q)).
  { apply Forall_forall. intros y Hy. apply in_map_iff in Hy. destruct Hy as (w & <- & _). apply result_comma. }
  split; [exact HA|]. intros ->. apply Forall_app. split; [exact HA|]. constructor; [apply result_comma|constructor].
Qed.
Lemma reorders_content l sorted : reorders l sorted -> Permutation (map content l) (map content sorted).
Proof.
  intros (l' & HF & HP). rewrite <- (Permutation_map content HP). clear HP.
  assert (E : map content l = map content l'); [|rewrite E; reflexivity]. induction HF as [|x y l l' [E1 E2] _ IH]; [reflexivity|]. cbn [map]. rewrite IH. f_equal.
  unfold content, comments. rewrite E1. do 3 f_equal. destruct E2 as [E2|[E2 E3]]; [rewrite E2; reflexivity|rewrite E2, E3; reflexivity].
Qed.
Lemma reorders_values l sorted : reorders l sorted -> Permutation (map (fun x => i_value (fst x)) l) (map (fun x => i_value (fst x)) sorted).
Proof.
  intros H. apply reorders_content in H. apply (Permutation_map fst) in H. rewrite !map_map in H. exact H.
Qed.
End Group.
