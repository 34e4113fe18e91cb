(** Proofs about the tree with places (C68). *)
From Coq Require Import String Ascii List NArith Bool Arith Lia.
From Verif Require Import Base TomlTextModel TomlTextProofs CodeActionModel CodeActionSpec.
From Verif Require DocTreeModel DocTreeSpec CodeActionMeaning.
Import ListNotations.
Open Scope list_scope.
Open Scope nat_scope.

(** ** Induction on values *)
Lemma lval_rect' (P : lval -> Prop) : (forall w, P (LScalar w)) -> (forall open vs, (forall v g, In (v, g) vs -> P v) -> P (LArray open vs)) ->
  (forall open c l, (forall ks v g, In ((ks, v), g) l -> P v) -> P (LInline open c l)) -> forall v, P v.
Proof.
  intros H1 H2 H3. fix IH 1. intros [w|open vs|open c l].
  - apply H1.
  - apply H2. induction vs as [|[v g] vs IHvs]; intros v' g' [].
    + injection H as <- _. apply IH.
    + exact (IHvs _ _ H).
  - apply H3. induction l as [|[[ks v] g] l IHl]; intros ks' v' g' [].
    + injection H as _ <- _. apply IH.
    + exact (IHl _ _ _ H).
Qed.
Definition elem_trees : nat -> list (lval * str) -> list (option rval) :=
  fix go (o : nat) (vs : list (lval * str)) : list (option rval) :=
    match vs with [] => [] | (v, gap) :: vs => tree_of o v :: go (o + length (text v) + length gap) vs end.
Lemma tree_array o open vs : tree_of o (LArray open vs) =
  option_map (RArray (o, o + length (text (LArray open vs))) (o, o + length (text (LArray open vs)))) (all_some (elem_trees (o + 1 + length open) vs)).
Proof. reflexivity. Qed.
Lemma tree_inline o open c l : tree_of o (LInline open c l) =
  option_map (set_kind (InlineTable c)) (merge_all (RTable Table (o, o + length (text (LInline open c l))) (o, o + length (text (LInline open c l))) []) (item_trees (o + 1 + length open) l)).
Proof.
  reflexivity.
Qed.
Lemma inline_text open c l : text (LInline open c l) = lit "{" ++ open ++ items_text l ++ lit "}".
Proof. cbn [text]. f_equal. f_equal. f_equal. unfold items_text. apply flat_map_ext. intros [[ks v] g]. unfold kv_text. cbn [fst snd]. rewrite <- app_assoc. reflexivity. Qed.
Definition elems_text (vs : list (lval * str)) : str := flat_map (fun x => text (fst x) ++ snd x) vs.
Lemma items_cons ks v g l : length (items_text (((ks, v), g) :: l)) = length (keys_text ks) + length (text v) + length g + length (items_text l).
Proof. unfold items_text at 1, kv_text. cbn [flat_map fst snd]. rewrite !app_length. fold (kv_text (ks, v)). unfold items_text, kv_text. lia. Qed.
Lemma keys_cons k s l : length (keys_text ((k, s) :: l)) = length (raw k) + length s + length (keys_text l).
Proof. unfold keys_text. cbn [flat_map fst snd]. rewrite !app_length. lia. Qed.
Lemma elems_cons v g l : length (elems_text ((v, g) :: l)) = length (text v) + length g + length (elems_text l).
Proof. unfold elems_text. cbn [flat_map fst snd]. rewrite !app_length. lia. Qed.
Lemma items_app a b : items_text (a ++ b) = items_text a ++ items_text b.
Proof. apply flat_map_app. Qed.
Lemma elems_app a b : elems_text (a ++ b) = elems_text a ++ elems_text b.
Proof. apply flat_map_app. Qed.
Lemma keys_app a b : keys_text (a ++ b) = keys_text a ++ keys_text b.
Proof. apply flat_map_app. Qed.
Lemma item_trees_app a b : forall o, item_trees o (a ++ b) = item_trees o a ++ item_trees (o + length (items_text a)) b.
Proof.
  induction a as [|[[ks v] g] a IH]; intros o; cbn [app item_trees]; [f_equal; cbn; lia|]. rewrite IH. do 2 f_equal. f_equal.
  rewrite items_cons. lia.
Qed.
Lemma elem_trees_app a b : forall o, elem_trees o (a ++ b) = elem_trees o a ++ elem_trees (o + length (elems_text a)) b.
Proof.
  induction a as [|[v g] a IH]; intros o; cbn [app elem_trees]; [f_equal; cbn; lia|]. fold elem_trees. rewrite IH. do 2 f_equal. f_equal.
  rewrite elems_cons. lia.
Qed.

(** ** Places *)
Definition within (r big : range) : Prop := fst big <= fst r /\ snd r <= snd big.
Lemma join_within r big : within r big -> join big r = big.
Proof. destruct r, big. unfold within, join. cbn. intros [? ?]. f_equal; lia. Qed.
Lemma merge_ranges v1 v2 v : merge v1 v2 = Some v -> range_of v = join (range_of v1) (range_of v2) /\ symbol_range v = join (symbol_range v1) (symbol_range v2) /\
  (forall k r s es, v1 = RTable k r s es -> exists r' s' es', v = RTable k r' s' es').
Proof.
  destruct v1 as [| |k1 r1 s1 es1], v2 as [| |k2 r2 s2 es2]; try discriminate. cbn [merge]. destruct (conflict k1 es1 k2 es2); [discriminate|].
  match goal with |- option_map _ ?x = _ -> _ => destruct x as [es|]; [|discriminate] end. intros E. injection E as <-. cbn. split; [reflexivity|]. split; [reflexivity|].
  intros k r s es' E. injection E as <- <- <- <-. eauto.
Qed.
Lemma kv_table_range o ks v lo : range_of v = (o + length (keys_text ks), lo) -> symbol_range v = (o + length (keys_text ks), lo) -> o + length (keys_text ks) <= lo ->
  range_of (kv_table o ks v) = (o, lo) /\ symbol_range (kv_table o ks v) = (o, lo).
Proof.
  revert o. induction ks as [|[k s] ks IH]; intros o Hr Hs HL.
  - cbn in *. rewrite Nat.add_0_r in *. auto.
  - rewrite keys_cons in *. cbn [kv_table]. destruct ks as [|k2 ks].
    + cbn [range_of symbol_range]. rewrite Hr, Hs. cbn in *. unfold join. cbn [fst snd]. split; f_equal; lia.
    + destruct (IH (o + length (raw k) + length s)) as [A B]; [rewrite Hr; f_equal; lia|rewrite Hs; f_equal; lia|lia|].
      cbn [range_of symbol_range]. rewrite A, B. auto.
Qed.
Definition placed (o : nat) (v : lval) : Prop := forall x, tree_of o v = Some x -> range_of x = (o, o + length (text v)) /\ symbol_range x = (o, o + length (text v)).
Lemma item_ranges l : (forall ks v g, In ((ks, v), g) l -> forall o, placed o v) -> forall o x, In (Some x) (item_trees o l) ->
  within (range_of x) (o, o + length (items_text l)) /\ within (symbol_range x) (o, o + length (items_text l)).
Proof.
  induction l as [|[[ks v] g] l IH]; intros HP o x; [intros []|]. cbn [item_trees]. rewrite items_cons. intros [E|Hin].
  - destruct (tree_of (o + length (keys_text ks)) v) as [t|] eqn:ET; [|discriminate]. injection E as <-. destruct (HP ks v g (or_introl eq_refl) _ _ ET) as [A B].
    destruct (kv_table_range o ks t _ A B ltac:(lia)) as [-> ->]. unfold within. cbn. lia.
  - destruct (IH (fun ks' v' g' H => HP ks' v' g' (or_intror H)) _ _ Hin) as [A B]. unfold within in *. cbn [fst snd] in *. lia.
Qed.
Lemma merge_all_ranges l : forall k r s es v, merge_all (RTable k r s es) l = Some v -> (forall x, In (Some x) l -> within (range_of x) r /\ within (symbol_range x) s) ->
  exists es', v = RTable k r s es'.
Proof.
  induction l as [|[w|] l IH]; intros k r s es v; cbn [merge_all]; [intros E _; injection E as <-; eauto| |discriminate].
  destruct (merge (RTable k r s es) w) as [t|] eqn:E; [|discriminate]. intros H HW. destruct (merge_ranges _ _ _ E) as (A & B & C). destruct (C _ _ _ _ eq_refl) as (r' & s' & es' & ->).
  cbn in A, B. destruct (HW w (or_introl eq_refl)) as [W1 W2]. rewrite (join_within _ _ W1) in A. rewrite (join_within _ _ W2) in B. subst. eapply IH; [exact H|]. intros x Hx. apply HW. right. exact Hx.
Qed.
Lemma all_placed v : forall o, placed o v.
Proof.
  induction v as [w|open vs _|open c l IH] using lval_rect'; intros o x.
  - intros E. injection E as <-. auto.
  - rewrite tree_array. destruct (all_some _); [|discriminate]. intros E. injection E as <-. auto.
  - rewrite tree_inline. destruct (merge_all _ _) as [t|] eqn:E; [|discriminate]. intros H. injection H as <-.
    destruct (merge_all_ranges _ _ _ _ _ _ E) as (es & ->); [|auto].
    intros y Hy. destruct (item_ranges l IH _ _ Hy) as [A B]. rewrite inline_text. rewrite !app_length. unfold within in *. cbn [length lit fst snd] in *. cbn. lia.
Qed.

(** ** Finding a value *)
Definition closed (v : rval) : bool := match v with RScalar _ _ | RArray _ _ _ => true | RTable (InlineTable _) _ _ _ => true | _ => false end.
Definition look (p : list str) (v : rval) : option rval := access_all (map AKey p) v.
Lemma look_cons k p kd r s es : look (k :: p) (RTable kd r s es) = match get k es with Some w => look p w | None => None end.
Proof. reflexivity. Qed.
Lemma look_app p q v : look (p ++ q) v = match look p v with Some w => look q w | None => None end.
Proof. revert v. induction p as [|k p IH]; intros v; [reflexivity|]. unfold look in *. cbn [app map access_all]. destruct (access (AKey k) v); [apply IH|reflexivity]. Qed.
Lemma access_app a b v : access_all (a ++ b) v = match access_all a v with Some w => access_all b w | None => None end.
Proof. revert v. induction a as [|k p IH]; intros v; [reflexivity|]. cbn [app access_all]. destruct (access k v); [apply IH|reflexivity]. Qed.
Lemma eqb_refl k : str_eqb k k = true. Proof. apply str_eqb_eq. reflexivity. Qed.
Lemma get_app k es k' v : get k (es ++ [(k', v)]) = match get k es with Some x => Some x | None => if str_eqb k (fst k') then Some v else None end.
Proof. induction es as [|[k2 x] es IH]; [reflexivity|]. cbn [app get]. destruct (str_eqb k (fst k2)); auto. Qed.
Lemma get_put_same k v es : get k es <> None -> get k (put k v es) = Some v.
Proof. induction es as [|[k2 x] es IH]; [cbn; congruence|]. cbn [get put]. destruct (str_eqb k (fst k2)) eqn:E; intros H; cbn [get]; rewrite E; auto. Qed.
Lemma get_put_other k k' v es : k <> k' -> get k (put k' v es) = get k es.
Proof.
  intros HN. induction es as [|[k2 x] es IH]; [reflexivity|]. cbn [put get]. destruct (str_eqb k' (fst k2)) eqn:E; cbn [get].
  - apply str_eqb_eq in E. destruct (str_eqb k (fst k2)) eqn:E2; [apply str_eqb_eq in E2; congruence|reflexivity].
  - destruct (str_eqb k (fst k2)); auto.
Qed.
Lemma merge_closed v1 v2 : closed v2 = true -> merge v1 v2 = None.
Proof.
  destruct v1 as [| |k1 r1 s1 es1], v2 as [| |k2 r2 s2 es2]; try reflexivity; intros H.
  destruct k2; try discriminate H. cbn [merge]. destruct k1; reflexivity.
Qed.
(** merging the table of one key *)
Lemma merge_one v1 k2 r2 s2 key w t : merge v1 (RTable k2 r2 s2 [(key, w)]) = Some t ->
  exists k1 r1 s1 es1 r s, v1 = RTable k1 r1 s1 es1 /\ conflict k1 es1 k2 [(key, w)] = false /\
    ((get (fst key) es1 = None /\ t = RTable k1 r s (es1 ++ [(key, w)])) \/
     (exists w1 w', get (fst key) es1 = Some w1 /\ merge w1 w = Some w' /\ t = RTable k1 r s (put (fst key) w' es1))).
Proof.
  destruct v1 as [| |k1 r1 s1 es1]; try discriminate. cbn [merge]. destruct (conflict k1 es1 k2 [(key, w)]) eqn:EC; [discriminate|].
  destruct (get (fst key) es1) as [w1|] eqn:EG.
  - destruct (merge w1 w) as [w'|] eqn:EM; [|discriminate]. intros E. injection E as <-. do 6 eexists. split; [reflexivity|]. split; [exact EC|]. right. eauto 6.
  - intros E. injection E as <-. do 6 eexists. split; [reflexivity|]. split; [exact EC|]. left. auto.
Qed.
Lemma kv_table_shape o k s ks v : exists kd r sr, kv_table o ((k, s) :: ks) v =
  RTable kd r sr [((val k, (o, o + length (raw k))), match ks with [] => v | _ => kv_table (o + length (raw k) + length s) ks v end)] /\
  kd = match ks with [] => KeyValue | _ => ParentKey end.
Proof. cbn [kv_table]. destruct ks; eauto 6. Qed.
Lemma look_kv o ks v : look (vals ks) (kv_table o ks v) = Some v.
Proof.
  revert o. induction ks as [|[k s] ks IH]; intros o; [reflexivity|]. destruct (kv_table_shape o k s ks v) as (kd & r & sr & -> & _). cbn [vals map fst]. rewrite look_cons.
  cbn [get fst]. rewrite eqb_refl. destruct ks as [|k2 ks]; [reflexivity|]. apply IH.
Qed.
Lemma closed_left v1 o ks v : closed v1 = true -> ks <> [] -> merge v1 (kv_table o ks v) = None.
Proof.
  destruct ks as [|[k s] ks]; [congruence|]. intros HC _. destruct (kv_table_shape o k s ks v) as (kd & r & sr & -> & Hk). destruct v1 as [| |k1 r1 s1 es1]; try reflexivity.
  destruct k1; try discriminate HC. cbn [merge]. subst kd. destruct ks; reflexivity.
Qed.
Lemma closed_no_look v k p : closed v = true -> is_table v = false -> look (k :: p) v = None.
Proof. destruct v; try discriminate; reflexivity. Qed.
(** a value that is closed is there, and stays *)
Lemma merge_kv_closed ks v : closed v = true -> ks <> [] -> forall o v1 t, merge v1 (kv_table o ks v) = Some t ->
  look (vals ks) t = Some v /\ (forall p x, look p v1 = Some x -> closed x = true -> look p t = Some x).
Proof.
  intros HC. induction ks as [|[k s] ks IH]; [congruence|]. intros _ o v1 t HM.
  assert (HN : forall x, look [] v1 = Some x -> closed x = true -> look [] t = Some x).
  { intros x E Hx. injection E as ->. rewrite closed_left in HM by (exact Hx || discriminate). discriminate. }
  destruct (kv_table_shape o k s ks v) as (kd & r & sr & E & _). rewrite E in HM. destruct (merge_one _ _ _ _ _ _ _ HM) as (k1 & r1 & s1 & es1 & r' & s' & -> & _ & [[EG ->]|(w1 & w' & EG & EM & ->)]); cbn [fst] in EG.
  - cbn [vals map fst]. rewrite look_cons, get_app, EG. cbn [fst]. rewrite eqb_refl. split.
    + destruct ks as [|k2 ks]; [reflexivity|]. apply look_kv.
    + intros [|h p] x Hx HCx; [exact (HN x Hx HCx)|]. rewrite look_cons in *. rewrite get_app. destruct (get h es1); [exact Hx|discriminate].
  - destruct ks as [|k2 ks]; [rewrite merge_closed in EM by exact HC; discriminate|]. cbn [fst] in *.
    destruct (IH ltac:(discriminate) _ _ _ EM) as [A B]. split.
    + cbn [vals map fst]. rewrite look_cons, get_put_same by congruence. exact A.
    + intros [|h p] x Hx HCx; [exact (HN x Hx HCx)|]. rewrite look_cons in *. destruct (str_eqb h (val k)) eqn:EK.
      * apply str_eqb_eq in EK. subst h. rewrite get_put_same by congruence. rewrite EG in Hx. apply B; assumption.
      * assert (h <> val k) by (intros ->; rewrite eqb_refl in EK; discriminate). rewrite get_put_other by assumption. exact Hx.
Qed.
(** a list of trees of key/values, as [item_trees] makes them *)
Definition kv_list (l : list (option rval)) : Prop := forall x, In (Some x) l -> exists o ks v, ks <> [] /\ closed v = true /\ x = kv_table o ks v.
Lemma kept_closed l : kv_list l -> forall t0 t p x, merge_all t0 l = Some t -> look p t0 = Some x -> closed x = true -> look p t = Some x.
Proof.
  induction l as [|[w|] l IH]; intros HL t0 t p x; cbn [merge_all]; [intros E; injection E as <-; auto| |discriminate].
  destruct (merge t0 w) as [t1|] eqn:E; [|discriminate]. intros HM Hx HC. destruct (HL w (or_introl eq_refl)) as (o & ks & v & Hk & Hv & ->).
  destruct (merge_kv_closed ks v Hv Hk _ _ _ E) as [_ B]. eapply IH; [intros y Hy; apply HL; right; exact Hy|exact HM|apply B; assumption|exact HC].
Qed.
Lemma merge_all_app a b t : merge_all t (a ++ b) = match merge_all t a with Some u => merge_all u b | None => None end.
Proof. revert t. induction a as [|[w|] a IH]; intros t; cbn [app merge_all]; auto. destruct (merge t w); auto. Qed.
Lemma found_closed a b t0 t o ks v : kv_list b -> closed v = true -> ks <> [] -> merge_all t0 (a ++ Some (kv_table o ks v) :: b) = Some t -> look (vals ks) t = Some v.
Proof.
  intros HB HC HK. rewrite merge_all_app. destruct (merge_all t0 a) as [u|]; [|discriminate]. cbn [merge_all]. destruct (merge u (kv_table o ks v)) as [w|] eqn:E; [|discriminate].
  intros HM. eapply kept_closed; [exact HB|exact HM|exact (proj1 (merge_kv_closed ks v HC HK _ _ _ E))|exact HC].
Qed.

(** ** Finding a table that one key/value fills *)
Lemma begins_cons k p l : begins (k :: p) l -> exists l', l = k :: l' /\ begins p l'.
Proof. intros [q ->]. exists (p ++ q). split; [reflexivity|]. exists q. reflexivity. Qed.
Lemma begins_push p k s ks : begins p (vals ks) -> begins (val k :: p) (vals ((k, s) :: ks)).
Proof. intros [q H]. exists q. cbn [app]. rewrite <- H. reflexivity. Qed.
(** what is there stays, if the key/value does not begin with its path *)
Lemma merge_kv_other ks v : closed v = true -> ks <> [] -> forall o v1 t p, merge v1 (kv_table o ks v) = Some t -> p <> [] -> ~ begins p (vals ks) ->
  (forall x, look p v1 = Some x -> look p t = Some x) /\
  (look p v1 = None -> look p t = None \/ exists q x, q <> [] /\ begins q p /\ look q t = Some x /\ closed x = true).
Proof.
  intros HC. induction ks as [|[k s] ks IH]; [congruence|]. intros _ o v1 t p HM Hp HB. destruct p as [|h p]; [congruence|].
  destruct (kv_table_shape o k s ks v) as (kd & r & sr & E & _). rewrite E in HM. destruct (merge_one _ _ _ _ _ _ _ HM) as (k1 & r1 & s1 & es1 & r' & s' & -> & _ & [[EG ->]|(w1 & w' & EG & EM & ->)]); cbn [fst] in EG.
  - rewrite !look_cons, get_app. split; [intros x; destruct (get h es1); [auto|discriminate]|].
    destruct (get h es1) as [w|] eqn:EH; [intros ->; left; reflexivity|]. intros _. cbn [fst]. destruct (str_eqb h (val k)) eqn:EK; [|left; reflexivity]. apply str_eqb_eq in EK. subst h.
    destruct ks as [|k2 ks].
    + right. exists [val k], v. split; [discriminate|]. split; [exists p; reflexivity|]. split; [|exact HC]. rewrite look_cons, get_app, EG. cbn [fst]. rewrite eqb_refl. reflexivity.
    + clear IH E HM. assert (HB' : ~ begins p (vals (k2 :: ks))) by (intros [q Hq]; apply HB; apply begins_push; exists q; exact Hq). clear HB.
      assert (HG : forall ks o p, ~ begins p (vals ks) -> look p (kv_table o ks v) = None \/ exists q x, begins q p /\ look q (kv_table o ks v) = Some x /\ closed x = true).
      { clear - HC. induction ks as [|[k s] ks IH]; intros o p HB.
        - right. exists [], v. split; [exists p; reflexivity|]. auto.
        - destruct (kv_table_shape o k s ks v) as (kd & r & sr & -> & _). destruct p as [|h p]; [exfalso; apply HB; exists (vals ((k, s) :: ks)); reflexivity|]. rewrite look_cons. cbn [get fst].
          destruct (str_eqb h (val k)) eqn:EK; [|left; reflexivity]. apply str_eqb_eq in EK. subst h. assert (HB' : ~ begins p (vals ks)) by (intros [q Hq]; apply HB; apply begins_push; exists q; exact Hq).
          assert (HX : look p (match ks with [] => v | _ => kv_table (o + length (raw k) + length s) ks v end) = look p (kv_table (o + length (raw k) + length s) ks v)) by (destruct ks; reflexivity).
          destruct (IH (o + length (raw k) + length s) p HB') as [A|(q & x & A & B & C)]; [left; rewrite HX; exact A|]. right. exists (val k :: q), x. split; [destruct A as [z ->]; exists z; reflexivity|]. split; [|exact C].
          rewrite look_cons. cbn [get fst]. rewrite eqb_refl. destruct ks; exact B. }
      destruct (HG (k2 :: ks) (o + length (raw k) + length s) p HB') as [A|(q & x & A & B & C)]; [left; exact A|]. right. exists (val k :: q), x. split; [discriminate|]. split; [destruct A as [z ->]; exists z; reflexivity|].
      split; [|exact C]. rewrite look_cons, get_app, EG. cbn [fst]. rewrite eqb_refl. exact B.
  - destruct ks as [|k2 ks]; [rewrite merge_closed in EM by exact HC; discriminate|]. cbn [fst] in *. rewrite !look_cons. destruct (str_eqb h (val k)) eqn:EK.
    + apply str_eqb_eq in EK. subst h. rewrite EG, get_put_same by congruence. assert (HB' : ~ begins p (vals (k2 :: ks))) by (intros [q Hq]; apply HB; apply begins_push; exists q; exact Hq).
      destruct p as [|h2 p]; [exfalso; apply HB'; exists (vals (k2 :: ks)); reflexivity|].
      destruct (IH ltac:(discriminate) _ _ _ (h2 :: p) EM ltac:(discriminate) HB') as [A B]. split; [exact A|]. intros HN. destruct (B HN) as [X|(q & x & X1 & X2 & X3 & X4)]; [left; exact X|].
      right. exists (val k :: q), x. split; [discriminate|]. split; [destruct X2 as [z Hz]; exists z; rewrite Hz; reflexivity|]. split; [|exact X4]. rewrite look_cons, get_put_same by congruence. exact X3.
    + assert (h <> val k) by (intros ->; rewrite eqb_refl in EK; discriminate). rewrite get_put_other by assumption. split; [auto|]. intros HN. left. exact HN.
Qed.
(** the key/value itself *)
Lemma merge_kv_blocked ks v : closed v = true -> forall o v1 q x, q <> [] -> begins q (vals ks) -> look q v1 = Some x -> closed x = true -> merge v1 (kv_table o ks v) = None.
Proof.
  intros HC. induction ks as [|[k s] ks IH]; intros o v1 q x Hq HB HL Hx.
  - destruct HB as [z Hz]. destruct q; [congruence|discriminate].
  - destruct (merge v1 (kv_table o ((k, s) :: ks) v)) as [t|] eqn:HM; [exfalso|reflexivity]. destruct (kv_table_shape o k s ks v) as (kd & r & sr & E & _). rewrite E in HM.
    destruct (merge_one _ _ _ _ _ _ _ HM) as (k1 & r1 & s1 & es1 & r' & s' & -> & _ & HH). destruct q as [|h q]; [congruence|]. apply begins_cons in HB as (l' & E' & HB). cbn [vals map fst] in E'. injection E' as E1 E2. subst h l'. rewrite look_cons in HL.
    destruct HH as [[EG _]|(w1 & w' & EG & EM & _)]; cbn [fst] in EG; rewrite EG in HL; [discriminate|]. destruct ks as [|k2 ks]; [rewrite merge_closed in EM by exact HC; discriminate|].
    destruct q as [|h2 q].
    + injection HL as ->. rewrite closed_left in EM by (exact Hx || discriminate). discriminate.
    + rewrite (IH _ w1 (h2 :: q) x ltac:(discriminate) HB HL Hx) in EM. discriminate.
Qed.
Lemma merge_kv_own ks1 ks2 v : closed v = true -> ks1 <> [] -> ks2 <> [] -> forall o v1 t, merge v1 (kv_table o (ks1 ++ ks2) v) = Some t -> look (vals ks1) v1 = None ->
  look (vals ks1) t = Some (kv_table (o + length (keys_text ks1)) ks2 v).
Proof.
  intros HC. induction ks1 as [|[k s] ks1 IH]; [congruence|]. intros _ H2 o v1 t HM HN. cbn [app] in HM.
  assert (HE : exists y l, ks1 ++ ks2 = y :: l) by (destruct ks1; [destruct ks2; [congruence|]|]; cbn [app]; eauto). destruct HE as (y & l & HE).
  assert (HS : forall o, look (vals ks1) (kv_table o (ks1 ++ ks2) v) = Some (kv_table (o + length (keys_text ks1)) ks2 v)).
  { clear - H2. induction ks1 as [|[k s] ks1 IH]; intros o; [cbn; f_equal; f_equal; lia|]. cbn [app]. destruct (kv_table_shape o k s (ks1 ++ ks2) v) as (kd & r & sr & -> & _). cbn [vals map fst]. rewrite look_cons. cbn [get fst]. rewrite eqb_refl.
    assert (HX : match ks1 ++ ks2 with [] => v | _ => kv_table (o + length (raw k) + length s) (ks1 ++ ks2) v end = kv_table (o + length (raw k) + length s) (ks1 ++ ks2) v) by (destruct (ks1 ++ ks2); reflexivity).
    rewrite HX. unfold vals in IH. rewrite IH. f_equal. f_equal. rewrite keys_cons. lia. }
  destruct (kv_table_shape o k s (ks1 ++ ks2) v) as (kd & r & sr & E & _). rewrite E, HE in HM. rewrite <- HE in HM.
  destruct (merge_one _ _ _ _ _ _ _ HM) as (k1 & r1 & s1 & es1 & r' & s' & -> & _ & HH). cbn [vals map fst] in *. rewrite look_cons in HN.
  assert (HO : o + length (keys_text ((k, s) :: ks1)) = o + length (raw k) + length s + length (keys_text ks1)) by (rewrite keys_cons; lia). rewrite HO.
  destruct HH as [[EG ->]|(w1 & w' & EG & EM & ->)]; cbn [fst] in *; rewrite look_cons.
  - rewrite get_app, EG. cbn [fst]. rewrite eqb_refl. apply HS.
  - rewrite get_put_same by congruence. rewrite EG in HN. destruct ks1 as [|k3 ks1]; [discriminate HN|]. eapply IH; [discriminate|exact H2|exact EM|exact HN].
Qed.
Lemma kept_other l p : (forall x, In (Some x) l -> exists o ks v, ks <> [] /\ closed v = true /\ ~ begins p (vals ks) /\ x = kv_table o ks v) -> p <> [] -> forall t0 t,
  merge_all t0 l = Some t ->
  (forall x, look p t0 = Some x -> look p t = Some x) /\
  (look p t0 = None -> look p t = None \/ exists q x, q <> [] /\ begins q p /\ look q t = Some x /\ closed x = true).
Proof.
  intros HL Hp. induction l as [|[w|] l IH]; intros t0 t; cbn [merge_all]; [intros E; injection E as <-; auto| |discriminate].
  destruct (merge t0 w) as [t1|] eqn:E; [|discriminate]. intros HM. destruct (HL w (or_introl eq_refl)) as (o & ks & v & Hk & Hv & Hb & ->).
  destruct (merge_kv_other ks v Hv Hk _ _ _ p E Hp Hb) as [A B]. destruct (IH (fun x Hx => HL x (or_intror Hx)) _ _ HM) as [C D]. split; [auto|].
  intros HN. destruct (B HN) as [X|(q & x & X1 & X2 & X3 & X4)]; [auto|]. right. exists q, x. split; [exact X1|]. split; [exact X2|]. split; [|exact X4].
  eapply kept_closed; [|exact HM|exact X3|exact X4]. intros y Hy. destruct (HL y (or_intror Hy)) as (o' & ks' & v' & ? & ? & ? & ?). eauto 6.
Qed.
Lemma found_open a b k0 r0 s0 t o ks1 ks2 v : closed v = true -> ks1 <> [] -> ks2 <> [] ->
  (forall x, In (Some x) (a ++ b) -> exists o ks v, ks <> [] /\ closed v = true /\ ~ begins (vals ks1) (vals ks) /\ x = kv_table o ks v) ->
  merge_all (RTable k0 r0 s0 []) (a ++ Some (kv_table o (ks1 ++ ks2) v) :: b) = Some t ->
  look (vals ks1) t = Some (kv_table (o + length (keys_text ks1)) ks2 v).
Proof.
  intros HC H1 H2 HL. rewrite merge_all_app. destruct (merge_all (RTable k0 r0 s0 []) a) as [u|] eqn:EA; [|discriminate]. cbn [merge_all].
  destruct (merge u (kv_table o (ks1 ++ ks2) v)) as [w|] eqn:E; [|discriminate]. intros HM. assert (Hp : vals ks1 <> []) by (destruct ks1; [congruence|discriminate]).
  destruct (kept_other a (vals ks1)) with (3 := EA) as [_ A]; [intros x Hx; apply HL; apply in_or_app; left; exact Hx|exact Hp|].
  destruct (kept_other b (vals ks1)) with (3 := HM) as [B _]; [intros x Hx; apply HL; apply in_or_app; right; exact Hx|exact Hp|]. apply B.
  apply (merge_kv_own ks1 ks2 v HC H1 H2 _ _ _ E). destruct A as [A|(q & x & X1 & X2 & X3 & X4)]; [|exact A|].
  - destruct ks1 as [|[k s] ks1]; [congruence|]. reflexivity.
  - exfalso. rewrite (merge_kv_blocked (ks1 ++ ks2) v HC o u q x X1) in E; [discriminate| |exact X3|exact X4]. destruct X2 as [z Hz]. exists (z ++ vals ks2). unfold vals in *. rewrite map_app, Hz, app_assoc. reflexivity.
Qed.

(** ** The table that the key/value is in *)
Lemma tree_closed o v x : tree_of o v = Some x -> closed x = true.
Proof.
  destruct v as [w|open vs|open c l].
  - intros E. injection E as <-. reflexivity.
  - rewrite tree_array. destruct (all_some _); [|discriminate]. intros E. injection E as <-. reflexivity.
  - rewrite tree_inline. destruct (merge_all _ _) as [t|] eqn:E; [|discriminate]. intros H. injection H as <-.
    destruct (merge_all_ranges _ _ _ _ _ _ E) as (es & ->); [|reflexivity].
    intros y Hy. destruct (item_ranges l (fun _ v _ _ o => all_placed v o) _ _ Hy) as [A B]. rewrite inline_text. rewrite !app_length. unfold within in *. cbn [length lit fst snd] in *. cbn. lia.
Qed.
Lemma merge_all_some a x b t0 t : merge_all t0 (a ++ x :: b) = Some t -> exists y, x = Some y.
Proof. rewrite merge_all_app. destruct (merge_all t0 a); [|discriminate]. destruct x; [eauto|discriminate]. Qed.
Definition from (l : list item) (x : rval) : Prop := exists o ks v g y o', In ((ks, v), g) l /\ tree_of o' v = Some y /\ x = kv_table o ks y.
Lemma item_trees_from l : forall o x, In (Some x) (item_trees o l) -> from l x.
Proof.
  induction l as [|[[ks v] g] l IH]; intros o x; [intros []|]. cbn [item_trees]. intros [E|H].
  - destruct (tree_of _ v) as [y|] eqn:EV; [|discriminate]. injection E as <-. exists o, ks, v, g, y. eexists. split; [left; reflexivity|]. split; [exact EV|reflexivity].
  - destruct (IH _ _ H) as (o' & ks' & v' & g' & y & o'' & A & B & C). exists o', ks', v', g', y, o''. split; [right; exact A|]. auto.
Qed.
Definition bef (p : place) : list item := match p with InDoc _ b _ _ | InTable _ _ _ _ _ b _ _ => b end.
Definition aft (p : place) : list item := match p with InDoc _ _ _ a | InTable _ _ _ _ _ _ _ a => a end.
Lemma siblings_eq p : siblings p = bef p ++ aft p. Proof. destruct p; reflexivity. Qed.
Lemma from_kv_list p l : keyed p -> (forall x, In x l -> In x (siblings p)) -> forall tl, (forall x, In (Some x) tl -> from l x) -> kv_list tl.
Proof.
  intros HK HI tl HT x Hx. destruct (HT x Hx) as (o & ks & v & g & y & o' & A & B & ->). exists o, ks, y. split; [|split; [eapply tree_closed; exact B|reflexivity]].
  assert (H := HI _ A). destruct p; cbn [keyed] in HK; destruct HK as [HK _]; exact (HK _ H).
Qed.
Lemma all_some_nth {A} (l r : list (option A)) x : forall ys, all_some (l ++ x :: r) = Some ys -> exists y, x = Some y /\ nth_error ys (length l) = Some y.
Proof.
  induction l as [|[z|] l IH]; intros ys; cbn [app all_some length].
  - destruct x as [y|]; [|discriminate]. destruct (all_some r); [|discriminate]. intros E. injection E as <-. exists y. auto.
  - destruct (all_some (l ++ x :: r)) as [zs|]; [|discriminate]. intros E. injection E as <-. exact (IH zs eq_refl).
  - discriminate.
Qed.
Lemma elem_trees_length b : forall o, length (elem_trees o b) = length b.
Proof. induction b as [|[v g] b IH]; intros o; [reflexivity|]. cbn [elem_trees length]. fold elem_trees. rewrite IH. reflexivity. Qed.
Lemma vplug_tree w v : forall o y, tree_of o (vplug w v) = Some y -> exists z, tree_of (o + voffset w) v = Some z /\ access_all (vpath w) y = Some z.
Proof.
  induction w as [|open b w IH gap a]; intros o y; cbn [vplug voffset vpath].
  - rewrite Nat.add_0_r. eauto.
  - rewrite tree_array, elem_trees_app. cbn [elem_trees]. fold elem_trees. destruct (all_some _) as [ys|] eqn:E; [|discriminate]. intros H. injection H as <-. cbn [access_all access].
    assert (HN := all_some_nth _ _ _ _ E). rewrite elem_trees_length in HN.
    destruct HN as (y & HY & ->). destruct (IH _ _ HY) as (z & HZ & HA). exists z. split; [|exact HA]. rewrite <- HZ. f_equal. unfold elems_text. lia.
Qed.
Lemma container p : forall kv t, keyed p -> tree (plug p kv) = Some t -> exists k0 r0 s0 a b c,
  merge_all (RTable k0 r0 s0 []) (a ++ option_map (kv_table (offset p) (fst kv)) (tree_of (offset p + length (keys_text (fst kv))) (snd kv)) :: b) = Some c /\
  (forall x, In (Some x) a -> from (bef p) x) /\ (forall x, In (Some x) b -> from (aft p) x) /\
  forall q, q <> [] -> access_all (path p ++ map AKey q) t = look q c.
Proof.
  induction p as [lead b gap a|p IH ks w open cm b gap a]; intros [kks kv] t HK HT.
  - cbn [plug] in HT. unfold tree in HT. cbn [CodeActionModel.lead CodeActionModel.items] in HT. rewrite item_trees_app in HT. cbn [item_trees] in HT. do 6 eexists. split; [exact HT|]. cbn [bef aft].
    split; [intros x; apply item_trees_from|]. split; [intros x; apply item_trees_from|]. intros q _. reflexivity.
  - cbn [plug] in HT. cbn [keyed] in HK. destruct HK as (HS & HKs & HKp). destruct (IH _ _ HKp HT) as (k0 & r0 & s0 & la & lb & c & HM & HA & HB & HQ). cbn [fst snd] in HM.
    destruct (merge_all_some _ _ _ _ _ HM) as [y HY]. match type of HY with option_map _ ?x = _ => destruct x as [z|] eqn:EZ; [|discriminate HY] end.
    cbn [option_map] in HM. clear y HY. assert (HL : look (vals ks) c = Some z).
    { eapply found_closed; [|eapply tree_closed; exact EZ|exact HKs|exact HM]. apply (from_kv_list p (aft p)); [exact HKp| |exact HB]. intros x Hx. rewrite siblings_eq. apply in_or_app. right. exact Hx. }
    destruct (vplug_tree _ _ _ _ EZ) as (z' & EZ' & HZ'). rewrite tree_inline in EZ'. match type of EZ' with option_map _ ?x = _ => destruct x as [c'|] eqn:EC; [|discriminate] end. injection EZ' as <-.
    rewrite item_trees_app in EC. cbn [item_trees] in EC. exists Table. do 2 eexists. exists (item_trees (offset p + length (keys_text ks) + voffset w + 1 + length open) b).
    exists (item_trees (offset p + length (keys_text ks) + voffset w + 1 + length open + length (items_text b) + length (keys_text kks) + length (text kv) + length gap) a), c'.
    split; [exact EC|]. cbn [bef aft]. split; [intros x; apply item_trees_from|]. split; [intros x; apply item_trees_from|]. intros q Hq. cbn [path]. rewrite <- !app_assoc, app_assoc, access_app.
    assert (HV : vals ks <> []) by (destruct ks; [congruence|discriminate]). rewrite (HQ _ HV), HL, access_app, HZ'. destruct c'; [reflexivity|reflexivity|]. cbn [set_kind]. destruct q; [congruence|reflexivity].
Qed.

(** ** The text around the key/value *)
Lemma vplug_text w : exists A B, length A = voffset w /\ forall v, text (vplug w v) = A ++ text v ++ B.
Proof.
  induction w as [|open b w IH gap a].
  - exists [], []. split; [reflexivity|]. intros v. cbn [vplug app]. rewrite app_nil_r. reflexivity.
  - destruct IH as (A & B & HL & HT). exists (lit "[" ++ open ++ elems_text b ++ A), (B ++ gap ++ elems_text a ++ lit "]"). split.
    + rewrite !app_length, HL. unfold elems_text. cbn [voffset]. change (length (lit "[")) with 1. lia.
    + intros v. cbn [vplug text].
      change (flat_map (fun x => text (fst x) ++ snd x) (b ++ (vplug w v, gap) :: a)) with (elems_text (b ++ (vplug w v, gap) :: a)). rewrite elems_app.
      change (elems_text ((vplug w v, gap) :: a)) with ((text (vplug w v) ++ gap) ++ elems_text a). rewrite HT. rewrite <- !app_assoc. reflexivity.
Qed.
Lemma plug_text p : exists A B, length A = offset p /\ forall kv, doc_text (plug p kv) = A ++ kv_text kv ++ B.
Proof.
  induction p as [lead b gap a|p IH ks w open cm b gap a].
  - exists (lead ++ items_text b), (gap ++ items_text a). split; [rewrite app_length; reflexivity|]. intros kv. unfold doc_text. cbn [plug CodeActionModel.lead CodeActionModel.items]. rewrite items_app.
    change (items_text ((kv, gap) :: a)) with ((kv_text kv ++ gap) ++ items_text a). rewrite <- !app_assoc. reflexivity.
  - destruct IH as (A & B & HL & HT). destruct (vplug_text w) as (A2 & B2 & HL2 & HT2). exists (A ++ keys_text ks ++ A2 ++ lit "{" ++ open ++ items_text b), (gap ++ items_text a ++ lit "}" ++ B2 ++ B). split.
    + cbn [offset]. rewrite !app_length, HL, HL2. change (length (lit "{")) with 1. lia.
    + intros kv. cbn [plug]. rewrite HT. unfold kv_text at 1. cbn [fst snd]. rewrite HT2, inline_text, items_app.
      change (items_text ((kv, gap) :: a)) with ((kv_text kv ++ gap) ++ items_text a). rewrite <- !app_assoc. reflexivity.
Qed.
Lemma replace_at A B C N n m : n = length A -> m = length A + length B -> replace ((n, m), N) (A ++ B ++ C) = A ++ N ++ C.
Proof.
  intros -> ->. unfold replace. cbn [fst snd]. rewrite firstn_app, firstn_all, Nat.sub_diag, firstn_O, app_nil_r. f_equal. f_equal.
  rewrite app_assoc, skipn_app. rewrite skipn_all2 by (rewrite app_length; lia). rewrite app_length. replace (length A + length B - (length A + length B)) with 0 by lia. reflexivity.
Qed.

(** ** The cursor *)
Lemma vpath_length w : length (vpath w) = length (vcontexts w).
Proof. induction w; cbn [vpath vcontexts length]; auto. Qed.
Lemma key_contexts_length ks : forall o, length (key_contexts o ks) = length ks.
Proof. induction ks as [|[k s] ks IH]; intros o; cbn [key_contexts length]; auto. Qed.
Lemma path_length p : length (path p) = length (contexts p).
Proof. induction p as [|p IH ks w]; [reflexivity|]. cbn [path contexts]. rewrite !app_length, IH, vpath_length, key_contexts_length. unfold vals. rewrite !map_length. reflexivity. Qed.
Lemma path_head p k q : keyed p -> exists h l, path p ++ AKey k :: q = AKey h :: l.
Proof.
  revert k q. induction p as [|p IH ks w open cm b gap a]; intros k q HK; [cbn; eauto|]. destruct HK as (_ & HK & HP). destruct ks as [|[k1 s1] ks]; [congruence|]. cbn [path vals map fst]. rewrite <- !app_assoc. cbn [app]. apply IH. exact HP.
Qed.
Lemma key_context_at o ks k s l : exists c, nth_error (key_contexts o (ks ++ (k, s) :: l)) (length ks) = Some (CKey c (o + length (keys_text ks), o + length (keys_text ks) + length (raw k))) /\ c <> Header.
Proof.
  revert o. induction ks as [|[k1 s1] ks IH]; intros o.
  - cbn [app key_contexts length nth_error]. cbn [keys_text flat_map length]. rewrite Nat.add_0_r. eexists. split; [reflexivity|]. destruct l; discriminate.
  - cbn [app key_contexts length nth_error]. destruct (IH (o + length (raw k1) + length s1)) as (c & HC & HN). exists c. split; [|exact HN]. rewrite HC. rewrite keys_cons. do 3 f_equal; lia.
Qed.
Lemma nth_error_firstn {A} (l : list A) : forall n i, i < n -> nth_error (firstn n l) i = nth_error l i.
Proof. induction l as [|x l IH]; intros [|n] [|i] H; cbn [firstn nth_error]; auto; try lia. apply IH. lia. Qed.

(** ** The meaning *)
Definition body (l : list item) := DocTreeSpec.eval_body (map (fun x => kv_syntax (fst x)) l).
Definition table_data (l : list item) : option DocTreeSpec.data := option_map DocTreeSpec.table_meaning (DocTreeSpec.put_all (body l) []).
Lemma says_eq ld l : says (Doc ld l) = table_data l.
Proof. unfold says, DocTreeSpec.toml, table_data, body. cbn [DocTreeModel.d_body DocTreeModel.d_sections items]. destruct (DocTreeSpec.put_all _ _); reflexivity. Qed.
Lemma inline_eval open c l : DocTreeSpec.eval (syntax (LInline open c l)) = table_data l.
Proof. cbn [syntax DocTreeSpec.eval]. unfold table_data, body, DocTreeSpec.eval_body. rewrite !map_map. reflexivity. Qed.
Lemma vplug_eval w v v' : (forall y, DocTreeSpec.eval (syntax v) = Some y -> DocTreeSpec.eval (syntax v') = Some y) ->
  forall y, DocTreeSpec.eval (syntax (vplug w v)) = Some y -> DocTreeSpec.eval (syntax (vplug w v')) = Some y.
Proof.
  intros H. induction w as [|open b w IH gap a]; [exact H|]. intros y. cbn [vplug syntax DocTreeSpec.eval]. rewrite !map_app. cbn [map fst].
  generalize (map DocTreeSpec.eval (map (fun x : lval * str => syntax (fst x)) a)). intros la. generalize (map DocTreeSpec.eval (map (fun x : lval * str => syntax (fst x)) b)). intros lb.
  assert (HA : forall ys, DocTreeSpec.all_some (lb ++ DocTreeSpec.eval (syntax (vplug w v)) :: la) = Some ys -> DocTreeSpec.all_some (lb ++ DocTreeSpec.eval (syntax (vplug w v')) :: la) = Some ys).
  { induction lb as [|[x|] lb IHb]; intros ys; cbn [app DocTreeSpec.all_some].
    - destruct (DocTreeSpec.eval (syntax (vplug w v))) as [z|] eqn:E; [|discriminate]. rewrite (IH z eq_refl). auto.
    - destruct (DocTreeSpec.all_some (lb ++ DocTreeSpec.eval (syntax (vplug w v)) :: la)) as [zs|]; [|discriminate]. rewrite (IHb zs eq_refl). auto.
    - auto. }
  destruct (DocTreeSpec.all_some (lb ++ DocTreeSpec.eval (syntax (vplug w v)) :: la)) as [ys|]; [|discriminate]. rewrite (HA ys eq_refl). auto.
Qed.
Lemma body_app a b : body (a ++ b) = body a ++ body b.
Proof. unfold body, DocTreeSpec.eval_body. rewrite !map_app. reflexivity. Qed.
Lemma body_cons ks v g l : body (((ks, v), g) :: l) = (vals ks, DocTreeSpec.eval (syntax v)) :: body l.
Proof. reflexivity. Qed.
Lemma place_says p kv kv' : (forall g y, table_data (bef p ++ (kv, g) :: aft p) = Some y -> table_data (bef p ++ (kv', g) :: aft p) = Some y) ->
  forall x, says (plug p kv) = Some x -> says (plug p kv') = Some x.
Proof.
  revert kv kv'. induction p as [lead b gap a|p IH ks w open cm b gap a]; intros kv kv' H x; cbn [plug bef aft] in *.
  - rewrite !says_eq. apply H.
  - apply IH. intros g y. unfold table_data at 1 2. rewrite !body_app, !body_cons, !CodeActionMeaning.put_all_app. destruct (DocTreeSpec.put_all (body (bef p)) []) as [s|]; [|auto]. cbn [DocTreeSpec.put_all].
    destruct (DocTreeSpec.eval (syntax (vplug w (LInline open cm (b ++ (kv, gap) :: a))))) as [d|] eqn:E; [|discriminate].
    rewrite (vplug_eval w _ (LInline open cm (b ++ (kv', gap) :: a)) ltac:(intros z; rewrite !inline_eval; apply H) d E). auto.
Qed.
Lemma vals_app a b : vals (a ++ b) = vals a ++ vals b.
Proof. apply map_app. Qed.
(** an inline table with one key/value *)
Lemma one_data ks v g : ks <> [] -> table_data [((ks, v), g)] = option_map (CodeActionMeaning.chain (vals ks)) (DocTreeSpec.eval (syntax v)).
Proof.
  intros HK. unfold table_data. rewrite body_cons. cbn [DocTreeSpec.put_all]. destruct (DocTreeSpec.eval (syntax v)) as [d|]; [|reflexivity].
  destruct (CodeActionMeaning.put_fresh (vals ks) d) as (sub & -> & M); [destruct ks; [congruence|discriminate]|]. cbn [body map DocTreeSpec.eval_body DocTreeSpec.put_all option_map]. unfold DocTreeSpec.table_meaning. rewrite M. reflexivity.
Qed.
Lemma says_opened p ks a s1 s1' open c g ks2 v : ks2 <> [] ->
  forall x, says (plug p (ks ++ [(a, s1)], LInline open c [((ks2, v), g)])) = Some x -> says (plug p (ks ++ (a, s1') :: ks2, v)) = Some x.
Proof.
  intros H2. apply place_says. intros g' y. unfold table_data. rewrite !body_app, !body_cons, inline_eval, (one_data _ _ _ H2).
  destruct (DocTreeSpec.eval (syntax v)) as [d|]; cbn [option_map].
  - rewrite !vals_app. cbn [vals map fst]. fold (vals ks2). fold (vals ks). destruct (DocTreeSpec.put_all (body (bef p) ++ _) []) as [r|] eqn:E; [|discriminate].
    destruct (CodeActionMeaning.body_opened (body (bef p)) (vals ks) (val a) (vals ks2) d (body (aft p)) r) as (r' & E' & M); [destruct ks2; [congruence|discriminate]|exact E|].
    unfold vals in *. rewrite E'. cbn [option_map]. rewrite M. auto.
  - rewrite !CodeActionMeaning.put_all_app. destruct (DocTreeSpec.put_all (body (bef p)) []); discriminate.
Qed.
Lemma says_closed p ks a a' s1 s1' open c g ks2 ks2' v : ks2' <> [] -> vals ks2' = vals ks2 -> val a' = val a -> (forall x, In x (siblings p) -> ~ begins (vals ks ++ [val a]) (vals (fst (fst x)))) ->
  forall x, says (plug p (ks ++ (a, s1') :: ks2, v)) = Some x -> says (plug p (ks ++ [(a', s1)], LInline open c [((ks2', v), g)])) = Some x.
Proof.
  intros H2 HV HVa HS. apply place_says. intros g' y. unfold table_data at 1 2. rewrite !body_app, !body_cons, inline_eval, (one_data _ _ _ H2), HV. assert (H2' : ks2 <> []) by (destruct ks2; [destruct ks2'; [congruence|discriminate HV]|discriminate]).
  destruct (DocTreeSpec.eval (syntax v)) as [d|]; cbn [option_map].
  - rewrite !vals_app. cbn [vals map fst]. rewrite HVa. fold (vals ks2). fold (vals ks). destruct (DocTreeSpec.put_all (body (bef p) ++ _) []) as [r'|] eqn:E; [|discriminate].
    destruct (CodeActionMeaning.body_closed (body (bef p)) (vals ks) (val a) (vals ks2) d (body (aft p)) r') as (r & E' & M); [destruct ks2; [congruence|discriminate]| |exact E|].
    + intros q z Hq. rewrite <- body_app, <- siblings_eq in Hq. unfold body, DocTreeSpec.eval_body in Hq. rewrite map_map in Hq. apply in_map_iff in Hq as (it & Eq & Hin). injection Eq as <- <-. exact (HS it Hin).
    + unfold vals in *. rewrite E'. cbn [option_map]. rewrite M. auto.
  - rewrite !CodeActionMeaning.put_all_app. destruct (DocTreeSpec.put_all (body (bef p)) []); discriminate.
Qed.
