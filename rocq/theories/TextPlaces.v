(** Where the values of a text are in its data: by the keys and positions they are written under. *)
From Coq Require Import String Ascii List NArith ZArith Bool Arith Lia.
From Verif Require Import Base SyntaxKind TextModel TomlTextModel ParserModel AstModel FormatterModel FormatterLayout FormatterSpec ReadBack TextTreeModel TextTreeProofs.
From Verif Require Import DocTreeSpec.
From Verif Require DocTreeModel DocTreeProofs.
Import ListNotations.
Open Scope N_scope.
Open Scope list_scope.

(** * Specification *)
(** A place in the data *)
Inductive place := Key (k : str) | Index (i : nat).
Fixpoint data_at (path : list place) (d : data) : option data :=
  match path with
  | [] => Some d
  | Key k :: path => match d with DTable es => match assoc k es with Some d => data_at path d | None => None end | _ => None end
  | Index i :: path => match d with DArray l => match nth_error l i with Some d => data_at path d | None => None end | _ => None end
  end.
Section Written.
Context (v : toml_version).
(** The token [p] is written inside the value, at the place [path]: the dotted keys of a key/value are keys, one inside the
    other; the values of an array are counted. *)
Inductive written : fval -> list place -> piece -> Prop :=
| written_literal lead k w tc : written (FLit lead k w tc) [] (k, w)
| written_array lead otc gs tc i it path p : nth_error (items_of gs) i = Some it -> written (ival it) path p -> written (FBox false lead otc gs tc) (Index i :: path) p
| written_table lead otc gs tc it ks path p : In it (items_of gs) -> opt_all (key_value v) (ikeys it) = Some ks -> written (ival it) path p ->
    written (FBox true lead otc gs tc) (map Key ks ++ path) p.
Definition written_body (its : list (item fval)) (path : list place) (p : piece) : Prop :=
  exists it ks path', In it its /\ opt_all (key_value v) (ikeys it) = Some ks /\ written (ival it) path' p /\ path = map Key ks ++ path'.
(** The headers before, with [true] for arrays of tables.  How many elements the array of tables [p] has so far: those since
    an array of tables that holds it got a new element *)
Fixpoint is_prefix (a b : list str) : bool :=
  match a, b with [], _ => true | x :: a, y :: b => str_eqb x y && is_prefix a b | _, [] => false end.
Definition elements (p : list str) (earlier : list (bool * list str)) : nat :=
  fold_left (fun n '(array, h) => if array && is_prefix h p then if Nat.eqb (length h) (length p) then S n else 0%nat else n) earlier 0%nat.
(** The place of a header: its keys are keys, one inside the other; a name of an array of tables stands for the last element
    so far, and [[[a]]] for a new one. *)
Fixpoint header_places (earlier : list (bool * list str)) (array : bool) (above h : list str) : list place :=
  match h with
  | [] => []
  | [k] => if array then [Key k; Index (elements (above ++ [k]) earlier)] else [Key k]
  | k :: h => Key k :: (match elements (above ++ [k]) earlier with O => [] | S n => [Index n] end) ++ header_places earlier array (above ++ [k]) h
  end.
Definition header (t : ftable) : option (bool * list str) := option_map (pair (t_array t)) (opt_all (key_value v) (t_keys t)).
(** at the root, or under a header *)
Definition written_document (d : fdoc) (path : list place) (p : piece) : Prop :=
  written_body (items_of (d_groups d)) path p \/
  exists l1 t l2 earlier h path', d_tables d = l1 ++ t :: l2 /\ opt_all header l1 = Some earlier /\ opt_all (key_value v) (t_keys t) = Some h /\
    written_body (items_of (t_groups t)) path' p /\ path = header_places earlier (t_array t) [] h ++ path'.
End Written.

(** * Proofs *)
Lemma str_eqb_sym a b : str_eqb a b = str_eqb b a.
Proof. destruct (str_eqb a b) eqn:E1, (str_eqb b a) eqn:E2; try reflexivity; [apply str_eqb_eq in E1|apply str_eqb_eq in E2]; subst; rewrite str_eqb_refl in *; discriminate. Qed.
Notation dir es := (DTable (map (fun e => (fst e, meaning (snd e))) es)).
Definition kept (d d' : data) : Prop := forall path x, data_at path d = Some (DScalar x) -> data_at path d' = Some (DScalar x).
Lemma kept_refl d : kept d d.
Proof. intros path x H. exact H. Qed.
Lemma kept_trans a b c : kept a b -> kept b c -> kept a c.
Proof. intros H1 H2 path x H. auto. Qed.
Lemma assoc_meaning k es : assoc k (map (fun e => (fst e, meaning (snd e))) es) = option_map meaning (assoc k es).
Proof. induction es as [|[k' n] es IH]; [reflexivity|]. cbn [map assoc fst snd]. destruct (str_eqb k k'); [reflexivity|exact IH]. Qed.
Lemma at_key k path es : data_at (Key k :: path) (dir es) = match assoc k es with Some n => data_at path (meaning n) | None => None end.
Proof. cbn [data_at]. rewrite assoc_meaning. destruct (assoc k es); reflexivity. Qed.
(** What a table keeps when one name is new or gets a new meaning that keeps the old. *)
Lemma kept_set k n es : match assoc k es with Some n0 => kept (meaning n0) (meaning n) | None => True end ->
  kept (dir es) (dir (match assoc k es with Some _ => assoc_set k n es | None => es ++ [(k, n)] end)).
Proof.
  intros H path x HX. destruct path as [|[k2|i] path]; [discriminate HX| |discriminate HX]. rewrite at_key in *. destruct (str_eqb k2 k) eqn:E.
  - apply str_eqb_eq in E. subst k2. destruct (assoc k es) as [n0|] eqn:EA; [|discriminate]. rewrite DocTreeProofs.assoc_set_same by congruence. apply H. exact HX.
  - apply str_eqb_neq in E. destruct (assoc k es) as [n0|] eqn:EA; [rewrite DocTreeProofs.assoc_set_other by exact E; exact HX|]. rewrite DocTreeProofs.assoc_app. destruct (assoc k2 es); [exact HX|discriminate].
Qed.
Lemma at_set k n es path : data_at (Key k :: path) (dir (match assoc k es with Some _ => assoc_set k n es | None => es ++ [(k, n)] end)) = data_at path (meaning n).
Proof.
  rewrite at_key. destruct (assoc k es) as [n0|] eqn:EA; [rewrite DocTreeProofs.assoc_set_same by congruence; reflexivity|]. rewrite DocTreeProofs.assoc_app, EA. cbn [assoc]. rewrite str_eqb_refl. reflexivity.
Qed.
Lemma kept_leaf d d' : kept (dir []) d -> kept (DTable []) d'.
Proof. intros _ path x H. destruct path as [|[k|i] path]; discriminate H. Qed.

Lemma put_places keys d : forall es es', put keys d es = Some es' -> kept (dir es) (dir es') /\ forall path, data_at (map Key keys ++ path) (dir es') = data_at path d.
Proof.
  induction keys as [|k keys IH]; intros es es' E; [discriminate|]. cbn [put] in E. destruct keys as [|k2 keys].
  - destruct (assoc k es) eqn:EA; [discriminate|]. injection E as <-. pose proof (kept_set k (Leaf d) es) as HK. pose proof (at_set k (Leaf d) es) as HA. rewrite EA in HK, HA. split; [apply HK; exact I|exact HA].
  - destruct (assoc k es) as [[x|[]sub|ts]|] eqn:EA; try discriminate.
    + destruct (put (k2 :: keys) d sub) as [sub'|] eqn:EP; [|discriminate]. injection E as <-. destruct (IH _ _ EP) as [H1 H2]. pose proof (kept_set k (Dir Dotted sub') es) as HK. pose proof (at_set k (Dir Dotted sub') es) as HA. rewrite EA in HK, HA.
      split; [apply HK; exact H1|]. intros path. change (map Key (k :: k2 :: keys) ++ path) with (Key k :: map Key (k2 :: keys) ++ path). rewrite HA. apply H2.
    + destruct (put (k2 :: keys) d []) as [sub'|] eqn:EP; [|discriminate]. injection E as <-. destruct (IH _ _ EP) as [H1 H2]. pose proof (kept_set k (Dir Dotted sub') es) as HK. pose proof (at_set k (Dir Dotted sub') es) as HA. rewrite EA in HK, HA.
      split; [apply HK; exact I|]. intros path. change (map Key (k :: k2 :: keys) ++ path) with (Key k :: map Key (k2 :: keys) ++ path). rewrite HA. apply H2.
Qed.
(** what the key/values of a table put into it *)
Definition puts (kvs : list (list str * option data)) (d : data) : Prop :=
  forall keys x path s, In (keys, Some x) kvs -> data_at path x = Some (DScalar s) -> data_at (map Key keys ++ path) d = Some (DScalar s).
Lemma put_all_places kvs : forall es es', put_all kvs es = Some es' -> kept (dir es) (dir es') /\ puts kvs (dir es').
Proof.
  induction kvs as [|[keys [x|]] kvs IH]; intros es es' E; cbn [put_all] in E; [injection E as <-; split; [apply kept_refl|intros ? ? ? ? []]| |discriminate].
  destruct (put keys x es) as [es1|] eqn:EP; [|discriminate]. destruct (put_places _ _ _ _ EP) as [H1 H2]. destruct (IH _ _ E) as [H3 H4]. split; [eapply kept_trans; eauto|].
  intros keys0 x0 path s [HI|HI] HX; [|eapply H4; eauto]. injection HI as <- <-. apply H3. rewrite H2. exact HX.
Qed.

(** the place of a section in the tables so far *)
Fixpoint spot (array : bool) (h : list str) (es : list (str * node)) : list place :=
  match h with
  | [] => []
  | [k] => if array then [Key k; Index (match assoc k es with Some (Elems ts) => length ts | _ => 0%nat end)] else [Key k]
  | k :: h => match assoc k es with
              | Some (Elems ts) => Key k :: Index (length ts - 1) :: spot array h (last ts [])
              | Some (Dir _ sub) => Key k :: spot array h sub
              | _ => Key k :: spot array h []
              end
  end.
Lemma kept_elems ts t : kept (DArray (map (fun es => dir es) ts)) (DArray (map (fun es => dir es) (ts ++ [t]))).
Proof.
  intros path x H. destruct path as [|[k|i] path]; try discriminate H. cbn [data_at] in *. rewrite map_app. destruct (nth_error (map (fun es => dir es) ts) i) eqn:EN; [|discriminate]. rewrite nth_error_app1 by (apply nth_error_Some; congruence). rewrite EN. exact H.
Qed.
Lemma kept_last ts t : kept (dir (last ts [])) (dir t) -> kept (DArray (map (fun es => dir es) ts)) (DArray (map (fun es => dir es) (removelast ts ++ [t]))).
Proof.
  intros HK path x H. destruct path as [|[k|i] path]; try discriminate H. cbn [data_at] in *. destruct (nth_error (map (fun es => dir es) ts) i) as [d|] eqn:EN; [|discriminate].
  destruct ts as [|t0 ts0]; [destruct i; discriminate|]. set (ts := t0 :: ts0) in *. assert (HT : ts = removelast ts ++ [last ts []]) by (apply app_removelast_last; discriminate). rewrite HT, map_app in EN. rewrite map_app.
  destruct (Nat.lt_ge_cases i (length (removelast ts))) as [HL|HL].
  - rewrite nth_error_app1 in * by (rewrite map_length; exact HL). rewrite EN. exact H.
  - rewrite nth_error_app2 in * by (rewrite map_length; exact HL). rewrite map_length in *. destruct (i - length (removelast ts))%nat as [|m]; [|destruct m; discriminate]. cbn [map nth_error] in *. injection EN as <-. apply HK. exact H.
Qed.
Lemma at_last ts t path : data_at (Index (length ts - 1) :: path) (DArray (map (fun es => dir es) (removelast ts ++ [t]))) = data_at path (dir t).
Proof.
  cbn [data_at]. assert (HL : length (removelast ts) = (length ts - 1)%nat) by (rewrite <- (rev_involutive ts); destruct (rev ts) as [|a l]; [reflexivity|]; cbn [rev]; rewrite removelast_last, app_length; cbn [length]; lia).
  rewrite map_app, nth_error_app2; rewrite map_length, HL; [|lia]. rewrite Nat.sub_diag. reflexivity.
Qed.
Lemma at_next ts t path : data_at (Index (length ts) :: path) (DArray (map (fun es => dir es) (ts ++ [t]))) = data_at path (dir t).
Proof. cbn [data_at]. rewrite map_app, nth_error_app2; rewrite map_length; [|lia]. rewrite Nat.sub_diag. reflexivity. Qed.
Lemma define_places array h body : forall es es', define array h body es = Some es' -> kept (dir es) (dir es') /\
  forall keys x path s, In (keys, Some x) body -> data_at path x = Some (DScalar s) -> data_at (spot array h es ++ map Key keys ++ path) (dir es') = Some (DScalar s).
Proof.
  assert (STEP : forall k es n (pl : list place), (match assoc k es with Some n0 => kept (meaning n0) (meaning n) | None => True end) ->
    (forall keys x path s, In (keys, Some x) body -> data_at path x = Some (DScalar s) -> data_at (pl ++ map Key keys ++ path) (meaning n) = Some (DScalar s)) ->
    let es' := match assoc k es with Some _ => assoc_set k n es | None => es ++ [(k, n)] end in kept (dir es) (dir es') /\
    forall keys x path s, In (keys, Some x) body -> data_at path x = Some (DScalar s) -> data_at ((Key k :: pl) ++ map Key keys ++ path) (dir es') = Some (DScalar s)).
  { intros k es n pl H1 H2 es'. split; [apply kept_set; exact H1|]. intros keys x path s HI HX. cbn [app]. unfold es'. rewrite at_set. eapply H2; eauto. }
  assert (EMPTY : forall d, kept (dir []) d) by (intros d path x H; destruct path as [|[k|i] path]; discriminate H).
  induction h as [|k h IH]; intros es es' E; [discriminate|]. cbn [define spot] in *. destruct h as [|k2 h].
  - destruct array.
    + destruct (assoc k es) as [[x|o sub|ts]|] eqn:EA; try discriminate; destruct (put_all body []) as [t|] eqn:EP; try discriminate; injection E as <-; destruct (put_all_places _ _ _ EP) as [_ HP].
      * specialize (STEP k es (Elems (ts ++ [t])) [Index (length ts)]). rewrite EA in STEP. apply STEP; [apply kept_elems|]. intros keys x path s HI HX. cbn [meaning]. cbn [app]. rewrite at_next. eapply HP; eauto.
      * specialize (STEP k es (Elems [t]) [Index 0]). rewrite EA in STEP. apply STEP; [exact I|]. intros keys x path s HI HX. cbn [app meaning map data_at nth_error]. eapply HP; eauto.
    + destruct (assoc k es) as [[x|[]sub|ts]|] eqn:EA; try discriminate.
      * destruct (put_all body sub) as [t|] eqn:EP; try discriminate. injection E as <-. destruct (put_all_places _ _ _ EP) as [HK HP]. specialize (STEP k es (Dir Defined t) []). rewrite EA in STEP. apply STEP; [exact HK|exact HP].
      * destruct (put_all body []) as [t|] eqn:EP; try discriminate. injection E as <-. destruct (put_all_places _ _ _ EP) as [_ HP]. specialize (STEP k es (Dir Defined t) []). rewrite EA in STEP. apply STEP; [exact I|exact HP].
  - destruct (assoc k es) as [[x|o sub|ts]|] eqn:EA; try discriminate.
    + destruct (define array (k2 :: h) body sub) as [t|] eqn:ED; [|discriminate]. injection E as <-. destruct (IH _ _ ED) as [H1 H2]. specialize (STEP k es (Dir o t) (spot array (k2 :: h) sub)). rewrite EA in STEP. apply STEP; [exact H1|exact H2].
    + destruct (define array (k2 :: h) body (last ts [])) as [t|] eqn:ED; [|discriminate]. injection E as <-. destruct (IH _ _ ED) as [H1 H2]. specialize (STEP k es (Elems (removelast ts ++ [t])) (Index (length ts - 1) :: spot array (k2 :: h) (last ts []))). rewrite EA in STEP.
      apply STEP; [apply kept_last; exact H1|]. intros keys x path s HI HX. cbn [meaning]. rewrite <- app_comm_cons, at_last. eapply H2; eauto.
    + destruct (define array (k2 :: h) body []) as [t|] eqn:ED; [|discriminate]. injection E as <-. destruct (IH _ _ ED) as [H1 H2]. specialize (STEP k es (Dir Implicit t) (spot array (k2 :: h) [])). rewrite EA in STEP. apply STEP; [exact I|exact H2].
Qed.

(** * The arrays of tables so far *)
Definition ln (p : list str) (es : list (str * node)) : option nat := match at_path p es with Some (Elems ts) => Some (length ts) | _ => None end.
Definition node_ln (q : list str) (n : node) : option nat :=
  match q, n with
  | [], Elems ts => Some (length ts)
  | _ :: _, Dir _ sub => ln q sub
  | _ :: _, Elems ts => ln q (last ts [])
  | _, _ => None
  end.
Lemma ln_cons k q es : ln (k :: q) es = match assoc k es with Some n => node_ln q n | None => None end.
Proof. unfold ln, node_ln. destruct q as [|k2 q]; cbn [at_path]; destruct (assoc k es) as [[x|o sub|ts]|]; reflexivity. Qed.
Lemma ln_nil q : ln q [] = None.
Proof. destruct q as [|k q]; [reflexivity|]. rewrite ln_cons. reflexivity. Qed.
Lemma ln_set k n es k2 q : ln (k2 :: q) (match assoc k es with Some _ => assoc_set k n es | None => es ++ [(k, n)] end) = if str_eqb k2 k then node_ln q n else ln (k2 :: q) es.
Proof.
  rewrite !ln_cons. destruct (str_eqb k2 k) eqn:E.
  - apply str_eqb_eq in E. subst k2. destruct (assoc k es) as [n0|] eqn:EA; [rewrite DocTreeProofs.assoc_set_same by congruence; reflexivity|]. rewrite DocTreeProofs.assoc_app, EA. cbn [assoc]. rewrite str_eqb_refl. reflexivity.
  - destruct (assoc k es) as [n0|] eqn:EA; [rewrite DocTreeProofs.assoc_set_other by (apply str_eqb_neq; exact E); reflexivity|]. rewrite DocTreeProofs.assoc_app. cbn [assoc]. rewrite E. destruct (assoc k2 es); reflexivity.
Qed.
Lemma put_ln keys d : forall es es', put keys d es = Some es' -> forall p, ln p es' = ln p es.
Proof.
  induction keys as [|k keys IH]; intros es es' E p; [discriminate|]. cbn [put] in E. destruct p as [|k2 q]; [reflexivity|]. destruct keys as [|k3 keys].
  - destruct (assoc k es) eqn:EA; [discriminate|]. injection E as <-. pose proof (ln_set k (Leaf d) es k2 q) as HL. rewrite EA in HL. rewrite HL. destruct (str_eqb k2 k) eqn:E2; [|reflexivity]. apply str_eqb_eq in E2. subst. rewrite ln_cons, EA. destruct q; reflexivity.
  - destruct (assoc k es) as [[x|[]sub|ts]|] eqn:EA; try discriminate.
    + destruct (put (k3 :: keys) d sub) as [sub'|] eqn:EP; [|discriminate]. injection E as <-. pose proof (ln_set k (Dir Dotted sub') es k2 q) as HL. rewrite EA in HL. rewrite HL. destruct (str_eqb k2 k) eqn:E2; [|reflexivity]. apply str_eqb_eq in E2. subst. rewrite ln_cons, EA.
      destruct q as [|k4 q]; [reflexivity|]. apply (IH _ _ EP).
    + destruct (put (k3 :: keys) d []) as [sub'|] eqn:EP; [|discriminate]. injection E as <-. pose proof (ln_set k (Dir Dotted sub') es k2 q) as HL. rewrite EA in HL. rewrite HL. destruct (str_eqb k2 k) eqn:E2; [|reflexivity]. apply str_eqb_eq in E2. subst. rewrite ln_cons, EA.
      destruct q as [|k4 q]; [reflexivity|]. cbn [node_ln]. rewrite (IH _ _ EP). apply ln_nil.
Qed.
Lemma put_all_ln kvs : forall es es', put_all kvs es = Some es' -> forall p, ln p es' = ln p es.
Proof.
  induction kvs as [|[keys [x|]] kvs IH]; intros es es' E p; cbn [put_all] in E; [injection E as <-; reflexivity| |discriminate]. destruct (put keys x es) as [es1|] eqn:EP; [|discriminate]. rewrite (IH _ _ E). apply (put_ln _ _ _ _ EP).
Qed.
Definition step_ln (array : bool) (h p : list str) (o : option nat) : option nat :=
  if array && is_prefix h p then if Nat.eqb (length h) (length p) then Some (S (match o with Some n => n | None => 0%nat end)) else None else o.
Lemma removelast_length {A} (l : list A) : length (removelast l) = (length l - 1)%nat.
Proof. rewrite <- (rev_involutive l). destruct (rev l) as [|a r]; [reflexivity|]. cbn [rev]. rewrite removelast_last, app_length. cbn [length]. lia. Qed.
Lemma define_ln array h body : forall es es', (forall p, ln p es <> Some 0%nat) -> define array h body es = Some es' -> forall p, ln p es' = step_ln array h p (ln p es).
Proof.
  assert (STEP : forall k h es n, (forall q, node_ln q n = step_ln array h q (match assoc k es with Some n0 => node_ln q n0 | None => None end)) ->
    forall p, ln p (match assoc k es with Some _ => assoc_set k n es | None => es ++ [(k, n)] end) = step_ln array (k :: h) p (ln p es)).
  { clear h. intros k h es n H p. destruct p as [|k2 q]; [unfold step_ln; cbn [is_prefix]; rewrite andb_false_r; reflexivity|]. rewrite ln_set. unfold step_ln. cbn [is_prefix length Nat.eqb]. rewrite (str_eqb_sym k k2). destruct (str_eqb k2 k) eqn:E.
    - apply str_eqb_eq in E. subst. cbn [andb]. rewrite ln_cons. apply H.
    - cbn [andb]. rewrite andb_false_r. reflexivity. }
  induction h as [|k h IH]; intros es es' H0 E; [discriminate|]. cbn [define] in E. destruct h as [|k2 h].
  - destruct array.
    + destruct (assoc k es) as [[x|o sub|ts]|] eqn:EA; try discriminate; destruct (put_all body []) as [t|] eqn:EP; try discriminate; injection E as <-.
      * specialize (STEP k [] es (Elems (ts ++ [t]))). rewrite EA in STEP. apply STEP. intros q. unfold step_ln. cbn [andb is_prefix length]. destruct q as [|k3 q]; cbn [node_ln length Nat.eqb]; [rewrite app_length; cbn [length]; f_equal; lia|]. rewrite last_last, (put_all_ln _ _ _ EP). apply ln_nil.
      * specialize (STEP k [] es (Elems [t])). rewrite EA in STEP. apply STEP. intros q. unfold step_ln. cbn [andb is_prefix length]. destruct q as [|k3 q]; cbn [node_ln length Nat.eqb last]; [reflexivity|]. rewrite (put_all_ln _ _ _ EP). apply ln_nil.
    + destruct (assoc k es) as [[x|[]sub|ts]|] eqn:EA; try discriminate.
      * destruct (put_all body sub) as [t|] eqn:EP; try discriminate. injection E as <-. specialize (STEP k [] es (Dir Defined t)). rewrite EA in STEP. apply STEP. intros q. unfold step_ln. cbn [andb]. destruct q as [|k3 q]; [reflexivity|]. apply (put_all_ln _ _ _ EP).
      * destruct (put_all body []) as [t|] eqn:EP; try discriminate. injection E as <-. specialize (STEP k [] es (Dir Defined t)). rewrite EA in STEP. apply STEP. intros q. unfold step_ln. cbn [andb]. destruct q as [|k3 q]; [reflexivity|]. cbn [node_ln]. rewrite (put_all_ln _ _ _ EP). apply ln_nil.
  - destruct (assoc k es) as [[x|o sub|ts]|] eqn:EA; try discriminate.
    + destruct (define array (k2 :: h) body sub) as [t|] eqn:ED; [|discriminate]. injection E as <-. specialize (STEP k (k2 :: h) es (Dir o t)). rewrite EA in STEP. apply STEP. intros q. destruct q as [|k3 q]; [unfold step_ln; cbn [is_prefix]; rewrite andb_false_r; reflexivity|]. cbn [node_ln]. apply (IH _ _); [|exact ED].
      intros p HP. destruct p as [|k4 p]; [discriminate|]. apply (H0 (k :: k4 :: p)). rewrite ln_cons, EA. exact HP.
    + destruct (define array (k2 :: h) body (last ts [])) as [t|] eqn:ED; [|discriminate]. injection E as <-. specialize (STEP k (k2 :: h) es (Elems (removelast ts ++ [t]))). rewrite EA in STEP. apply STEP. intros q. destruct q as [|k3 q].
      * unfold step_ln. cbn [is_prefix node_ln]. rewrite andb_false_r, app_length, removelast_length. cbn [length]. f_equal. specialize (H0 [k]). rewrite ln_cons, EA in H0. cbn [node_ln] in H0. destruct ts; [contradiction|]. cbn [length]. lia.
      * cbn [node_ln]. rewrite last_last. apply (IH _ _); [|exact ED]. intros p HP. destruct p as [|k4 p]; [discriminate|]. apply (H0 (k :: k4 :: p)). rewrite ln_cons, EA. exact HP.
    + destruct (define array (k2 :: h) body []) as [t|] eqn:ED; [|discriminate]. injection E as <-. specialize (STEP k (k2 :: h) es (Dir Implicit t)). rewrite EA in STEP. apply STEP. intros q. destruct q as [|k3 q]; [unfold step_ln; cbn [is_prefix]; rewrite andb_false_r; reflexivity|]. cbn [node_ln].
      rewrite (IH _ _ (fun p => ltac:(rewrite ln_nil; discriminate)) ED), ln_nil. reflexivity.
Qed.
Definition counted (above : list str) (earlier : list (bool * list str)) (es : list (str * node)) : Prop :=
  forall p, p <> [] -> ln p es = match elements (above ++ p) earlier with O => None | S n => Some (S n) end.
Lemma spot_places earlier array h : forall above es, counted above earlier es -> spot array h es = header_places earlier array above h.
Proof.
  induction h as [|k h IH]; intros above es HC; [reflexivity|]. pose proof (HC [k] ltac:(discriminate)) as HK. rewrite ln_cons in HK.
  assert (HS : forall sub, (forall k2 q, match assoc k es with Some n => node_ln (k2 :: q) n | None => None end = ln (k2 :: q) sub) -> counted (above ++ [k]) earlier sub).
  { intros sub H p Hp. destruct p as [|k2 q]; [contradiction|]. rewrite <- H, <- ln_cons, HC by discriminate. rewrite <- app_assoc. reflexivity. }
  cbn [spot header_places]. destruct h as [|k2 h].
  - destruct array; [|reflexivity]. destruct (assoc k es) as [[x|o sub|ts]|]; cbn [node_ln] in HK; destruct (elements (above ++ [k]) earlier) as [|n]; try discriminate HK; try reflexivity. injection HK as ->. reflexivity.
  - destruct (assoc k es) as [[x|o sub|ts]|] eqn:EA; cbn [node_ln] in HK; destruct (elements (above ++ [k]) earlier) as [|n]; try discriminate HK; cbn [app]; f_equal.
    + apply IH. apply HS. intros k3 q. rewrite ln_nil. reflexivity.
    + apply IH. apply HS. intros k3 q. reflexivity.
    + injection HK as ->. cbn [Nat.sub]. rewrite Nat.sub_0_r. f_equal. apply IH. apply HS. reflexivity.
    + apply IH. apply HS. intros k3 q. rewrite ln_nil. reflexivity.
Qed.
Definition section_header (s : DocTreeModel.section) : bool * list str := (DocTreeModel.s_array s, DocTreeModel.s_header s).
Lemma counted_step earlier s es es' : counted [] earlier es -> define (DocTreeModel.s_array s) (DocTreeModel.s_header s) (eval_body (DocTreeModel.s_body s)) es = Some es' -> counted [] (earlier ++ [section_header s]) es'.
Proof.
  intros HC E p Hp. rewrite (define_ln _ _ _ _ _) with (2 := E).
  - cbn [app]. unfold elements. rewrite fold_left_app. fold (elements p earlier). rewrite (HC p Hp). cbn [app fold_left section_header]. unfold section_header, step_ln. destruct (DocTreeModel.s_array s && is_prefix (DocTreeModel.s_header s) p); [|reflexivity]. destruct (Nat.eqb _ _); [|reflexivity]. destruct (elements p earlier); reflexivity.
  - intros q. destruct q as [|k q]; [discriminate|]. rewrite HC by discriminate. destruct (elements _ _); discriminate.
Qed.
Lemma define_all_places ss : forall earlier es es', counted [] earlier es -> define_all ss es = Some es' -> kept (dir es) (dir es') /\
  forall l1 s l2 keys x path c, ss = l1 ++ s :: l2 -> In (keys, Some x) (eval_body (DocTreeModel.s_body s)) -> data_at path x = Some (DScalar c) ->
    data_at (header_places (earlier ++ map section_header l1) (DocTreeModel.s_array s) [] (DocTreeModel.s_header s) ++ map Key keys ++ path) (dir es') = Some (DScalar c).
Proof.
  induction ss as [|s0 ss IH]; intros earlier es es' HC E; cbn [define_all] in E.
  - injection E as <-. split; [apply kept_refl|]. intros l1 s l2 keys x path c EQ. destruct l1; discriminate.
  - destruct (define _ _ _ es) as [es1|] eqn:ED; [|discriminate]. destruct (define_places _ _ _ _ _ ED) as [H1 H2]. destruct (IH _ _ _ (counted_step _ _ _ _ HC ED) E) as [H3 H4]. split; [eapply kept_trans; eauto|].
    intros l1 s l2 keys x path c EQ HI HX. destruct l1 as [|s1 l1]; cbn [app map] in *; injection EQ as -> ->.
    + apply H3. rewrite app_nil_r, <- (spot_places earlier _ _ [] es HC). eapply H2; eauto.
    + specialize (H4 l1 s l2 keys x path c eq_refl HI HX). rewrite <- app_assoc in H4. exact H4.
Qed.

(** * From the text *)
Section Text.
Context (fl : str -> option (list N)) (v : toml_version).
Definition found (x : fval) : Prop := forall y d path p, syn_value fl v x = Some y -> eval y = Some d -> written v x path p ->
  exists s, literal_value fl v (fst p) (snd p) = Some s /\ data_at path d = Some (DScalar (code s)).
Lemma item_syntax its l it : opt_all (syn_item v (syn_value fl v)) its = Some l -> In it its -> forall ks, opt_all (key_value v) (ikeys it) = Some ks -> exists y, syn_value fl v (ival it) = Some y /\ In (ks, y) l.
Proof.
  revert l. induction its as [|i its IH]; intros l E HI ks HK; [destruct HI|]. cbn [opt_all] in E. fold (opt_all (syn_item v (syn_value fl v))) in E. destruct (syn_item v (syn_value fl v) i) as [b|] eqn:EI; [|discriminate]. destruct (opt_all (syn_item v (syn_value fl v)) its) as [l0|]; [|discriminate]. injection E as <-.
  destruct HI as [-> |HI]; [|destruct (IH _ eq_refl HI ks HK) as (y & H1 & H2); exists y; split; [exact H1|right; exact H2]]. destruct it as [ld keys r x c]. cbn [syn_item ikeys ival] in *. rewrite HK in EI. unfold both in EI. destruct (syn_value fl v x) as [y|]; [|discriminate]. injection EI as <-. exists y. split; [reflexivity|left; reflexivity].
Qed.
Lemma item_nth its l i it : opt_all (syn_item v (syn_value fl v)) its = Some l -> nth_error its i = Some it -> exists y, syn_value fl v (ival it) = Some y /\ nth_error (map snd l) i = Some y.
Proof.
  revert l i. induction its as [|i0 its IH]; intros l i E HI; [destruct i; discriminate|]. cbn [opt_all] in E. fold (opt_all (syn_item v (syn_value fl v))) in E. destruct (syn_item v (syn_value fl v) i0) as [b|] eqn:EI; [|discriminate]. destruct (opt_all (syn_item v (syn_value fl v)) its) as [l0|]; [|discriminate]. injection E as <-.
  destruct i as [|i]; [|exact (IH l0 i eq_refl HI)]. injection HI as ->. destruct it as [ld keys r x c]. cbn [syn_item ival] in *. unfold both in EI. destruct (opt_all (key_value v) keys); [|discriminate]. destruct (syn_value fl v x) as [y|]; [|discriminate]. injection EI as <-. exists y. split; reflexivity.
Qed.
Lemma eval_in ks y l d : In (ks, y) l -> put_all (eval_body l) [] = Some d -> exists x, eval y = Some x /\ In (ks, Some x) (eval_body l).
Proof.
  intros HI E. assert (HE : In (ks, eval y) (eval_body l)) by (apply in_map_iff; exists (ks, y); auto). destruct (eval y) as [x|] eqn:EY; [exists x; auto|]. exfalso. revert E HE. generalize (@nil (str * node)). induction (eval_body l) as [|[k [x|]] b IH]; intros es E HE; [destruct HE| |discriminate].
  cbn [put_all] in E. destruct (put k x es); [|discriminate]. destruct HE as [HE|HE]; [discriminate|]. eapply IH; eauto.
Qed.
Lemma eval_nth vs ds i y : all_some (map eval vs) = Some ds -> nth_error vs i = Some y -> exists d, eval y = Some d /\ nth_error ds i = Some d.
Proof.
  revert ds i. induction vs as [|x vs IH]; intros ds i E HI; [destruct i; discriminate|]. cbn [map all_some] in E. destruct (eval x) as [d|] eqn:EX; [|discriminate]. destruct (all_some (map eval vs)) as [ds0|]; [|discriminate]. injection E as <-. destruct i as [|i]; [|exact (IH ds0 i eq_refl HI)]. injection HI as ->. exists d. auto.
Qed.
Lemma value_found x : found x.
Proof.
  induction x as [lead k w tc|table lead otc gs tc HG] using fval_ind'; intros y d path p E ED HW.
  - inversion HW; subst. cbn [syn_value fst snd] in *. destruct (literal_value fl v k w) as [s|]; [|discriminate]. injection E as <-. injection ED as <-. exists s. auto.
  - rewrite syn_box in E. destruct (opt_all _ (items_of gs)) as [l|] eqn:EL; [|discriminate]. injection E as <-. pose proof (all_items _ _ HG) as HF. rewrite Forall_forall in HF. inversion HW as [|l0 o0 g0 t0 i it path' p' HN HW'|l0 o0 g0 t0 it ks path' p' HI HK HW']; subst.
    + destruct (item_nth _ _ _ _ EL HN) as (y & EY & HY). cbn [eval] in ED. destruct (all_some (map eval (map snd l))) as [ds|] eqn:EA; [|discriminate]. injection ED as <-. destruct (eval_nth _ _ _ _ EA HY) as (d & EV & HD).
      destruct (HF it (nth_error_In _ _ HN) y d path' p EY EV HW') as (s & H1 & H2). exists s. split; [exact H1|]. cbn [data_at]. rewrite HD. exact H2.
    + destruct (item_syntax _ _ _ EL HI ks HK) as (y & EY & HY). cbn [eval] in ED. fold (eval_body l) in ED. destruct (put_all (eval_body l) []) as [es|] eqn:EA; [|discriminate]. injection ED as <-. destruct (eval_in _ _ _ _ HY EA) as (x & EV & HX).
      destruct (HF it HI y x path' p EY EV HW') as (s & H1 & H2). exists s. split; [exact H1|]. destruct (put_all_places _ _ _ EA) as [_ HP]. exact (HP _ _ _ _ HX H2).
Qed.
Lemma body_found gs b es es' path p : syn_body fl v gs = Some b -> put_all (eval_body b) es = Some es' -> written_body v (items_of gs) path p ->
  exists s keys x path', literal_value fl v (fst p) (snd p) = Some s /\ In (keys, Some x) (eval_body b) /\ data_at path' x = Some (DScalar (code s)) /\ path = map Key keys ++ path'.
Proof.
  intros E EA (it & ks & path' & HI & HK & HW & ->). destruct (item_syntax _ _ _ E HI ks HK) as (y & EY & HY).
  assert (HE : In (ks, eval y) (eval_body b)) by (apply in_map_iff; exists (ks, y); auto). destruct (eval y) as [x|] eqn:EV.
  - destruct (value_found _ y x path' p EY EV HW) as (s & H1 & H2). exists s, ks, x, path'. auto.
  - exfalso. revert es EA HE. induction (eval_body b) as [|[k [x|]] b0 IH]; intros es EA HE; [destruct HE| |discriminate]. cbn [put_all] in EA. destruct (put k x es); [|discriminate]. destruct HE as [HE|HE]; [discriminate|]. eapply IH; eauto.
Qed.
Lemma define_body array h body : forall es es', define array h body es = Some es' -> exists a b, put_all body a = Some b.
Proof.
  induction h as [|k h IH]; intros es es' E; [discriminate|]. cbn [define] in E. destruct h as [|k2 h].
  - destruct array; destruct (assoc k es) as [[x|[]sub|ts]|]; try discriminate; match type of E with context [put_all body ?a] => exists a; destruct (put_all body a) as [b|]; [exists b; reflexivity|discriminate] end.
  - destruct (assoc k es) as [[x|o sub|ts]|]; try discriminate; match type of E with context [define array (k2 :: h) body ?a] => destruct (define array (k2 :: h) body a) as [b|] eqn:ED; [apply (IH _ _ ED)|discriminate] end.
Qed.
Lemma define_all_body l1 s l2 : forall es es', define_all (l1 ++ s :: l2) es = Some es' -> exists a b, put_all (eval_body (DocTreeModel.s_body s)) a = Some b.
Proof.
  induction l1 as [|s0 l1 IH]; intros es es' E; cbn [app define_all] in E; destruct (define _ _ _ es) as [es1|] eqn:ED; try discriminate; [apply (define_body _ _ _ _ _ ED)|eapply IH; eauto].
Qed.
Lemma opt_all_split {A B} (f : A -> option B) l1 t l2 ss : opt_all f (l1 ++ t :: l2) = Some ss -> exists s1 s s2, ss = s1 ++ s :: s2 /\ opt_all f l1 = Some s1 /\ f t = Some s.
Proof.
  rewrite opt_all_app. destruct (opt_all f l1) as [s1|]; [|discriminate]. cbn [opt_all]. fold (opt_all f). destruct (f t) as [s|]; [|discriminate]. destruct (opt_all f l2) as [s2|]; [|discriminate]. intros E. injection E as <-. exists s1, s, s2. auto.
Qed.
Lemma sections_headers l1 s1 : opt_all (syn_section fl v) l1 = Some s1 -> forall earlier, opt_all (header v) l1 = Some earlier -> map section_header s1 = earlier.
Proof.
  revert s1. induction l1 as [|t l1 IH]; intros s1 E earlier EH; cbn [opt_all] in *; fold (opt_all (syn_section fl v)) in *; fold (opt_all (header v)) in *; [injection E as <-; injection EH as <-; reflexivity|].
  destruct (syn_section fl v t) as [s|] eqn:ES; [|discriminate]. destruct (opt_all (syn_section fl v) l1) as [s1'|]; [|discriminate]. injection E as <-. destruct (header v t) as [h|] eqn:ET; [|discriminate]. destruct (opt_all (header v) l1) as [e'|]; [|discriminate]. injection EH as <-. cbn [map]. rewrite (IH _ eq_refl _ eq_refl). f_equal.
  unfold syn_section in ES. unfold header in ET. destruct (opt_all (key_value v) (t_keys t)) as [ks|]; [|discriminate]. destruct (syn_body fl v (t_groups t)); [|discriminate]. injection ES as <-. injection ET as <-. reflexivity.
Qed.
Theorem document_found d x data path p : syntax_of fl v d = Some x -> toml x = Some data -> written_document v d path p ->
  exists s, literal_value fl v (fst p) (snd p) = Some s /\ data_at path data = Some (DScalar (code s)).
Proof.
  intros E ET HW. unfold syntax_of in E. destruct (syn_body fl v (d_groups d)) as [b|] eqn:EB; [|discriminate]. destruct (opt_all (syn_section fl v) (d_tables d)) as [ss|] eqn:ES; [|discriminate]. injection E as <-.
  unfold toml in ET. cbn [DocTreeModel.d_body DocTreeModel.d_sections] in ET. destruct (put_all (eval_body b) []) as [es|] eqn:EP; [|discriminate]. destruct (define_all ss es) as [es'|] eqn:ED; [|discriminate]. injection ET as <-.
  assert (HC : counted [] [] es) by (intros q _; rewrite (put_all_ln _ _ _ EP), ln_nil; reflexivity). destruct (define_all_places _ _ _ _ HC ED) as [HK HP].
  destruct HW as [HW|(l1 & t & l2 & earlier & h & path' & ET & EH & EK & HW & ->)].
  - destruct (body_found _ _ _ _ _ _ EB EP HW) as (s & keys & y & path' & H1 & H2 & H3 & ->). exists s. split; [exact H1|]. destruct (put_all_places _ _ _ EP) as [_ HQ]. apply HK. exact (HQ _ _ _ _ H2 H3).
  - rewrite ET in ES. destruct (opt_all_split _ _ _ _ _ ES) as (s1 & s & s2 & -> & E1 & E2). destruct (define_all_body _ _ _ _ _ ED) as (a & b' & EA).
    unfold syn_section in E2. rewrite EK in E2. destruct (syn_body fl v (t_groups t)) as [tb|] eqn:ETB; [|discriminate]. injection E2 as <-. cbn [DocTreeModel.s_body] in EA.
    destruct (body_found _ _ _ _ _ _ ETB EA HW) as (sc & keys & y & path2 & H1 & H2 & H3 & ->). exists sc. split; [exact H1|].
    specialize (HP s1 _ s2 keys y path2 (code sc) eq_refl H2 H3). cbn [DocTreeModel.s_array DocTreeModel.s_header app] in HP. rewrite (sections_headers _ _ E1 _ EH) in HP. exact HP.
Qed.
End Text.
