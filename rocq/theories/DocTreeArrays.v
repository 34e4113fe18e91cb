(** * Documents whose headers do not go through arrays of tables *)
From Coq Require Import String List NArith Bool Arith.
From Verif Require Import Base DocTreeModel DocTreeSpec DocTreeProofs DocTreeProps.
Import ListNotations.
Open Scope list_scope.

Lemma assoc_snoc {A} k k' (x : A) es : assoc k es = None -> assoc k' (es ++ [(k, x)]) = if str_eqb k' k then Some x else assoc k' es.
Proof.
  intros H. rewrite assoc_app. cbn [assoc]. destruct (str_eqb k' k) eqn:E.
  - apply str_eqb_eq in E. subst k'. rewrite H. reflexivity.
  - destruct (assoc k' es); reflexivity.
Qed.
Lemma assoc_reset {A} k k' (x y : A) es : assoc k es = Some y -> assoc k' (assoc_set k x es) = if str_eqb k' k then Some x else assoc k' es.
Proof.
  intros H. destruct (str_eqb k' k) eqn:E.
  - apply str_eqb_eq in E. subst k'. apply assoc_set_same. rewrite H. discriminate.
  - apply assoc_set_other. intros ->. rewrite str_eqb_refl in E. discriminate.
Qed.
Lemma at_path_nil p : at_path p [] = None.
Proof. destruct p as [|k [|]]; reflexivity. Qed.
(** a path through the entry [k], when that entry is [n] *)
Definition beyond (p : list str) (n : option node) : option node :=
  match p with
  | [] => n
  | _ => match n with Some (Dir _ sub) => at_path p sub | Some (Elems ts) => at_path p (last ts []) | _ => None end
  end.
Lemma at_beyond k p es : at_path (k :: p) es = beyond p (assoc k es).
Proof. destruct p; reflexivity. Qed.
Lemma put_path : forall keys d es es' p ts, put keys d es = Some es' -> at_path p es' = Some (Elems ts) -> at_path p es = Some (Elems ts).
Proof.
  induction keys as [|k keys IH]; intros d es es' p ts E H; [discriminate E|]. destruct p as [|k' p]; [discriminate H|]. rewrite at_beyond in *. destruct keys as [|k2 keys].
  - cbn [put] in E. destruct (assoc k es) eqn:EK; [discriminate E|]. injection E as <-. rewrite (assoc_snoc _ _ _ _ EK) in H. destruct (str_eqb k' k); [|exact H]. destruct p; discriminate H.
  - rewrite put_cons in E by discriminate. destruct (assoc k es) as [[x|o sub|us]|] eqn:EK; try discriminate E.
    + destruct o; try discriminate E. destruct (put (k2 :: keys) d sub) as [sub2|] eqn:E2; [|discriminate E]. injection E as <-. rewrite (assoc_reset _ _ _ _ _ EK) in H. destruct (str_eqb k' k) eqn:E'; [|exact H].
      apply str_eqb_eq in E'. subst k'. rewrite EK. destruct p as [|k3 p]; [discriminate H|]. cbn [beyond] in *. exact (IH _ _ _ _ _ E2 H).
    + destruct (put (k2 :: keys) d []) as [sub2|] eqn:E2; [|discriminate E]. injection E as <-. rewrite (assoc_snoc _ _ _ _ EK) in H. destruct (str_eqb k' k) eqn:E'; [|exact H].
      destruct p as [|k3 p]; [discriminate H|]. cbn [beyond] in H. pose proof (IH _ _ _ _ _ E2 H) as HN. rewrite at_path_nil in HN. discriminate HN.
Qed.
Lemma put_all_path : forall kvs es es' p ts, put_all kvs es = Some es' -> at_path p es' = Some (Elems ts) -> at_path p es = Some (Elems ts).
Proof.
  induction kvs as [|[keys [d|]] kvs IH]; intros es es' p ts E H; cbn [put_all] in E; [injection E as <-; exact H| |discriminate E].
  destruct (put keys d es) as [es1|] eqn:E1; [|discriminate E]. exact (put_path _ _ _ _ _ _ E1 (IH _ _ _ _ E H)).
Qed.
Lemma last_snoc {A} (l : list A) x d : last (l ++ [x]) d = x.
Proof. induction l as [|y l IH]; [reflexivity|]. cbn [app last]. destruct (l ++ [x]) eqn:E; [destruct l; discriminate E|exact IH]. Qed.
(** An array of tables that is there after a section was there before, or is the one of the section. *)
Lemma define_path body : forall a h es es' p ts, define a h body es = Some es' -> at_path p es' = Some (Elems ts) -> (a = true /\ h = p) \/ exists ts', at_path p es = Some (Elems ts').
Proof.
  intros a. induction h as [|k h IH]; intros es es' p ts E H; [discriminate E|]. destruct p as [|k' p]; [discriminate H|]. rewrite at_beyond in *.
  assert (NB : forall b q us, put_all body [] = Some b -> at_path q b = Some (Elems us) -> False) by (intros b q us Eb Hq; pose proof (put_all_path _ _ _ _ _ Eb Hq) as HN; rewrite at_path_nil in HN; discriminate HN).
  destruct h as [|k2 h].
  - cbn [define] in E. destruct a.
    + destruct (assoc k es) as [[x|o sub|us]|] eqn:EK; try discriminate E; destruct (put_all body []) as [b|] eqn:Eb; try discriminate E; injection E as <-.
      * rewrite (assoc_reset _ _ _ _ _ EK) in H. destruct (str_eqb k' k) eqn:E'; [|right; eauto]. apply str_eqb_eq in E'. subst k'. destruct p as [|k3 p]; [left; auto|]. cbn [beyond] in H. rewrite last_snoc in H. destruct (NB _ _ _ eq_refl H).
      * rewrite (assoc_snoc _ _ _ _ EK) in H. destruct (str_eqb k' k) eqn:E'; [|right; eauto]. apply str_eqb_eq in E'. subst k'. destruct p as [|k3 p]; [left; auto|]. cbn [beyond last] in H. destruct (NB _ _ _ eq_refl H).
    + right. destruct (assoc k es) as [[x|o sub|us]|] eqn:EK; try discriminate E.
      * destruct o; try discriminate E. destruct (put_all body sub) as [b|] eqn:Eb; try discriminate E. injection E as <-. rewrite (assoc_reset _ _ _ _ _ EK) in H. destruct (str_eqb k' k) eqn:E'; [|eauto]. apply str_eqb_eq in E'. subst k'. rewrite EK.
        destruct p as [|k3 p]; [discriminate H|]. cbn [beyond] in *. exists ts. exact (put_all_path _ _ _ _ _ Eb H).
      * destruct (put_all body []) as [b|] eqn:Eb; try discriminate E. injection E as <-. rewrite (assoc_snoc _ _ _ _ EK) in H. destruct (str_eqb k' k); [|eauto]. destruct p as [|k3 p]; [discriminate H|]. destruct (NB _ _ _ eq_refl H).
  - rewrite define_cons in E by discriminate. destruct (assoc k es) as [[x|o sub|us]|] eqn:EK; try discriminate E.
    + destruct (define a (k2 :: h) body sub) as [sub2|] eqn:E2; [|discriminate E]. injection E as <-. rewrite (assoc_reset _ _ _ _ _ EK) in H. destruct (str_eqb k' k) eqn:E'; [|right; eauto]. apply str_eqb_eq in E'. subst k'. rewrite EK.
      destruct p as [|k3 p]; [discriminate H|]. cbn [beyond] in *. destruct (IH _ _ _ _ E2 H) as [(-> & ->)|HX]; [left; auto|right; exact HX].
    + destruct (define a (k2 :: h) body (last us [])) as [sub2|] eqn:E2; [|discriminate E]. injection E as <-. rewrite (assoc_reset _ _ _ _ _ EK) in H. destruct (str_eqb k' k) eqn:E'; [|right; eauto]. apply str_eqb_eq in E'. subst k'. rewrite EK.
      destruct p as [|k3 p]; [right; exists us; reflexivity|]. cbn [beyond] in *. rewrite last_snoc in H. destruct (IH _ _ _ _ E2 H) as [(-> & ->)|HX]; [left; auto|right; exact HX].
    + destruct (define a (k2 :: h) body []) as [sub2|] eqn:E2; [|discriminate E]. injection E as <-. rewrite (assoc_snoc _ _ _ _ EK) in H. destruct (str_eqb k' k) eqn:E'; [|right; eauto]. apply str_eqb_eq in E'. subst k'.
      destruct p as [|k3 p]; [discriminate H|]. cbn [beyond] in *. destruct (IH _ _ _ _ E2 H) as [(-> & ->)|(ts' & HX)]; [left; auto|]. rewrite at_path_nil in HX. discriminate HX.
Qed.
Lemma read_path d : forall l es p ts, read d l = Some es -> at_path p es = Some (Elems ts) -> exists a, In a l /\ s_array a = true /\ s_header a = p.
Proof.
  unfold read. destruct (put_all (eval_body (d_body d)) []) as [es0|] eqn:E0; [|discriminate].
  assert (H0 : forall p ts, at_path p es0 <> Some (Elems ts)) by (intros p ts H; pose proof (put_all_path _ _ _ _ _ E0 H) as HN; rewrite at_path_nil in HN; discriminate HN).
  enough (HG : forall l es0 es p ts, define_all l es0 = Some es -> at_path p es = Some (Elems ts) -> (exists a, In a l /\ s_array a = true /\ s_header a = p) \/ exists ts', at_path p es0 = Some (Elems ts')).
  { intros l es p ts E H. destruct (HG l es0 es p ts E H) as [HA|(ts' & HX)]; [exact HA|]. destruct (H0 _ _ HX). }
  clear. induction l as [|s l IH]; intros es0 es p ts E H; [injection E as <-; right; eauto|]. cbn [define_all] in E. destruct (define _ _ _ es0) as [es1|] eqn:E1; [|discriminate E].
  destruct (IH _ _ _ _ E H) as [(a & Ha & HA)|(ts' & HX)]; [left; exists a; split; [right; exact Ha|exact HA]|]. destruct (define_path _ _ _ _ _ _ _ E1 HX) as [(Ea & Eh)|HY]; [left; exists s; split; [left; reflexivity|auto]|right; exact HY].
Qed.
(** If no header goes through an array of tables, every document that TOML allows is accepted and gets TOML's data. *)
Theorem C23_plain_arrays : forall d t, keyed_document d ->
  (forall a s q, In a (d_sections d) -> In s (d_sections d) -> s_array a = true -> s_header s = s_header a ++ q -> q = []) ->
  toml d = Some t -> exists v, build_document d = (v, []) /\ data_of v = t.
Proof.
  intros d t HK H HT. apply C23_valid_partial; [exact HK| |exact HT]. intros l1 s l2 es p q E Hr Eh Hp Hq.
  assert (HN : forall a, In a l1 -> s_array a = true -> s_header a = p -> False).
  { intros a Ha HA Ep. apply Hq. apply (H a s q); [rewrite E; apply in_or_app; left; exact Ha|rewrite E; apply in_or_app; right; left; reflexivity|exact HA|rewrite Ep; exact Eh]. }
  split.
  - intros (m1 & a & m2 & -> & Ha & Ep & _). exfalso. apply (HN a); [apply in_or_app; right; left; reflexivity|exact Ha|exact Ep].
  - intros [ts Hts]. exfalso. destruct (read_path d l1 es p ts Hr Hts) as (a & Ha & HA & Ep). exact (HN a Ha HA Ep).
Qed.
Print Assumptions C23_plain_arrays.
(* [[a.b]] x=1 / [[a.b]] x=2 / [a.c] / [[d]]: two keys in the name of an array *)
Example C23_plain_arrays_example :
  let d := {| d_body := []; d_sections := [sec true ["a"; "b"]%string [kv ["x"%string] (num "1")]; sec true ["a"; "b"]%string [kv ["x"%string] (num "2")]; sec false ["a"; "c"]%string []; sec true ["d"]%string []] |} in
  keyed_document d /\ (forall a s q, In a (d_sections d) -> In s (d_sections d) -> s_array a = true -> s_header s = s_header a ++ q -> q = []) /\
  toml d = Some (DTable [(lit "a", DTable [(lit "b", DArray [DTable [(lit "x", DScalar (lit "1"))]; DTable [(lit "x", DScalar (lit "2"))]]); (lit "c", DTable [])]); (lit "d", DArray [DTable []])]).
Proof.
  cbv zeta. split; [|split; [|vm_compute; reflexivity]].
  - split; [intros k v []|]. intros s Hs. cbn [In d_sections] in Hs. repeat (destruct Hs as [<- |Hs]; [split; [discriminate|intros keys v Hi; cbn in Hi; repeat (destruct Hi as [Hi|Hi]; [injection Hi as <- <-; split; [discriminate|constructor]|]); destruct Hi]|]). destruct Hs.
  - intros a s q Ha Hs HA HE. cbn [In d_sections] in Ha, Hs.
    destruct Ha as [<- |[<- |[<- |[<- |[]]]]]; try discriminate HA; destruct Hs as [<- |[<- |[<- |[<- |[]]]]]; cbn in HE; try discriminate HE; injection HE as HE; subst; reflexivity || (destruct q; [reflexivity|discriminate HE]).
Qed.
