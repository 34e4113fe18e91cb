(** * The document tree and what TOML says (C23) *)
From Coq Require Import String Ascii List NArith Bool Arith Permutation.
From Verif Require Import Base DocTreeModel DocTreeSpec DocTreeProofs.
Import ListNotations.
Open Scope N_scope.
Open Scope list_scope.

Section names.
Definition sec (array : bool) (header : list string) (body : list (list str * syn_value)) : section :=
  {| s_array := array; s_header := map lit header; s_body := body |}.
Definition kv (keys : list string) (v : syn_value) : list str * syn_value := (map lit keys, v).
Definition num (s : string) : syn_value := SynScalar (lit s).
End names.

(** ** Values and key/values: exact *)
(** An array or inline table is accepted exactly if TOML allows it, and then has TOML's data. *)
Theorem C23_values : forall v, keyed_value v ->
  match eval v with
  | Some d => exists w, build_value v = (w, []) /\ data_of w = d
  | None => snd (build_value v) <> []
  end.
Proof.
  intros v HK. pose proof (value_built v HK) as H. unfold built in H. destruct (eval v) as [d|]; [|exact H].
  destruct H as (w & E & HR). exists w. split; [exact E|]. exact (rel_data _ _ HR).
Qed.
Print Assumptions C23_values.

(** the same for a document that has no headers *)
Theorem C23_key_values : forall body, keyed_body body ->
  match toml {| d_body := body; d_sections := [] |} with
  | Some t => exists v, build_document {| d_body := body; d_sections := [] |} = (v, []) /\ data_of v = t
  | None => snd (build_document {| d_body := body; d_sections := [] |}) <> []
  end.
Proof.
  intros body HK. apply document_merge.
  - split; [exact HK|]. intros s [].
  - intros l1 s l2 es E. destruct l1; discriminate.
  - intros l1 s l2 es E. destruct l1; discriminate.
Qed.
Print Assumptions C23_key_values.
(* a = {x.y = 1, x.z = [2, 3]}, b.c = 4, b.d = {} *)
Example C23_key_values_example :
  let body := [kv ["a"%string] (SynInline [kv ["x"; "y"]%string (num "1"); kv ["x"; "z"]%string (SynArray [num "2"; num "3"])]);
               kv ["b"; "c"]%string (num "4"); kv ["b"; "d"]%string (SynInline [])] in
  toml {| d_body := body; d_sections := [] |} =
    Some (DTable [(lit "a", DTable [(lit "x", DTable [(lit "y", DScalar (lit "1")); (lit "z", DArray [DScalar (lit "2"); DScalar (lit "3")])])]);
                  (lit "b", DTable [(lit "c", DScalar (lit "4")); (lit "d", DTable [])])]).
Proof. vm_compute. reflexivity. Qed.

(** ** Headers *)
(** Every header is told about exactly the arrays of tables that its name goes through. *)
Definition arrays_known (d : document) : Prop :=
  forall l1 s l2 es p q, d_sections d = l1 ++ s :: l2 -> read d l1 = Some es -> s_header s = p ++ q -> p <> [] -> q <> [] ->
  announced l1 s p <-> exists ts, at_path p es = Some (Elems ts).
(** No table [[h]] that comes after its own subtables has a key that starts with the name of such a subtable. *)
Definition names_free (d : document) : Prop :=
  forall l1 s l2 es sub k r v o t, d_sections d = l1 ++ s :: l2 -> read d l1 = Some es -> s_array s = false ->
  at_path (s_header s) es = Some (Dir Implicit sub) -> In (k :: r, v) (s_body s) -> assoc k sub <> Some (Dir o t).

Lemma known_placed d : arrays_known d -> forall l1 s l2 es, d_sections d = l1 ++ s :: l2 -> read d l1 = Some es -> placed (rev l1) s es.
Proof.
  intros H l1 s l2 es E Hr p q Eh Hp Hq. cbn [app]. specialize (H l1 s l2 es p q E Hr Eh Hp Hq). pose proof (announced_spec l1 s p q Eh Hp) as HA.
  destruct (is_array_key (array_keys (rev l1) (s_header s)) p).
  - destruct (proj1 H (proj1 HA eq_refl)) as [ts Ht]. rewrite Ht. reflexivity.
  - destruct (at_path p es) as [[x|o sub|ts]|]; try reflexivity. exfalso. assert (Hf : false = true); [|discriminate]. apply HA, H. eauto.
Qed.

(** A document that TOML allows is accepted, and its tree has TOML's data (partial: for documents whose headers are told about the
    arrays they go through; see the two refutations below for the others). *)
Theorem C23_valid_partial : forall d t, keyed_document d -> arrays_known d -> toml d = Some t ->
  exists v, build_document d = (v, []) /\ data_of v = t.
Proof.
  intros d t HK HA HT. pose proof (document_merge d HK (known_placed d HA) (read_fresh d t HT)) as H. rewrite HT in H. exact H.
Qed.
Print Assumptions C23_valid_partial.

(** A document that TOML forbids gets an error (partial: as above, and for documents in which no table reaches into the tables
    that headers made below it before; see the last two refutations). *)
Theorem C23_invalid_partial : forall d, keyed_document d -> arrays_known d -> names_free d -> toml d = None -> snd (build_document d) <> [].
Proof.
  intros d HK HA HF HT. pose proof (document_merge d HK (known_placed d HA)) as H. rewrite HT in H. apply H.
  intros l1 s l2 es E Hr Harr sub Hat k r Hin o t. apply in_map_iff in Hin as ((keys & v) & Ek & Hin). cbn [fst] in Ek. subst keys.
  exact (HF l1 s l2 es sub k r v o t E Hr Harr Hat Hin).
Qed.
Print Assumptions C23_invalid_partial.

(** Without arrays of tables, every document that TOML allows is accepted and gets TOML's data. *)
Theorem C23_tables : forall d t, keyed_document d -> (forall s, In s (d_sections d) -> s_array s = false) -> toml d = Some t ->
  exists v, build_document d = (v, []) /\ data_of v = t.
Proof.
  intros d t HK HS HT. apply C23_valid_partial; [exact HK| |exact HT]. intros l1 s l2 es p q E Hr Eh Hp Hq.
  assert (HS1 : forall s', In s' l1 -> s_array s' = false) by (intros s' Hs; apply HS; rewrite E; apply in_or_app; left; exact Hs). split.
  - intros (m1 & a & m2 & -> & Ha & _). rewrite HS1 in Ha; [discriminate|]. apply in_or_app. right. left. reflexivity.
  - intros [ts Hts]. exfalso. exact (flat_path p es ts (read_flat d l1 es HS1 Hr) Hts).
Qed.
Print Assumptions C23_tables.

(** With arrays of tables: every document that TOML allows is accepted and gets TOML's data, if the names of its arrays of tables have
    one key, and the subtables [a.x] of an array [[a]] come before the headers of other arrays. *)
Theorem C23_grouped_arrays : forall d t, keyed_document d ->
  (forall s, In s (d_sections d) -> s_array s = true -> length (s_header s) = 1%nat) ->
  (forall l1 a l2 b l3 s l4 k r, d_sections d = l1 ++ a :: l2 ++ b :: l3 ++ s :: l4 ->
     s_array a = true -> s_header a = [k] -> s_array b = true -> s_header s = k :: r -> r <> [] -> s_header b = [k]) ->
  toml d = Some t ->
  exists v, build_document d = (v, []) /\ data_of v = t.
Proof.
  intros d t HK H1 H2 HT. apply C23_valid_partial; [exact HK| |exact HT]. intros l1 s l2 es p q E Hr Eh Hp Hq.
  assert (HS1 : forall s', In s' l1 -> s_array s' = true -> length (s_header s') = 1%nat) by (intros s' Hs; apply H1; rewrite E; apply in_or_app; left; exact Hs).
  pose proof (read_tops d l1 es HS1 Hr) as HT1. split.
  - intros (m1 & a & m2 & -> & Ha & Ep & _). assert (Hin : In a (m1 ++ a :: m2)) by (apply in_or_app; right; left; reflexivity).
    pose proof (HS1 a Hin Ha) as Hlen. rewrite Ep in Hlen. destruct p as [|k [|k2 p]]; try discriminate. destruct HT1 as [_ HE]. cbn [at_path]. apply (HE a k Hin Ha Ep).
  - intros [ts Hts]. destruct (tops_path _ _ HT1 p ts Hts) as [k ->]. cbn [at_path] in Hts. destruct HT1 as [HT1 _].
    destruct (tops_assoc _ _ _ _ HT1 Hts) as [Hf|[_ (a & Hin & Ha & Ep)]]; [inversion Hf|]. apply in_split in Hin as (m1 & m2 & ->). exists m1, a, m2.
    split; [reflexivity|]. split; [exact Ha|]. split; [exact Ep|]. intros b Hb Hab. apply in_split in Hb as (n1 & n2 & ->).
    rewrite (H2 m1 a n1 b n2 s l2 k q); [rewrite Eh; reflexivity| |exact Ha|exact Ep|exact Hab|exact Eh|exact Hq]. rewrite E. rewrite <- !app_assoc. cbn [app]. rewrite <- !app_assoc. reflexivity.
Qed.
Print Assumptions C23_grouped_arrays.

(* [[a]] x=1 / [a.b] y=2 / [[a]] / [[a.c]] z=3 / [d.e] / [d] x=4 *)
Definition sample : document := {| d_body := [kv ["top"%string] (num "0")];
  d_sections := [sec true ["a"]%string [kv ["x"%string] (num "1")]; sec false ["a"; "b"]%string [kv ["y"%string] (num "2")]; sec true ["a"]%string [];
                 sec true ["a"; "c"]%string [kv ["z"%string] (num "3")]; sec false ["d"; "e"]%string []; sec false ["d"]%string [kv ["x"%string] (num "4")]] |}.
Example C23_sample_means : toml sample = Some (DTable
  [(lit "top", DScalar (lit "0"));
   (lit "a", DArray [DTable [(lit "x", DScalar (lit "1")); (lit "b", DTable [(lit "y", DScalar (lit "2"))])];
                     DTable [(lit "c", DArray [DTable [(lit "z", DScalar (lit "3"))]])]]);
   (lit "d", DTable [(lit "e", DTable []); (lit "x", DScalar (lit "4"))])]).
Proof. vm_compute. reflexivity. Qed.

(* [a] / [a] is forbidden and meets the conditions of C23_invalid_partial *)
Definition twice : document := {| d_body := []; d_sections := [sec false ["a"; "b"]%string []; sec false ["a"; "b"]%string []] |}.

(** a check of [arrays_known] for given documents *)
Definition known_at (d : document) (i j : nat) : bool :=
  match nth_error (d_sections d) i, read d (firstn i (d_sections d)) with
  | Some s, Some es =>
      let p := firstn j (s_header s) in
      Bool.eqb (is_array_key (array_keys (rev (firstn i (d_sections d))) (s_header s)) p) (match at_path p es with Some (Elems _) => true | _ => false end)
  | _, _ => true
  end.
Lemma known_check d m : (forall s, In s (d_sections d) -> (length (s_header s) <= m)%nat) ->
  forallb (fun i => forallb (fun j => known_at d i (S j)) (seq 0 m)) (seq 0 (length (d_sections d))) = true -> arrays_known d.
Proof.
  intros Hm HB l1 s l2 es p q E Hr Eh Hp Hq. assert (Hs : (length (s_header s) <= m)%nat) by (apply Hm; rewrite E; apply in_or_app; right; left; reflexivity).
  rewrite forallb_forall in HB. specialize (HB (length l1)). rewrite in_seq, E, app_length in HB. cbn [length] in HB.
  assert (Hi : (length l1 < 0 + (length l1 + S (length l2)))%nat) by (cbn [plus]; rewrite Nat.add_succ_r; apply Nat.lt_succ_r, Nat.le_add_r).
  specialize (HB (conj (Nat.le_0_l _) Hi)).
  rewrite forallb_forall in HB. destruct p as [|k p]; [contradiction|]. specialize (HB (length p)). rewrite in_seq in HB.
  assert (Hl : (length p < m)%nat) by (eapply Nat.lt_le_trans; [|exact Hs]; rewrite Eh; cbn [app length]; rewrite app_length; apply Nat.lt_succ_r, Nat.le_add_r).
  specialize (HB (conj (Nat.le_0_l _) Hl)). unfold known_at in HB. rewrite E in HB.
  rewrite nth_error_app2, Nat.sub_diag in HB by apply Nat.le_refl. cbn [nth_error] in HB.
  rewrite firstn_app, Nat.sub_diag, firstn_all, firstn_O, app_nil_r, Hr in HB.
  replace (firstn (S (length p)) (s_header s)) with (k :: p) in HB
    by (rewrite Eh; cbn [firstn app]; rewrite firstn_app, Nat.sub_diag, firstn_all; cbn [firstn]; rewrite app_nil_r; reflexivity).
  apply eqb_prop in HB. rewrite <- (announced_spec l1 s (k :: p) q Eh Hp), HB.
  destruct (at_path (k :: p) es) as [[x|o sub|ts]|]; split; intros H; try discriminate; try (destruct H; discriminate); eauto.
Qed.
Example C23_sample_known : arrays_known sample.
Proof.
  apply (known_check sample 2); [|vm_compute; reflexivity]. intros s Hs. repeat (destruct Hs as [<-|Hs]; [cbn; repeat constructor|]). destruct Hs.
Qed.
Example C23_twice : keyed_document twice /\ arrays_known twice /\ names_free twice /\ toml twice = None.
Proof.
  split; [split; [intros keys v []|]; intros s Hs; repeat (destruct Hs as [<-|Hs]; [split; [discriminate|intros keys v []]|]); destruct Hs|]. split; [|split].
  - apply (known_check twice 2); [|vm_compute; reflexivity]. intros s Hs. repeat (destruct Hs as [<-|Hs]; [cbn; repeat constructor|]). destruct Hs.
  - intros l1 s l2 es sub k r v o t E _ _ _ Hin. exfalso. assert (Hs : In s (d_sections twice)) by (rewrite E; apply in_or_app; right; left; reflexivity).
    repeat (destruct Hs as [<-|Hs]; [destruct Hin|]). destruct Hs.
  - vm_compute. reflexivity.
Qed.

(** ** Nothing is lost *)
(** Whatever the document: if no error is reported, every scalar of the document is in the tree, as often as it was written. *)
Theorem C23_nothing_lost : forall d v, keyed_document d -> build_document d = (v, []) -> Permutation (scalars v) (doc_scalars d).
Proof. intros d v HK E. destruct (document_held d HK) as (_ & _ & H). rewrite E in H. exact (H eq_refl). Qed.
Print Assumptions C23_nothing_lost.
(** and building the tree never panics *)
Theorem C23_no_panic : forall d, keyed_document d -> ~ In Unreachable (snd (build_document d)).
Proof. intros d HK. apply (document_held d HK). Qed.
Print Assumptions C23_no_panic.
Example C23_nothing_lost_example : keyed_document sample /\ exists v, build_document sample = (v, []).
Proof.
  split; [|eexists; vm_compute; reflexivity]. split.
  - intros keys v [H|[]]. inversion H; subst. split; [discriminate|constructor].
  - intros s Hs. repeat (destruct Hs as [<-|Hs]; [split; [discriminate|]; intros keys v Hin; repeat (destruct Hin as [H|Hin]; [inversion H; subst; split; [discriminate|constructor]|]); destruct Hin|]). destruct Hs.
Qed.

(** ** Where tombi departs from TOML *)
(** [[a]] / [[b]] / [a.c] is allowed, but an error is reported: the header is no longer told about [[a]] once [[b]] came up. *)
Theorem C23_valid_rejected_refuted : exists d t, keyed_document d /\ toml d = Some t /\ snd (build_document d) = [DuplicateKey (lit "a")].
Proof.
  exists {| d_body := []; d_sections := [sec true ["a"]%string []; sec true ["b"]%string []; sec false ["a"; "c"]%string []] |}. eexists.
  split; [|split; vm_compute; reflexivity]. split; [intros keys v []|]. intros s Hs. repeat (destruct Hs as [<-|Hs]; [split; [discriminate|intros keys v []]|]). destruct Hs.
Qed.
(** [[a]] / [[a.b]] / [[a]] / [a.b.c]: allowed and accepted, but [b] in the second element is an array of tables instead of a table. *)
Theorem C23_wrong_data_refuted : exists d t v, keyed_document d /\ toml d = Some t /\ build_document d = (v, []) /\ data_of v <> t.
Proof.
  exists {| d_body := []; d_sections := [sec true ["a"]%string []; sec true ["a"; "b"]%string []; sec true ["a"]%string []; sec false ["a"; "b"; "c"]%string []] |}. eexists _, _.
  split; [|split; [vm_compute; reflexivity|split; [vm_compute; reflexivity|vm_compute; discriminate]]].
  split; [intros keys v []|]. intros s Hs. repeat (destruct Hs as [<-|Hs]; [split; [discriminate|intros keys v []]|]). destruct Hs.
Qed.
(** [a.b] / [a] b.c = 1: forbidden (dotted keys cannot reopen a table that a header defined), but accepted. *)
Definition dotted_reopens : document := {| d_body := []; d_sections := [sec false ["a"; "b"]%string []; sec false ["a"]%string [kv ["b"; "c"]%string (num "1")]] |}.
Theorem C23_dotted_accepted_refuted : keyed_document dotted_reopens /\ toml dotted_reopens = None /\ snd (build_document dotted_reopens) = [].
Proof.
  split; [|split; vm_compute; reflexivity]. split; [intros keys v []|].
  intros s Hs. repeat (destruct Hs as [<-|Hs]; [split; [discriminate|]; intros keys v Hin; repeat (destruct Hin as [H|Hin]; [inversion H; subst; split; [discriminate|constructor]|]); destruct Hin|]). destruct Hs.
Qed.
(** [a.b.c] / [a] b = {}: forbidden (the key is taken), but accepted. *)
Definition inline_reopens : document := {| d_body := []; d_sections := [sec false ["a"; "b"; "c"]%string []; sec false ["a"]%string [kv ["b"%string] (SynInline [])]] |}.
Theorem C23_inline_accepted_refuted : keyed_document inline_reopens /\ toml inline_reopens = None /\ snd (build_document inline_reopens) = [].
Proof.
  split; [|split; vm_compute; reflexivity]. split; [intros keys v []|].
  intros s Hs. repeat (destruct Hs as [<-|Hs]; [split; [discriminate|]; intros keys v Hin; repeat (destruct Hin as [H|Hin]; [inversion H; subst; split; [discriminate|constructor; intros ? ? []]|]); destruct Hin|]). destruct Hs.
Qed.
Print Assumptions C23_valid_rejected_refuted.
Print Assumptions C23_wrong_data_refuted.
Print Assumptions C23_dotted_accepted_refuted.
Print Assumptions C23_inline_accepted_refuted.
