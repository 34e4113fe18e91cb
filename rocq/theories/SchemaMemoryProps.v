(** C67: schemas kept in memory are those on disk. *)
From Coq Require Import String Ascii List NArith Bool Arith Lia.
From Verif Require Import Base TomlTextProofs CacheModel CacheProps SchemaMemoryModel.
Import ListNotations.
Open Scope N_scope.
Open Scope list_scope.

(** * Specification *)
Section Spec.
Context {doc : Type} (parse : list N -> option doc).
(** [run past m]: from an empty memory, with files changing between the calls; [past] are the states of the files, the last one first *)
Inductive run : list disk -> @memory str doc -> Prop :=
| run_start d : run [d] []
| run_change d ds m : run ds m -> run (d :: ds) m
| run_ask d ds m u : run (d :: ds) m -> run (d :: ds) (snd (ask parse d d d m u))
| run_update d ds m u : run (d :: ds) m -> run (d :: ds) (snd (update str_eqb m u (Some (file_fetched parse d u)) (file_version d u))).
(** a file that changes gets another time or another length *)
Definition dated (ds : list disk) : Prop := forall d d' u b b' t, In d ds -> In d' ds -> d u = Some (b, t) -> d' u = Some (b', t) -> length b = length b' -> b = b'.
(** the schema in a file *)
Inductive schema_in (d : disk) (u : str) : result doc -> Prop :=
| schema_there b t s : d u = Some (b, t) -> parse b = Some s -> schema_in d u (Loaded s)
| schema_broken b t : d u = Some (b, t) -> parse b = None -> schema_in d u Error
| schema_missing : d u = None -> schema_in d u Error.
End Spec.

(** * Proofs *)
Section Proofs.
Context {doc : Type} (parse : list N -> option doc).
Lemma schema_in_spec d u r : schema_in parse d u r <-> r = file_fetched parse d u.
Proof.
  unfold file_fetched. split.
  - intros [b t s E HP|b t E HP|E]; rewrite E; try rewrite HP; reflexivity.
  - intros ->. destruct (d u) as [[b t]|] eqn:E; [|apply schema_missing, E]. destruct (parse b) as [s|] eqn:EP; cbn [of_parse]; [eapply schema_there|eapply schema_broken]; eassumption.
Qed.
Lemma find_put u (e : option version * result doc) m q : find str_eqb q ((u, e) :: m) = if str_eqb q u then Some e else find str_eqb q m.
Proof. reflexivity. Qed.
Lemma remembered ds m : run parse ds m -> forall u v r, find str_eqb u m = Some (v, r) -> exists d, In d ds /\ v = file_version d u /\ r = file_fetched parse d u.
Proof.
  induction 1 as [d|d ds m HR IH|d ds m u HR IH|d ds m u HR IH]; intros q v r HF.
  - discriminate.
  - destruct (IH q v r HF) as (d' & Hi & H). exists d'. split; [right; exact Hi|exact H].
  - assert (K : find str_eqb q ((u, (file_version d u, file_fetched parse d u)) :: m) = Some (v, r) -> exists d0, In d0 (d :: ds) /\ v = file_version d0 q /\ r = file_fetched parse d0 q).
    { rewrite find_put. destruct (str_eqb q u) eqn:E; [|apply IH]. apply str_eqb_eq in E as ->. intros H. injection H as <- <-. exists d. split; [left; reflexivity|auto]. }
    unfold ask, try_get in HF. destruct (find str_eqb u m) as [[v0 r0]|]; [destruct (version_eqb v0 (file_version d u))|]; cbn [snd] in HF; first [exact (IH q v r HF)|exact (K HF)].
  - unfold update in HF. destruct (find str_eqb u m) as [[v0 r0]|]; cbn [snd] in HF; [|exact (IH q v r HF)]. rewrite find_put in HF. destruct (str_eqb q u) eqn:E; [|exact (IH q v r HF)].
    apply str_eqb_eq in E as ->. injection HF as <- <-. exists d. split; [left; reflexivity|auto].
Qed.
Lemma version_eqb_eq a b : version_eqb a b = true <-> a = b.
Proof.
  destruct a as [[t n]|], b as [[t' n']|]; cbn [version_eqb]; try (split; congruence). rewrite andb_true_iff, !N.eqb_eq. split; [intros [-> ->]; reflexivity|]. intros H. injection H as -> ->. auto.
Qed.

(** ** Every call gives the schema that is in the file at the time. *)
Theorem C67_current_partial : forall d ds m u r, run parse (d :: ds) m -> dated (d :: ds) -> (fst (ask parse d d d m u) = Some r <-> schema_in parse d u r).
Proof.
  intros d ds m u r HR HD. rewrite schema_in_spec. assert (K : fst (ask parse d d d m u) = Some (file_fetched parse d u)); [|rewrite K; split; congruence].
  unfold ask, try_get. destruct (find str_eqb u m) as [[v r0]|] eqn:EF; [|reflexivity]. destruct (version_eqb v (file_version d u)) eqn:EV; [|reflexivity]. cbn [fst].
  apply version_eqb_eq in EV. destruct (remembered _ _ HR u v r0 EF) as (d' & Hi & Hv & ->). f_equal. rewrite EV in Hv. unfold file_version in Hv. unfold file_fetched.
  destruct (d u) as [[b t]|] eqn:E1, (d' u) as [[b' t']|] eqn:E2; try discriminate; [|reflexivity]. injection Hv as <- HL. apply Nnat.Nat2N.inj in HL.
  rewrite (HD d d' u b b' t (or_introl eq_refl) Hi E1 E2 HL). reflexivity.
Qed.
(** ** Updating a schema that was asked for reads it again, even if the file has the same time and length. *)
Theorem C67_update : forall d m u m', update str_eqb m u (Some (file_fetched parse d u)) (file_version d u) = (true, m') -> forall r, fst (ask parse d d d m' u) = Some r <-> schema_in parse d u r.
Proof.
  intros d m u m' HU r. rewrite schema_in_spec. unfold update in HU. destruct (find str_eqb u m); [|discriminate]. injection HU as <-. unfold ask, try_get.
  rewrite find_put, (proj2 (str_eqb_eq u u) eq_refl), (proj2 (version_eqb_eq _ _) eq_refl). cbn [fst]. split; congruence.
Qed.
(** ** A schema that was asked for is not loaded again as long as the time and the length of its file stay: the answer is the same whatever loading
    it would give. *)
Theorem C67_once : forall d m u r m', ask parse d d d m u = (Some r, m') -> forall d', file_version d' u = file_version d u ->
  forall fetched stored, try_get str_eqb m' u (file_version d' u) fetched stored = (Some r, m').
Proof.
  intros d m u r m' H d' HV fetched stored. rewrite HV. unfold ask, try_get in H. destruct (find str_eqb u m) as [[v r0]|] eqn:EF; [destruct (version_eqb v (file_version d u)) eqn:EV|]; injection H as <- <-; unfold try_get;
  rewrite ?EF, ?EV, ?find_put, ?(proj2 (str_eqb_eq u u) eq_refl), ?(proj2 (version_eqb_eq _ _) eq_refl); reflexivity.
Qed.
End Proofs.
Print Assumptions C67_current_partial. Print Assumptions C67_once. Print Assumptions C67_update.

(** * Examples *)
Definition disk_ex (b : list N) (t : N) : disk := fun u => if str_eqb u (lit "s.json") then Some (b, t) else None.
Example C67_example : let d := disk_ex (lit "{1}") 7 in let d0 := disk_ex (lit "{}") 5 in let m := snd (ask parse_ex d0 d0 d0 [] (lit "s.json")) in
  run parse_ex [d; d0] m /\ dated [d; d0] /\ m <> [] /\ schema_in parse_ex d (lit "s.json") (Loaded (lit "{1}")) /\ fst (ask parse_ex d d d m (lit "s.json")) = Some (Loaded (lit "{1}")).
Proof.
  cbv zeta. split; [apply run_change; apply run_ask; apply run_start|]. split; [|split; [discriminate|split; [apply schema_in_spec; vm_compute; reflexivity|vm_compute; reflexivity]]].
  intros d d' u b b' t Hd Hd' E E' HL.
  destruct Hd as [<- |[<- |[]]], Hd' as [<- |[<- |[]]]; unfold disk_ex in E, E'; destruct (str_eqb u (lit "s.json")); try discriminate; injection E as <- Ht; injection E' as <- Ht'; congruence.
Qed.

(** * What the code does otherwise
    A file that is replaced while it is loaded is remembered with its old contents and its new version: the new schema is never seen. *)
Theorem C67_race_refuted : let old := disk_ex (lit "{}") 5 in let new := disk_ex (lit "{1}") 7 in
  let m := snd (ask parse_ex old old new [] (lit "s.json")) in
  schema_in parse_ex new (lit "s.json") (Loaded (lit "{1}")) /\ ask parse_ex new new new m (lit "s.json") = (Some (Loaded (lit "{}")), m).
Proof. cbv zeta. split; [apply schema_in_spec; vm_compute; reflexivity|vm_compute; reflexivity]. Qed.
Print Assumptions C67_race_refuted.
(** A schema whose server could not be reached once stays an error, even when the server answers again. *)
Definition url_eqb (u u' : url) : bool := if url_dec u u' then true else false.
Definition http_ask (m : @memory url (list N)) (u : url) (c : call) (f : files) : option (result (list N)) * @memory url (list N) :=
  try_get url_eqb m u (http_version f u) (http_fetched parse_ex None u c f) (http_version f u).
Theorem C67_error_refuted : let u := address None None in let m := snd (http_ask [] u (call_ex 5 false None) (after [])) in
  forall now, fst (fetch parse_ex None u (call_ex now false (Some (lit "{}"))) (after []) (after [])) = Value (lit "{}") /\
    http_ask m u (call_ex now false (Some (lit "{}"))) (after []) = (Some Error, m).
Proof. intros u m now. split; reflexivity. Qed.
Print Assumptions C67_error_refuted.
(** A schema from a server that is in memory is never fetched again, however old it is. *)
Theorem C67_age_refuted : let u := address None None in let f := after [Saved u (lit "{}") Whole 5] in let m := snd (http_ask [] u (call_ex 6 false None) f) in
  forall now, 200 <= now -> fst (fetch parse_ex None u (call_ex now false (Some (lit "{1}"))) f f) = Value (lit "{1}") /\
    http_ask m u (call_ex now false (Some (lit "{1}"))) f = (Some (Loaded (lit "{}")), m).
Proof.
  intros u f m now HN. split; [|reflexivity]. 
  assert (E : (100 <? now - 5) = true) by (apply N.ltb_lt; lia).
  assert (K : read_from_cache None f (cache_path u) (Some (Options None (Some 100))) now = None).
  { unfold read_from_cache. replace (f (cache_path u)) with (Some (File (lit "{}") 5)) by (vm_compute; reflexivity). cbn [no_cache cache_ttl or_false]. rewrite E. reflexivity. }
  unfold fetch, load. unfold call_ex at 1 2. cbn [c_options c_now]. rewrite K. vm_compute. reflexivity.
Qed.
Print Assumptions C67_age_refuted.
