(** What the schema validator decides: [oneOf]/[anyOf]/[allOf]/[not]/[if] (C25), numeric, length and count
    keywords (C26), the array keywords (C40) and the table keywords (C41), against JSON Schema. *)
From Coq Require Import String Ascii List NArith ZArith Bool Arith Lia ZifyBool.
From Verif Require Import Base ValidatorModel ValidatorProofs.
Import ListNotations.
Open Scope N_scope.
Open Scope list_scope.

(** ** Specification *)

(** A result accepts the instance when no assertion failed; it may still carry warnings. *)
Definition validates (r : result) : Prop :=
  match r with Ok _ => True | Err e => assertion_failed e = false end.

(** The verdict of a subschema.  One that could not be loaded gives no verdict. *)
Definition accepts {T} (i : item T) (p : path) (x : T) : Prop :=
  match i with Resolved run => validates (run p x) | _ => False end.
Definition rejects {T} (i : item T) (p : path) (x : T) : Prop :=
  match i with Resolved run => ~ validates (run p x) | _ => False end.

(** A member of [oneOf]/[anyOf] accepts.  The [null] schema accepts no TOML value. *)
Definition member_accepts {T} (p : path) (x : T) (s : sub T) : Prop :=
  skipped s = false /\ validates (run_sub s p x).

(** JSON Schema 2020-12, 10.2.1 and 10.2.2. *)
Definition exactly_one {X} (P : X -> Prop) (l : list X) : Prop :=
  exists before x after, l = before ++ x :: after /\ P x /\ forall y, In y (before ++ after) -> ~ P y.
Definition not_holds {T} (n : option (item T)) (p : path) (x : T) : Prop :=
  forall i, n = Some i -> ~ accepts i p x.
Definition if_holds {T} (c : option (ite T)) (p : path) (x : T) : Prop :=
  forall s, c = Some s ->
    (accepts (if_schema s) p x -> forall i, then_schema s = Some i -> ~ rejects i p x)
    /\ (rejects (if_schema s) p x -> forall i, else_schema s = Some i -> ~ rejects i p x).

(** ** Small facts *)

Lemma validates_failed : forall r, validates r <-> failed r = false.
Proof. intros [v|e]; cbn; tauto. Qed.
Lemma not_validates : forall r, ~ validates r <-> failed r = true.
Proof. intros [v|e]; cbn; [intuition discriminate|]. destruct (assertion_failed e); intuition congruence. Qed.

Lemma item_matches_accepts : forall T (i : item T) p x, item_matches i p x = true <-> accepts i p x.
Proof.
  intros T [run| |] p x; cbn; [|intuition discriminate|intuition discriminate].
  rewrite validates_failed. destruct (failed (run p x)); cbn; intuition congruence.
Qed.

Lemma item_fails_rejects : forall T (i : option (item T)) p x,
  item_fails i p x = false <-> (forall j, i = Some j -> ~ rejects j p x).
Proof.
  intros T i p x. destruct i as [[run| |]|]; cbn.
  - split.
    + intros H j [= <-]. cbn. rewrite not_validates. congruence.
    + intros H. specialize (H _ eq_refl). cbn in H. rewrite not_validates in H. destruct (failed (run p x)); tauto.
  - split; [|reflexivity]. intros _ j [= <-]. cbn. auto.
  - split; [|reflexivity]. intros _ j [= <-]. cbn. auto.
  - split; [|reflexivity]. intros _ j H. discriminate.
Qed.

Lemma ite_fails_spec : forall T (s : ite T) p x, ite_fails s p x = false <-> if_holds (Some s) p x.
Proof.
  intros T s p x. unfold ite_fails, if_holds.
  assert (K : forall Q : ite T -> Prop, (forall s0, Some s = Some s0 -> Q s0) <-> Q s).
  { intros Q. split; [intros H; apply H; reflexivity|]. intros H s0 [= <-]. exact H. }
  rewrite K. destruct (if_schema s) as [run| |]; cbn [accepts rejects].
  - rewrite not_validates, validates_failed. destruct (failed (run p x)).
    + rewrite item_fails_rejects. split; [intros H; split; [discriminate|auto]|intros [_ H]; apply H; reflexivity].
    + rewrite item_fails_rejects. split; [intros H; split; [auto|discriminate]|intros [H _]; apply H; reflexivity].
  - split; [intros _; split; contradiction|reflexivity].
  - split; [intros _; split; contradiction|reflexivity].
Qed.

Lemma adjacent_fails_spec : forall T (c : composite T) p x,
  adjacent_fails c p x = false <-> not_holds (c_not c) p x /\ if_holds (c_ite c) p x.
Proof.
  intros T c p x. unfold adjacent_fails. rewrite orb_false_iff.
  assert (A : match c_not c with Some n => item_matches n p x | None => false end = false <-> not_holds (c_not c) p x).
  { unfold not_holds. destruct (c_not c) as [n|].
    - split.
      + intros H i [= <-] Q. apply item_matches_accepts in Q. congruence.
      + intros H. destruct (item_matches n p x) eqn:E; [|reflexivity].
        apply item_matches_accepts in E. exfalso. exact (H _ eq_refl E).
    - split; [discriminate|reflexivity]. }
  rewrite A. destruct (c_ite c) as [s|]; [rewrite ite_fails_spec; reflexivity|].
  split; [|tauto]. intros [H _]. split; [exact H|]. intros s Q. discriminate.
Qed.

Lemma member_accepts_bool : forall T p (x : T) s, sub_matches p x s = true <-> member_accepts p x s.
Proof.
  intros T p x s. unfold sub_matches, member_accepts. rewrite andb_true_iff, !negb_true_iff, validates_failed. tauto.
Qed.

Lemma filter_one : forall X (f : X -> bool) l,
  length (filter f l) = 1%nat <-> exactly_one (fun x => f x = true) l.
Proof.
  intros X f. induction l as [|x l IH]; cbn [filter].
  - split; [discriminate|]. intros (b & x & a & H & _). destruct b; discriminate.
  - destruct (f x) eqn:E.
    + cbn [length]. split.
      * intros H. exists [], x, l. split; [reflexivity|]. split; [exact E|].
        intros y Hy Hf. assert (K : In y (filter f l)) by (apply filter_In; auto).
        destruct (filter f l); [contradiction|discriminate].
      * intros (b & y & a & H & Hy & Hn). destruct b as [|z b]; cbn in H; injection H as -> ->.
        -- f_equal. destruct (filter f a) eqn:F; [reflexivity|]. exfalso.
           assert (K : In x (filter f a)) by (rewrite F; left; reflexivity). apply filter_In in K.
           apply (Hn x); tauto.
        -- exfalso. apply (Hn z); [left; reflexivity|exact E].
    + rewrite IH. split; intros (b & y & a & H & Hy & Hn).
      * exists (x :: b), y, a. subst l. split; [reflexivity|]. split; [exact Hy|].
        intros z [<-|Hz]; [congruence|apply Hn; exact Hz].
      * destruct b as [|z b]; cbn in H; injection H as -> ->; [congruence|].
        exists b, y, a. split; [reflexivity|]. split; [exact Hy|]. intros w Hw. apply Hn. right. exact Hw.
Qed.

Lemma exactly_one_iff : forall X (P Q : X -> Prop) l, (forall x, P x <-> Q x) -> exactly_one P l <-> exactly_one Q l.
Proof.
  intros X P Q l H. unfold exactly_one. split; intros (b & x & a & E & Hx & Hn); exists b, x, a;
    (split; [exact E|]); (split; [apply H; exact Hx|]); intros y Hy K; apply (Hn y Hy), H, K.
Qed.

(** ** C25 *)

Theorem C25_not : forall T R (i : item T) p x,
  validates (validate_not R i p x) <-> ~ accepts i p x.
Proof.
  intros T R i p x. rewrite validates_failed, failed_not, <- item_matches_accepts.
  destruct (item_matches i p x); intuition congruence.
Qed.
Print Assumptions C25_not.

Theorem C25_if_then_else : forall T R (s : ite T) p x,
  validates (validate_if_then_else R s p x) <-> if_holds (Some s) p x.
Proof. intros T R s p x. rewrite validates_failed, failed_ite. apply ite_fails_spec. Qed.
Print Assumptions C25_if_then_else.

Theorem C25_all_of : forall T R (c : composite T) p x subs errors,
  c_schemas c = Some (subs, errors) ->
  validates (validate_all_of R c p x)
  <-> (forall s, In s subs -> validates (run_sub s p x)) /\ not_holds (c_not c) p x /\ if_holds (c_ite c) p x.
Proof.
  intros T R c p x subs errors HC. rewrite validates_failed, (all_of_failed T R c p x subs errors HC).
  rewrite orb_false_iff, adjacent_fails_spec.
  assert (K : existsb (fun s => failed (run_sub s p x)) subs = false <-> (forall s, In s subs -> validates (run_sub s p x))).
  { split.
    - intros H s Hs. apply validates_failed. destruct (failed (run_sub s p x)) eqn:E; [|reflexivity].
      rewrite <- H. symmetry. apply existsb_exists. eauto.
    - intros H. destruct (existsb _ subs) eqn:E; [|reflexivity]. apply existsb_exists in E. destruct E as (s & Hs & E).
      apply H in Hs. apply validates_failed in Hs. congruence. }
  rewrite K. tauto.
Qed.
Print Assumptions C25_all_of.

(** Missing from the full statement: members that are all [null] (see [C25_any_of_refuted]). *)
Theorem C25_any_of_partial : forall T R (c : composite T) p x subs errors,
  c_schemas c = Some (subs, errors) ->
  (exists s, In s subs /\ skipped s = false) ->
  validates (validate_any_of R c p x)
  <-> (exists s, In s subs /\ member_accepts p x s) /\ not_holds (c_not c) p x /\ if_holds (c_ite c) p x.
Proof.
  intros T R c p x subs errors HC HS. rewrite validates_failed, (any_of_failed T R c p x subs errors HC HS).
  rewrite orb_false_iff, adjacent_fails_spec, negb_false_iff.
  assert (K : existsb (sub_matches p x) subs = true <-> exists s, In s subs /\ member_accepts p x s).
  { rewrite existsb_exists. split; intros (s & Hs & H); exists s; (split; [exact Hs|]); apply member_accepts_bool; exact H. }
  rewrite K. tauto.
Qed.
Print Assumptions C25_any_of_partial.

(** Missing from the full statement: members that are all [null], and an adjacent [not] or [if] that fails
    while the only accepting member has warnings (see [C25_one_of_refuted]). *)
Theorem C25_one_of_partial : forall T R (c : composite T) p x subs,
  c_schemas c = Some (subs, 0%nat) ->
  (subs <> [] -> exists s, In s subs /\ skipped s = false) ->
  (not_holds (c_not c) p x /\ if_holds (c_ite c) p x
   \/ forall s e, In s subs -> run_sub s p x = Err e -> assertion_failed e = true) ->
  exists r, validate_one_of R c p x = Some r
  /\ (validates r
      <-> exactly_one (member_accepts p x) subs /\ not_holds (c_not c) p x /\ if_holds (c_ite c) p x).
Proof.
  intros T R c p x subs HC HS HW. destruct (one_of_never_panics T R c p x) as [r Hr]. exists r. split; [exact Hr|].
  rewrite validates_failed.
  assert (HW' : adjacent_fails c p x = false \/ (forall s, In s subs -> skipped s = false -> warned (run_sub s p x) = false)).
  { destruct HW as [HW|HW]; [left; apply adjacent_fails_spec; exact HW|right].
    intros s Hs _. destruct (run_sub s p x) as [v|e] eqn:E; [reflexivity|]. cbn. rewrite (HW s e Hs E). reflexivity. }
  rewrite (one_of_failed T R c p x subs 0 r HC (fun _ => eq_refl) HS HW' Hr).
  rewrite orb_false_iff, adjacent_fails_spec, negb_false_iff, Nat.eqb_eq, filter_one.
  rewrite (exactly_one_iff _ _ _ _ (member_accepts_bool T p x)). tauto.
Qed.
Print Assumptions C25_one_of_partial.

(** The [unreachable!] at the end of [oneOf] is never reached, whatever the members return. *)
Theorem C25_one_of_never_panics : forall T R (c : composite T) p x, validate_one_of R c p x <> None.
Proof. intros T R c p x H. destruct (one_of_never_panics T R c p x) as [r E]. congruence. Qed.
Print Assumptions C25_one_of_never_panics.

(** ** The default rules, used in the examples *)
Definition default_rules : rules := mkRules (fun c => match c with Deprecated => Warn | _ => Error end) (fun _ => false) true.
Definition yes {T} : path -> T -> result := fun _ _ => Ok no_locations.
Definition no {T} : path -> T -> result := fun _ _ => Err (mkInvalid true no_evidence [mkDiag true Const] no_locations).
Definition warn {T} : path -> T -> result := fun _ _ => Err (mkInvalid false no_evidence [mkDiag false Deprecated] no_locations).

(** [{"anyOf": [{"type": "null"}]}] accepts every value. *)
Theorem C25_any_of_refuted :
  exists (c : composite unit) subs, c_schemas c = Some (subs, 0%nat) /\ subs <> []
    /\ (forall s, In s subs -> ~ member_accepts [] tt s)
    /\ validates (validate_any_of default_rules c [] tt).
Proof.
  exists (mkComposite (Some ([mkSub true no], 0%nat)) None None false), [mkSub true no].
  split; [reflexivity|]. split; [discriminate|]. split; [|vm_compute; auto].
  intros s [<-|[]] [H _]. discriminate.
Qed.
Print Assumptions C25_any_of_refuted.

(** [{"oneOf": [{"deprecated": true}], "not": {}}] accepts every value, and so does
    [{"oneOf": [{"type": "null"}]}]. *)
Theorem C25_one_of_refuted :
  (exists (c : composite unit) subs, c_schemas c = Some (subs, 0%nat) /\ (forall s, In s subs -> skipped s = false)
    /\ ~ not_holds (c_not c) [] tt
    /\ exists r, validate_one_of default_rules c [] tt = Some r /\ validates r)
  /\ (exists (c : composite unit) subs, c_schemas c = Some (subs, 0%nat)
    /\ ~ exactly_one (member_accepts [] tt) subs
    /\ exists r, validate_one_of default_rules c [] tt = Some r /\ validates r).
Proof.
  split.
  - exists (mkComposite (Some ([mkSub false warn], 0%nat)) (Some (Resolved yes)) None false), [mkSub false warn].
    split; [reflexivity|]. split; [intros s [<-|[]]; reflexivity|]. split.
    + intros H. apply (H _ eq_refl). cbn. auto.
    + eexists. split; [vm_compute; reflexivity|]. reflexivity.
  - exists (mkComposite (Some ([mkSub true no], 0%nat)) None None false), [mkSub true no].
    split; [reflexivity|]. split.
    + intros (b & s & a & H & [Hs _] & _). destruct b as [|? [|? ?]]; inversion H; subst; discriminate.
    + eexists. split; [vm_compute; reflexivity|]. reflexivity.
Qed.
Print Assumptions C25_one_of_refuted.

(** A cyclic [allOf] ([c_schemas = None]) does not look at its [not] either. *)
Theorem C25_all_of_cycle_refuted :
  exists c : composite unit, ~ not_holds (c_not c) [] tt /\ validates (validate_all_of default_rules c [] tt).
Proof.
  exists (mkComposite None (Some (Resolved yes)) None false). split; [|vm_compute; auto].
  intros H. apply (H _ eq_refl). cbn. auto.
Qed.
Print Assumptions C25_all_of_cycle_refuted.

(** Non-trivial instances of the hypotheses. *)
Example C25_one_of_example :
  let c := mkComposite (Some ([mkSub false no; mkSub true no; mkSub false yes], 0%nat)) (Some (Resolved no))
             (Some (mkIte (Resolved yes) (Some (Resolved yes)) None)) false in
  exists r, validate_one_of default_rules c [Key (lit "a")] 5 = Some r /\ validates r.
Proof. eexists. split; [vm_compute; reflexivity|]. exact I. Qed.
Example C25_one_of_example' :
  let c := mkComposite (Some ([mkSub false yes; mkSub false yes], 0%nat)) None None false in
  exists r, validate_one_of default_rules c [] 5 = Some r /\ ~ validates r.
Proof. eexists. split; [vm_compute; reflexivity|]. cbn. discriminate. Qed.

(** ** C25, nested schemas and what the user sees *)

Inductive kind := OneOf | AnyOf | AllOf.
(** A schema built from leaves by the combinators; [n] is the adjacent [not], [i], [t], [e] the adjacent
    [if], [then], [else]. *)
Inductive schema (T : Type) :=
| Leaf (check : path -> T -> result)
| Combined (k : kind) (members : list (schema T)) (n i t e : option (schema T)).
Arguments Leaf {T} _.
Arguments Combined {T} _ _ _ _ _ _.

(** JSON Schema's verdict, given the verdicts of the leaves. *)
Fixpoint valid_for {T} (s : schema T) (p : path) (x : T) : bool :=
  match s with
  | Leaf check => match check p x with Ok _ => true | Err e => negb (assertion_failed e) end
  | Combined k members n i t e =>
      match k with
      | OneOf => Nat.eqb (length (filter (fun m => valid_for m p x) members)) 1
      | AnyOf => existsb (fun m => valid_for m p x) members
      | AllOf => forallb (fun m => valid_for m p x) members
      end
      && match n with Some m => negb (valid_for m p x) | None => true end
      && match i with
         | Some c => if valid_for c p x
                     then match t with Some m => valid_for m p x | None => true end
                     else match e with Some m => valid_for m p x | None => true end
         | None => true
         end
  end.

(** Running the validator on it. *)
Fixpoint run_schema {T} (R : rules) (s : schema T) (p : path) (x : T) : option result :=
  match s with
  | Leaf check => Some (check p x)
  | Combined k members n i t e =>
      let get (m : schema T) : path -> T -> result :=
        fun p x => match run_schema R m p x with Some r => r | None => Ok no_locations end in
      let c := mkComposite (Some (map (fun m => mkSub false (get m)) members, 0%nat))
                 match n with Some m => Some (Resolved (get m)) | None => None end
                 match i with
                 | Some c => Some (mkIte (Resolved (get c))
                                     match t with Some m => Some (Resolved (get m)) | None => None end
                                     match e with Some m => Some (Resolved (get m)) | None => None end)
                 | None => None
                 end false in
      match k with
      | OneOf => validate_one_of R c p x
      | AnyOf => Some (validate_any_of R c p x)
      | AllOf => Some (validate_all_of R c p x)
      end
  end.

(** Every [oneOf]/[anyOf]/[allOf] has a member, as JSON Schema requires, and the leaves either succeed or
    fail with an error (no warnings). *)
Definition clean (r : result) : Prop :=
  match r with Ok _ => True | Err e => assertion_failed e = true /\ existsb is_error (diagnostics e) = true end.
Definition opt_all {X} (P : X -> Prop) (o : option X) : Prop := match o with Some x => P x | None => True end.
Inductive well_formed {T} : schema T -> Prop :=
| wf_leaf : forall check, (forall p x, clean (check p x)) -> well_formed (Leaf check)
| wf_combined : forall k members n i t e,
    members <> [] -> Forall well_formed members ->
    (forall m, n = Some m -> well_formed m) -> (forall m, i = Some m -> well_formed m) ->
    (forall m, t = Some m -> well_formed m) -> (forall m, e = Some m -> well_formed m) ->
    well_formed (Combined k members n i t e).

Lemma well_formed_ind' : forall T (P : schema T -> Prop),
  (forall check, (forall p x, clean (check p x)) -> P (Leaf check)) ->
  (forall k members n i t e, members <> [] -> Forall P members ->
     (forall m, n = Some m -> P m) -> (forall m, i = Some m -> P m) -> (forall m, t = Some m -> P m) ->
     (forall m, e = Some m -> P m) -> P (Combined k members n i t e)) ->
  forall s, well_formed s -> P s.
Proof.
  intros T P HL HC. fix IH 2. intros s [check H|k members n i t e Hne Hm Hn Hi Ht He].
  - apply HL. exact H.
  - apply HC; [exact Hne| | | | |].
    + clear - Hm IH. induction Hm as [|m l Hm' Hl IHl]; constructor; [apply IH; exact Hm'|exact IHl].
    + intros m E. apply IH, Hn, E.
    + intros m E. apply IH, Hi, E.
    + intros m E. apply IH, Ht, E.
    + intros m E. apply IH, He, E.
Qed.

(** No rule is disabled, and the rules about assertions are at their default level. *)
Definition reporting (R : rules) : Prop :=
  (forall c, noqa_of R c = false) /\ level_of R NotSchemaMatch = Error /\ level_of R OneOfMultipleMatch = Error.

Lemma clean_finish : forall f ev ds v, (f = false -> ds = []) -> (f = true -> existsb is_error ds = true) ->
  clean (finish f ev ds v).
Proof.
  intros [|] ev ds v H1 H2; unfold finish.
  - rewrite andb_false_r. split; [reflexivity|auto].
  - rewrite (H1 eq_refl). exact I.
Qed.

Lemma clean_not : forall T R (run : path -> T -> result) p x,
  reporting R -> clean (validate_not R (Resolved run) p x).
Proof.
  intros T R run p x (HN & HL & _). unfold validate_not. destruct (is_assertion_success (run p x)).
  - rewrite HL. cbn. auto.
  - unfold unused_noqa. rewrite HN. exact I.
Qed.

Lemma clean_merge : forall a b, clean a -> clean b -> clean (merge_validation_results a b).
Proof.
  intros [v|e] [v'|e'] Ha Hb; cbn in *; auto.
  destruct Ha as [-> Ha]. rewrite existsb_app, Ha. auto.
Qed.

Lemma clean_merge_if : forall b r, clean b -> clean r -> clean (merge_if_result b r).
Proof.
  intros b [v|e] Hb Hr; cbn [merge_if_result].
  - apply clean_merge; auto.
  - cbn in Hr. destruct Hr as [-> _]. exact Hb.
Qed.

Lemma clean_ite : forall T R (run : path -> T -> result) t e p x,
  clean (run p x) ->
  (forall r, t = Some r -> clean (r p x)) -> (forall r, e = Some r -> clean (r p x)) ->
  clean (validate_if_then_else R (mkIte (Resolved run)
     match t with Some r => Some (Resolved r) | None => None end
     match e with Some r => Some (Resolved r) | None => None end) p x).
Proof.
  intros T R run t e p x H Ht He. unfold validate_if_then_else. cbn [if_schema then_schema else_schema].
  destruct (is_assertion_success (run p x)).
  - destruct t as [r|]; apply clean_merge_if; auto. exact I.
  - destruct e as [r|]; auto. exact I.
Qed.

Lemma combine_clean : forall a b,
  (clean (Err a) \/ a = new_invalid) -> clean (Err b) -> clean (Err (combine a b)).
Proof.
  intros a b Ha Hb. unfold combine. destruct Ha as [[Ha Ha']| ->].
  - rewrite Ha. cbn [negb andb orb]. destruct (compare_scores _ _); cbn; rewrite ?Ha, ?existsb_app, ?Ha'; auto.
  - cbn [assertion_failed diagnostics new_invalid i_evidence negb andb]. change (is_no_evidence no_evidence) with true.
    exact Hb.
Qed.

Lemma combine_errors_clean_from : forall results a,
  (clean (Err a) \/ a = new_invalid) -> Forall (fun r => failed r = true /\ clean r) results -> (results <> [] \/ clean (Err a)) ->
  clean (Err (fold_left (fun a b => match b with Err e => combine a e | Ok _ => a end) results a)).
Proof.
  induction results as [|r l IH]; intros a Ha HF HN; cbn [fold_left].
  - destruct HN as [HN|HN]; [congruence|exact HN].
  - inversion HF as [|? ? [Hr Hc] HF']; subst. destruct r as [v|e]; [discriminate|].
    pose proof (combine_clean a e Ha Hc) as K. apply IH; auto.
Qed.

Lemma adjacent_clean : forall T R (c : composite T) p x,
  reporting R ->
  (forall n, c_not c = Some n -> exists run, n = Resolved run) ->
  (forall s, c_ite c = Some s -> clean (validate_if_then_else R s p x)) ->
  let '(f, ds, _) := adjacent R c p x in (f = false -> ds = []) /\ (f = true -> existsb is_error ds = true).
Proof.
  intros T R c p x HR Hn Hi. unfold adjacent.
  set (N0 := match c_not c with Some n => match validate_not R n p x with Ok _ => (false, [])
             | Err e => (assertion_failed e, diagnostics e) end | None => (false, []) end).
  assert (HN : (fst N0 = false -> snd N0 = []) /\ (fst N0 = true -> existsb is_error (snd N0) = true)).
  { unfold N0. destruct (c_not c) as [n|]; [|cbn; split; [auto|discriminate]].
    destruct (Hn _ eq_refl) as [run ->]. pose proof (clean_not T R run p x HR) as K.
    destruct (validate_not R (Resolved run) p x) as [v|e]; cbn in *; [split; [auto|discriminate]|].
    destruct K as [-> K]. split; [discriminate|auto]. }
  destruct N0 as [f ds]. cbn [fst snd] in HN. destruct HN as [H1 H2].
  destruct (c_ite c) as [s|]; [|cbn; auto].
  specialize (Hi _ eq_refl). destruct (validate_if_then_else R s p x) as [v|e]; [auto|].
  cbn in Hi. destruct Hi as [-> K]. rewrite orb_true_r, existsb_app, K, orb_true_r. split; [discriminate|auto].
Qed.

Lemma pick_match_clean : forall results f ds base r,
  (f = false -> ds = []) -> (f = true -> existsb is_error ds = true) -> Forall clean results ->
  pick_match results f ds base = Some r -> clean r.
Proof.
  induction results as [|x l IH]; intros f ds base r H1 H2 HF H; cbn in H; [discriminate|].
  inversion HF as [|? ? Hx HF']; subst. destruct x as [v|e].
  - destruct f.
    + rewrite andb_false_r in H. apply some_eq in H. subst r. cbn. auto.
    + rewrite (H1 eq_refl) in H. apply some_eq in H. subst r. exact I.
  - cbn in Hx. destruct Hx as [Hx _]. rewrite Hx in H. cbn in H. eapply IH; eauto.
Qed.

Definition get_schema {T} (R : rules) (m : schema T) : path -> T -> result :=
  fun p x => match run_schema R m p x with Some r => r | None => Ok no_locations end.
Definition good {T} (R : rules) (s : schema T) : Prop :=
  forall p x, exists r, run_schema R s p x = Some r /\ clean r /\ failed r = negb (valid_for s p x).

Lemma good_get : forall T R (s : schema T) p x, good R s ->
  clean (get_schema R s p x) /\ failed (get_schema R s p x) = negb (valid_for s p x).
Proof. intros T R s p x H. unfold get_schema. destruct (H p x) as (r & -> & Hc & Hf). auto. Qed.

Definition compiled {T} (R : rules) (members : list (schema T)) (n i t e : option (schema T)) : composite T :=
  mkComposite (Some (map (fun m => mkSub false (get_schema R m)) members, 0%nat))
    match n with Some m => Some (Resolved (get_schema R m)) | None => None end
    match i with
    | Some c => Some (mkIte (Resolved (get_schema R c))
                        match t with Some m => Some (Resolved (get_schema R m)) | None => None end
                        match e with Some m => Some (Resolved (get_schema R m)) | None => None end)
    | None => None
    end false.

Lemma compiled_adjacent : forall T R (members : list (schema T)) n i t e p x,
  (forall m, n = Some m -> good R m) -> (forall m, i = Some m -> good R m) ->
  (forall m, t = Some m -> good R m) -> (forall m, e = Some m -> good R m) ->
  adjacent_fails (compiled R members n i t e) p x
  = negb (match n with Some m => negb (valid_for m p x) | None => true end
          && match i with
             | Some c => if valid_for c p x
                     then match t with Some m => valid_for m p x | None => true end
                     else match e with Some m => valid_for m p x | None => true end
             | None => true
             end).
Proof.
  intros T R members n i t e p x Hn Hi Ht He. unfold adjacent_fails. cbn [c_not c_ite compiled].
  rewrite negb_andb. f_equal.
  - destruct n as [m|]; [|reflexivity]. cbn [item_matches].
    destruct (good_get T R m p x (Hn _ eq_refl)) as [_ ->]. reflexivity.
  - destruct i as [c|]; [|reflexivity]. unfold ite_fails. cbn [if_schema then_schema else_schema].
    destruct (good_get T R c p x (Hi _ eq_refl)) as [_ ->]. destruct (valid_for c p x); cbn [negb].
    + destruct t as [m|]; [|reflexivity]. cbn [item_fails]. apply good_get, Ht. reflexivity.
    + destruct e as [m|]; [|reflexivity]. cbn [item_fails]. apply good_get, He. reflexivity.
Qed.

Lemma compiled_matches : forall T R (members : list (schema T)) p x,
  Forall (good R) members ->
  filter (sub_matches p x) (map (fun m => mkSub false (get_schema R m)) members)
  = map (fun m => mkSub false (get_schema R m)) (filter (fun m => valid_for m p x) members)
  /\ existsb (sub_matches p x) (map (fun m => mkSub false (get_schema R m)) members)
     = existsb (fun m => valid_for m p x) members
  /\ existsb (fun s => failed (run_sub s p x)) (map (fun m => mkSub false (get_schema R m)) members)
     = negb (forallb (fun m => valid_for m p x) members)
  /\ Forall clean (each_results (map (fun m => mkSub false (get_schema R m)) members) p x).
Proof.
  intros T R members p x H. induction H as [|m l Hm Hl IH]; [cbn; auto|].
  destruct IH as (I1 & I2 & I3 & I4). destruct (good_get T R m p x Hm) as [Hc Hf].
  assert (K : sub_matches p x (mkSub false (get_schema R m)) = valid_for m p x).
  { unfold sub_matches. cbn [skipped run_sub negb andb]. rewrite Hf. apply negb_involutive. }
  cbn [map filter existsb forallb each_results]. rewrite K. repeat split.
  - rewrite I1. destruct (valid_for m p x); reflexivity.
  - rewrite I2. reflexivity.
  - rewrite I3. cbn [run_sub]. rewrite Hf, negb_andb. reflexivity.
  - constructor; assumption.
Qed.

Lemma compiled_adjacent_clean : forall T R (members : list (schema T)) n i t e p x,
  reporting R -> (forall m, i = Some m -> good R m) ->
  (forall m, t = Some m -> good R m) -> (forall m, e = Some m -> good R m) ->
  (forall s, c_ite (compiled R members n i t e) = Some s -> clean (validate_if_then_else R s p x)).
Proof.
  intros T R members n i t e p x HR Hi Ht He s H. cbn [compiled c_ite] in H. destruct i as [c|]; [|discriminate].
  injection H as <-.
  pose proof (clean_ite T R (get_schema R c) (option_map (get_schema R) t) (option_map (get_schema R) e) p x) as K.
  assert (E : forall o : option (schema T), match option_map (get_schema R) o with Some r => Some (Resolved r) | None => None end
     = match o with Some m => Some (Resolved (get_schema R m)) | None => None end) by (intros [m|]; reflexivity).
  rewrite !E in K. apply K.
  - apply good_get, Hi. reflexivity.
  - intros r Hr. destruct t as [m|]; [|discriminate]. injection Hr as <-. apply good_get, Ht. reflexivity.
  - intros r Hr. destruct e as [m|]; [|discriminate]. injection Hr as <-. apply good_get, He. reflexivity.
Qed.

Lemma nested_good : forall T R (s : schema T), reporting R -> well_formed s -> good R s.
Proof.
  intros T R s HR. revert s. apply well_formed_ind'.
  - intros check H p x. exists (check p x). split; [reflexivity|]. split; [apply H|].
    cbn. destruct (check p x) as [v|e]; cbn; [reflexivity|]. rewrite negb_involutive. reflexivity.
  - intros k members n i t e Hne Hm Hn Hi Ht He p x.
    set (c := compiled R members n i t e).
    assert (HE : run_schema R (Combined k members n i t e) p x = match k with
        | OneOf => validate_one_of R c p x | AnyOf => Some (validate_any_of R c p x) | AllOf => Some (validate_all_of R c p x) end)
      by reflexivity.
    rewrite HE.
    pose proof (compiled_adjacent T R members n i t e p x Hn Hi Ht He) as HA. fold c in HA.
    destruct (compiled_matches T R members p x Hm) as (M1 & M2 & M3 & M4).
    assert (HC : c_schemas c = Some (map (fun m => mkSub false (get_schema R m)) members, 0%nat)) by reflexivity.
    set (subs := map (fun m => mkSub false (get_schema R m)) members) in *.
    assert (HS : exists s, In s subs /\ skipped s = false).
    { destruct members as [|m l]; [congruence|]. exists (mkSub false (get_schema R m)). split; [left|]; reflexivity. }
    assert (HAC : let '(f, ds, _) := adjacent R c p x in (f = false -> ds = []) /\ (f = true -> existsb is_error ds = true)).
    { apply adjacent_clean; [exact HR| |].
      - intros n0 Hn0. cbn [c compiled c_not] in Hn0. destruct n as [m|]; [|discriminate]. injection Hn0 as <-. eauto.
      - apply compiled_adjacent_clean; auto. }
    cbn [valid_for]. rewrite <- andb_assoc.
    match type of HA with _ = negb ?b => set (adj := b) in * end.
    destruct k.
    + destruct (one_of_never_panics T R c p x) as [r Hr]. exists r. split; [exact Hr|]. split.
      * unfold validate_one_of in Hr. destruct (adjacent R c p x) as [[f ds] base]. rewrite HC in Hr.
        destruct HAC as [A1 A2]. unfold resolution_diagnostics in Hr. cbn [repeat] in Hr.
        replace (if resolution_shown R then [] else []) with (@nil diag) in Hr by (destruct (resolution_shown R); reflexivity).
        rewrite app_nil_r in Hr.
        destruct subs as [|s0 subs0] eqn:ES; [destruct HS as (? & [] & _)|]. rewrite <- ES in *. clear ES.
        destruct (Nat.eqb_spec (length (filter is_assertion_success (each_results subs p x))) 1) as [E|E].
        -- eapply pick_match_clean; [exact A1|exact A2|exact M4|exact Hr].
        -- destruct (Nat.ltb_spec 1 (length (filter is_assertion_success (each_results subs p x)))) as [L|L];
             apply some_eq in Hr; subst r.
           ++ cbn [clean assertion_failed diagnostics]. destruct HR as (_ & _ & ->). cbn [push]. rewrite existsb_app. cbn.
              rewrite orb_true_r. auto.
           ++ assert (K : clean (Err (combine_errors (each_results subs p x)))).
              { apply combine_errors_clean_from; [right; reflexivity| |].
                - assert (F : Forall (fun r => failed r = true) (each_results subs p x))
                    by (apply no_match_all_failed; lia).
                  rewrite Forall_forall in *. auto.
                - left. rewrite each_results_in. destruct HS as (s & Hs & Hk). intros Q.
                  assert (K : In (run_sub s p x) []); [|exact K]. rewrite <- Q.
                  apply in_map_iff. exists s. split; [reflexivity|]. apply filter_In. rewrite Hk. auto. }
              cbn [clean assertion_failed diagnostics]. destruct K as [K1 K2]. split; [exact K1|].
              destruct (diagnostics (combine_errors (each_results subs p x))); [discriminate|].
              cbn [is_nil]. rewrite existsb_app, K2, orb_true_r. reflexivity.
      * rewrite (one_of_failed T R c p x subs 0 r HC (fun _ => eq_refl) (fun _ => HS)); [|right|exact Hr].
        -- rewrite HA, M1, map_length, negb_andb, orb_comm. reflexivity.
        -- intros s Hs _. apply in_map_iff in Hs. destruct Hs as (m & <- & Hm'). cbn [run_sub].
           rewrite Forall_forall in Hm. destruct (good_get T R m p x (Hm _ Hm')) as [Hc _].
           destruct (get_schema R m p x) as [v|e0]; [reflexivity|]. destruct Hc as [Hc _]. cbn. rewrite Hc. reflexivity.
    + eexists. split; [reflexivity|]. split.
      * unfold validate_any_of. pose proof (adjacent_failed T R c p x) as HF.
        destruct (adjacent R c p x) as [[f ds] base]. cbn [fst] in HF. rewrite HC.
        destruct HAC as [A1 A2]. unfold resolution_diagnostics. cbn [repeat].
        replace (if resolution_shown R then [] else []) with (@nil diag) by (destruct (resolution_shown R); reflexivity).
        rewrite app_nil_r.
        assert (G : forall results total matched mds locs,
                   Forall clean results -> (clean (Err total) \/ total = new_invalid) ->
                   let '(total', matched', mds', _) := fold_left any_of_step results (total, matched, mds, locs) in
                   (mds = [] -> mds' = []) /\ (clean (Err total') \/ total' = total /\ (results = [] \/ matched' = true))).
        { clear. induction results as [|r l IH]; intros total matched mds locs HF HT; cbn [fold_left]; [auto|].
          inversion HF as [|? ? Hr HF']; subst. destruct r as [v|e]; cbn [any_of_step].
          - specialize (IH total true mds (merge_valid locs v) HF' HT).
            pose proof (any_of_fold l total true mds (merge_valid locs v)) as W.
            destruct (fold_left any_of_step l _) as [[[t' m'] d'] l']. destruct IH as [I1 [I2|[I2 I3]]]; split; auto.
            right. split; [exact I2|]. right. destruct W as [-> _]; [|reflexivity]. destruct HT as [[HT _]| ->]; auto.
          - cbn in Hr. destruct Hr as [He He']. rewrite He.
            assert (K : clean (Err (combine total e))) by (apply combine_clean; [exact HT|split; assumption]).
            specialize (IH (combine total e) matched mds locs HF' (or_introl K)).
            destruct (fold_left any_of_step l _) as [[[t' m'] d'] l']. destruct IH as [I1 [I2|[-> I3]]]; split; auto. }
        specialize (G (each_results subs p x) new_invalid false [] base M4 (or_intror eq_refl)).
        destruct (fold_left any_of_step _ _) as [[[total matched] mds] locs]. destruct G as [G1 G2]. rewrite (G1 eq_refl).
        cbn [app]. assert (HD : handle_deprecated R (c_deprecated c) [] = []).
        { cbn [c compiled c_deprecated handle_deprecated]. unfold unused_noqa. destruct HR as [-> _]. reflexivity. }
        rewrite HD. cbn [app]. destruct matched; [apply clean_finish; assumption|].
        destruct G2 as [[G2 G3]|[-> [G3|G3]]].
        -- rewrite G2. cbn. rewrite existsb_app, G3, orb_true_r. auto.
        -- exfalso. destruct HS as (s & Hs & Hk). assert (X : In (run_sub s p x) []); [|exact X]. rewrite <- G3, each_results_in.
           apply in_map_iff. exists s. split; [reflexivity|]. apply filter_In. rewrite Hk. auto.
        -- discriminate.
      * rewrite (any_of_failed T R c p x subs 0 HC HS), HA, M2, negb_andb. reflexivity.
    + eexists. split; [reflexivity|]. split.
      * rewrite <- (app_nil_r subs) in *. rewrite (app_nil_r subs) in *.
        assert (G : forall results f ds ev locs, Forall clean results ->
                   (f = false -> ds = []) -> (f = true -> existsb is_error ds = true) ->
                   let '(f', ds', _, _) := fold_left all_of_step results (f, ds, ev, locs) in
                   (f' = false -> ds' = []) /\ (f' = true -> existsb is_error ds' = true)).
        { clear. induction results as [|r l IH]; intros f ds ev locs HF H1 H2; cbn [fold_left]; [auto|].
          inversion HF as [|? ? Hr HF']; subst. destruct r as [v|e]; cbn [all_of_step]; [apply IH; auto|].
          cbn in Hr. destruct Hr as [He He']. rewrite He. apply IH; [assumption| |].
          - rewrite orb_true_r. discriminate.
          - intros _. rewrite existsb_app, He', orb_true_r. reflexivity. }
        assert (MC : Forall clean (map (fun s => run_sub s p x) subs)).
        { rewrite each_results_in in M4. replace (filter (fun s => negb (skipped s)) subs) with subs in M4; [exact M4|].
          unfold subs. clear. induction members as [|m l IH]; cbn; [reflexivity|]. rewrite <- IH. reflexivity. }
        unfold validate_all_of. rewrite HC. unfold resolution_diagnostics. cbn [repeat].
        replace (if resolution_shown R then [] else []) with (@nil diag) by (destruct (resolution_shown R); reflexivity).
        pose proof (G (map (fun s => run_sub s p x) subs) false [] no_evidence no_locations MC (fun _ => eq_refl)
                     (fun H => False_ind _ (diff_false_true H))) as G1.
        destruct (fold_left all_of_step _ _) as [[[f ds] ev] locs]. destruct G1 as [G1 G2].
        assert (HD : (if is_nil ds then handle_deprecated R (c_deprecated c) ds else ds) = ds).
        { cbn [c compiled c_deprecated handle_deprecated]. unfold unused_noqa. destruct HR as [-> _]. destruct (is_nil ds); reflexivity. }
        rewrite HD.
        set (N0 := match c_not c with Some n => _ | None => (f, ds) end).
        assert (HN : (fst N0 = false -> snd N0 = []) /\ (fst N0 = true -> existsb is_error (snd N0) = true)).
        { unfold N0. cbn [c compiled c_not]. destruct n as [m|]; [|auto].
          pose proof (clean_not T R (get_schema R m) p x HR) as K.
          destruct (validate_not R (Resolved (get_schema R m)) p x) as [v|e0]; cbn in *; [auto|].
          destruct K as [-> K]. rewrite orb_true_r, existsb_app, K, orb_true_r. split; [discriminate|auto]. }
        destruct N0 as [f1 ds1]. cbn [fst snd] in HN. destruct HN as [H1 H2].
        set (I0 := match c_ite c with Some s => _ | None => (f1, ds1, ev, locs) end).
        assert (HI : let '(f', ds', _, _) := I0 in (f' = false -> ds' = []) /\ (f' = true -> existsb is_error ds' = true)).
        { unfold I0. pose proof (compiled_adjacent_clean T R members n i t e p x HR Hi Ht He) as K. fold c in K.
          destruct (c_ite c) as [s|]; [|auto]. specialize (K _ eq_refl).
          apply (G [validate_if_then_else R s p x] f1 ds1 ev locs); auto. }
        destruct I0 as [[[f2 ds2] ev2] locs2]. destruct HI as [I1 I2].
        destruct f2.
        -- rewrite andb_false_r. split; [reflexivity|auto].
        -- rewrite (I1 eq_refl). exact I.
      * rewrite (all_of_failed T R c p x subs 0 HC), HA, M3, negb_andb. reflexivity.
Qed.

(** For every schema built from the combinators, to any depth, the validator accepts exactly the instances
    JSON Schema accepts, and the user is shown an error exactly for the others. *)
Theorem C25_nested : forall T R (s : schema T) p x,
  reporting R -> well_formed s ->
  exists r, run_schema R s p x = Some r
  /\ (validates r <-> valid_for s p x = true)
  /\ (match r with Ok _ => False | Err e => exists d, In d (diagnostics e) /\ is_error d = true end
      <-> valid_for s p x = false).
Proof.
  intros T R s p x HR HS. destruct (nested_good T R s HR HS p x) as (r & Hr & Hc & Hf).
  exists r. split; [exact Hr|]. split.
  - rewrite validates_failed, Hf, negb_false_iff. reflexivity.
  - destruct r as [v|e]; cbn in Hf, Hc.
    + destruct (valid_for s p x); [intuition discriminate|discriminate].
    + destruct Hc as [Hc Hd]. rewrite Hc in Hf. destruct (valid_for s p x); [discriminate|].
      split; [reflexivity|]. intros _. apply existsb_exists in Hd. exact Hd.
Qed.
Print Assumptions C25_nested.

Example C25_nested_example :
  let s := Combined OneOf [Leaf no; Combined AnyOf [Leaf no; Leaf yes] (Some (Leaf no)) None None None]
             None (Some (Leaf yes)) (Some (Combined AllOf [Leaf yes] None None None None)) (Some (Leaf no)) in
  reporting default_rules /\ well_formed s /\ valid_for s [] 5 = true
  /\ exists v, run_schema default_rules s [] 5 = Some (Ok v).
Proof.
  split; [split; [reflexivity|split; reflexivity]|]. split.
  - assert (Y : well_formed (@Leaf N yes)) by (constructor; intros; exact I).
    assert (N0 : well_formed (@Leaf N no)) by (constructor; intros; split; reflexivity).
    repeat match goal with
           | |- well_formed (Leaf _) => assumption
           | |- well_formed (Combined _ _ _ _ _ _) => apply wf_combined
           | |- Forall _ _ => constructor
           | |- _ <> [] => discriminate
           | |- forall m, None = Some m -> _ => discriminate
           | |- forall m, Some _ = Some m -> _ => intros ? [= <-]
           end.
  - split; [reflexivity|]. eexists. vm_compute. reflexivity.
Qed.
