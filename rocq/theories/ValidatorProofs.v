(** Lemmas about the model of the schema validator. *)
From Coq Require Import String Ascii List NArith ZArith Bool Arith Lia ZifyBool.
From Verif Require Import Base ValidatorModel.
Import ListNotations.
Open Scope N_scope.
Open Scope list_scope.

Lemma some_eq : forall X (a b : X), Some a = Some b -> b = a.
Proof. congruence. Qed.

Definition failed (r : result) : bool := match r with Ok _ => false | Err e => assertion_failed e end.

Lemma success_failed : forall r, is_assertion_success r = negb (failed r).
Proof. destruct r; reflexivity. Qed.

Lemma failed_merge : forall a b, failed (merge_validation_results a b) = failed a || failed b.
Proof. intros [v|e] [v'|e']; cbn; rewrite ?orb_false_r; reflexivity. Qed.

Lemma failed_finish : forall f ev ds v, failed (finish f ev ds v) = f.
Proof. intros [|] ev [|d ds] v; reflexivity. Qed.

Lemma existsb_push : forall l c ds,
  existsb is_error (push l c ds) = existsb is_error ds || match l with Error => true | _ => false end.
Proof. intros [| |] c ds; cbn; rewrite ?existsb_app; cbn; rewrite ?orb_false_r; reflexivity. Qed.

Lemma resolution_no_error : forall R n, existsb is_error (resolution_diagnostics R n) = false.
Proof.
  intros R n. unfold resolution_diagnostics. destruct (resolution_shown R); [|reflexivity].
  induction n; cbn; auto.
Qed.

Lemma failed_from : forall ds, failed (Err (invalid_from ds)) = existsb is_error ds.
Proof. reflexivity. Qed.

Lemma unused_noqa_no_error : forall R c ds, existsb is_error (unused_noqa R c ds) = existsb is_error ds.
Proof.
  intros R c ds. unfold unused_noqa. destruct (noqa_of R c); [|reflexivity].
  rewrite existsb_push, orb_false_r. reflexivity.
Qed.

(** ** [not] *)

Definition item_matches {T} (i : item T) (p : path) (x : T) : bool :=
  match i with Resolved run => negb (failed (run p x)) | _ => false end.

Lemma failed_not : forall T R (i : item T) p x, failed (validate_not R i p x) = item_matches i p x.
Proof.
  intros T R i p x. unfold validate_not.
  assert (K : failed (if is_nil (unused_noqa R NotSchemaMatch []) then Ok no_locations
                else Err (invalid_from (unused_noqa R NotSchemaMatch []))) = false).
  { destruct (is_nil _); [reflexivity|]. rewrite failed_from, unused_noqa_no_error. reflexivity. }
  destruct i as [run| |]; cbn [item_matches].
  - rewrite success_failed. destruct (failed (run p x)); cbn [negb]; [exact K|reflexivity].
  - destruct (resolution_diagnostics R 1) as [|d ds] eqn:E; [exact K|].
    rewrite failed_from, <- E. apply resolution_no_error.
  - exact K.
Qed.

(** ** [if]/[then]/[else] *)

Definition item_fails {T} (i : option (item T)) (p : path) (x : T) : bool :=
  match i with Some (Resolved run) => failed (run p x) | _ => false end.

Definition ite_fails {T} (s : ite T) (p : path) (x : T) : bool :=
  match if_schema s with
  | Resolved run => if failed (run p x) then item_fails (else_schema s) p x else item_fails (then_schema s) p x
  | _ => false
  end.

Lemma failed_resolution : forall R n,
  failed (match resolution_diagnostics R n with [] => Ok no_locations | d :: l => Err (invalid_from (d :: l)) end) = false.
Proof.
  intros R n. destruct (resolution_diagnostics R n) as [|d l] eqn:E; [reflexivity|].
  rewrite failed_from, <- E. apply resolution_no_error.
Qed.

Lemma failed_ite : forall T R (s : ite T) p x, failed (validate_if_then_else R s p x) = ite_fails s p x.
Proof.
  intros T R s p x. unfold validate_if_then_else, ite_fails.
  destruct (if_schema s) as [run| |]; [|apply failed_resolution|reflexivity].
  rewrite success_failed. destruct (failed (run p x)) eqn:F; cbn [negb].
  - destruct (else_schema s) as [[run'| |]|]; cbn [item_fails]; try reflexivity. apply failed_resolution.
  - assert (K : forall b, failed (merge_if_result b (run p x)) = failed b).
    { intros b. unfold merge_if_result. destruct (run p x) as [v|e]; cbn in F.
      - rewrite failed_merge. reflexivity.
      - rewrite F. cbn [negb]. rewrite failed_merge. cbn. rewrite F. reflexivity. }
    destruct (then_schema s) as [[run'| |]|]; cbn [item_fails]; rewrite ?K; try reflexivity.
    pose proof (failed_resolution R 1) as Q.
    destruct (resolution_diagnostics R 1) as [|d l]; rewrite K; [reflexivity|exact Q].
Qed.

(** ** Adjacent [not] and [if] *)

Definition adjacent_fails {T} (c : composite T) (p : path) (x : T) : bool :=
  match c_not c with Some n => item_matches n p x | None => false end
  || match c_ite c with Some s => ite_fails s p x | None => false end.

Lemma adjacent_failed : forall T R (c : composite T) p x,
  fst (fst (adjacent R c p x)) = adjacent_fails c p x.
Proof.
  intros T R c p x. unfold adjacent, adjacent_fails.
  set (N0 := match c_not c with Some n => match validate_not R n p x with Ok _ => (false, [])
             | Err e => (assertion_failed e, diagnostics e) end | None => (false, []) end).
  assert (HN : fst N0 = match c_not c with Some n => item_matches n p x | None => false end).
  { unfold N0. destruct (c_not c) as [n|]; [|reflexivity].
    rewrite <- (failed_not T R n p x). destruct (validate_not R n p x); reflexivity. }
  destruct N0 as [f ds]. cbn [fst] in HN. rewrite <- HN.
  destruct (c_ite c) as [s|]; [|cbn; rewrite orb_false_r; reflexivity].
  rewrite <- (failed_ite T R s p x). destruct (validate_if_then_else R s p x); cbn; rewrite ?orb_false_r; reflexivity.
Qed.

(** ** Combining errors *)

Lemma combine_failed : forall a b,
  assertion_failed a = true \/ a = new_invalid -> assertion_failed b = true -> assertion_failed (combine a b) = true.
Proof.
  intros a b Ha Hb. unfold combine. destruct Ha as [Ha| ->].
  - rewrite Ha. cbn [negb andb orb].
    destruct (compare_scores _ _); cbn; rewrite ?Ha, ?Hb; reflexivity.
  - cbn [assertion_failed diagnostics new_invalid i_evidence negb andb]. change (is_no_evidence no_evidence) with true.
    cbn [orb]. exact Hb.
Qed.

Lemma combine_errors_from : forall results a,
  assertion_failed a = true \/ a = new_invalid ->
  Forall (fun r => failed r = true) results ->
  let e := fold_left (fun a b => match b with Err e => combine a e | Ok _ => a end) results a in
  (assertion_failed e = true \/ (results = [] /\ e = a)).
Proof.
  induction results as [|r results IH]; intros a Ha HF; cbn.
  - right. auto.
  - inversion HF as [|? ? Hr HF']; subst. destruct r as [v|e]; [discriminate|]. cbn in Hr.
    left. pose proof (combine_failed a e Ha Hr) as K.
    destruct (IH (combine a e) (or_introl K) HF') as [H|[-> H]]; [exact H|]. cbn. exact K.
Qed.

Lemma combine_errors_failed : forall results,
  Forall (fun r => failed r = true) results -> results <> [] -> assertion_failed (combine_errors results) = true.
Proof.
  intros results HF HN. unfold combine_errors.
  destruct (combine_errors_from results new_invalid (or_intror eq_refl) HF) as [H|[-> _]]; [exact H|congruence].
Qed.

(** ** [oneOf] *)

Lemma filter_success : forall results,
  filter is_assertion_success results = filter (fun r => negb (failed r)) results.
Proof. induction results as [|r l IH]; cbn; [reflexivity|]. rewrite success_failed, IH. reflexivity. Qed.

Lemma pick_match_some : forall results f ds base,
  length (filter is_assertion_success results) = 1%nat -> exists r, pick_match results f ds base = Some r.
Proof.
  induction results as [|r l IH]; intros f ds base H; cbn in H; [discriminate|].
  destruct r as [v|e]; cbn [pick_match].
  - destruct (is_nil ds && negb f); eauto.
  - cbn in H. destruct (assertion_failed e); cbn in *; eauto.
Qed.

(** Whether the only member that validates does so with warnings. *)
Definition warned (r : result) : bool := match r with Err e => negb (assertion_failed e) | Ok _ => false end.

Lemma pick_match_failed : forall results f ds base r,
  pick_match results f ds base = Some r ->
  (existsb warned results = false \/ f = false) -> failed r = f.
Proof.
  induction results as [|x l IH]; intros f ds base r H HW; cbn in H; [discriminate|].
  destruct x as [v|e].
  - destruct (is_nil ds && negb f) eqn:E; injection H as <-; cbn; [|reflexivity].
    destruct f; [|reflexivity]. rewrite andb_false_r in E. discriminate.
  - destruct (assertion_failed e) eqn:E; cbn in H.
    + eapply IH; [exact H|]. destruct HW as [HW|HW]; [left|right; exact HW].
      cbn in HW. rewrite E in HW. exact HW.
    + injection H as <-. cbn. destruct HW as [HW|HW].
      * cbn in HW. rewrite E in HW. discriminate.
      * auto.
Qed.

Lemma each_results_in : forall T (subs : list (sub T)) p x,
  each_results subs p x = map (fun s => run_sub s p x) (filter (fun s => negb (skipped s)) subs).
Proof.
  induction subs as [|s subs IH]; intros p x; cbn; [reflexivity|].
  unfold validate_resolved_schema. destruct (skipped s); cbn; rewrite IH; reflexivity.
Qed.

Definition sub_matches {T} (p : path) (x : T) (s : sub T) : bool := negb (skipped s) && negb (failed (run_sub s p x)).

Lemma count_matches : forall T (subs : list (sub T)) p x,
  length (filter is_assertion_success (each_results subs p x)) = length (filter (sub_matches p x) subs).
Proof.
  intros T subs p x. rewrite each_results_in, filter_success.
  induction subs as [|s subs IH]; cbn; [reflexivity|].
  unfold sub_matches at 1. destruct (skipped s); cbn; [exact IH|].
  destruct (failed (run_sub s p x)); cbn; rewrite IH; reflexivity.
Qed.

Lemma no_match_all_failed : forall results,
  length (filter is_assertion_success results) = 0%nat -> Forall (fun r => failed r = true) results.
Proof.
  induction results as [|r l IH]; intros H; [constructor|]. cbn in H. rewrite success_failed in H.
  destruct (failed r) eqn:E; [constructor; auto|discriminate].
Qed.

Lemma one_of_never_panics : forall T R (c : composite T) p x, exists r, validate_one_of R c p x = Some r.
Proof.
  intros T R c p x. unfold validate_one_of. destruct (adjacent R c p x) as [[f ds] base].
  destruct (c_schemas c) as [[[|s subs] errors]|]; try (eexists; reflexivity).
  destruct (Nat.eqb_spec (length (filter is_assertion_success (each_results (s :: subs) p x))) 1) as [E|E].
  - apply pick_match_some. exact E.
  - destruct (Nat.ltb 1 _); eexists; reflexivity.
Qed.

Lemma one_of_failed : forall T R (c : composite T) p x subs errors r,
  c_schemas c = Some (subs, errors) ->
  (subs = [] -> errors = 0%nat) -> (subs <> [] -> exists s, In s subs /\ skipped s = false) ->
  (adjacent_fails c p x = false \/ (forall s, In s subs -> skipped s = false -> warned (run_sub s p x) = false)) ->
  validate_one_of R c p x = Some r ->
  failed r = adjacent_fails c p x || negb (Nat.eqb (length (filter (sub_matches p x) subs)) 1).
Proof.
  intros T R c p x subs errors r HC H0 HS HW H. unfold validate_one_of in H.
  pose proof (adjacent_failed T R c p x) as HA. destruct (adjacent R c p x) as [[f ds] base].
  cbn [fst] in HA. subst f. rewrite HC in H.
  destruct subs as [|s0 subs0].
  - injection H as <-. cbn. rewrite (H0 eq_refl). cbn. rewrite !orb_true_r. reflexivity.
  - cbv beta iota zeta in H. rewrite count_matches in H. set (subs := s0 :: subs0) in *.
    destruct (Nat.eqb_spec (length (filter (sub_matches p x) subs)) 1) as [E|E].
    + cbn [negb]. rewrite orb_false_r. eapply pick_match_failed; [exact H|].
      destruct HW as [HW|HW]; [right; exact HW|left].
      rewrite each_results_in.
      destruct (existsb warned _) eqn:Q; [|reflexivity]. apply existsb_exists in Q. destruct Q as (r0 & Hr & Q).
      apply in_map_iff in Hr. destruct Hr as (s & <- & Hs). apply filter_In in Hs. destruct Hs as [Hs Hk].
      rewrite (HW s Hs) in Q; [discriminate|]. destruct (skipped s); [discriminate|reflexivity].
    + cbn [negb]. rewrite orb_true_r. destruct (Nat.ltb_spec 1 (length (filter (sub_matches p x) subs))) as [L|L].
      * apply some_eq in H. subst r. reflexivity.
      * apply some_eq in H. subst r. cbn [failed assertion_failed].
        apply combine_errors_failed.
        -- apply no_match_all_failed. rewrite count_matches. lia.
        -- destruct (HS ltac:(discriminate)) as (s & Hs & Hk). rewrite each_results_in. intros Q.
           assert (K : In (run_sub s p x) []); [|exact K]. rewrite <- Q.
           apply in_map_iff. exists s. split; [reflexivity|]. apply filter_In. rewrite Hk. auto.
Qed.

(** ** [anyOf] *)

Lemma any_of_fold : forall results total matched mds locs,
  assertion_failed total = true \/ total = new_invalid ->
  let '(total', matched', _, _) := fold_left any_of_step results (total, matched, mds, locs) in
  matched' = matched || existsb (fun r => negb (failed r)) results
  /\ (matched' = false -> (results = [] /\ total' = total) \/ assertion_failed total' = true).
Proof.
  induction results as [|r l IH]; intros total matched mds locs HT; cbn [fold_left].
  - cbn. rewrite orb_false_r. auto.
  - destruct r as [v|e]; cbn [any_of_step].
    + specialize (IH total true mds (merge_valid locs v) HT).
      destruct (fold_left any_of_step l _) as [[[t' m'] d'] l']. destruct IH as [-> IH]. split.
      * cbn. rewrite orb_true_r. reflexivity.
      * discriminate.
    + destruct (assertion_failed e) eqn:E.
      * pose proof (combine_failed total e HT E) as K.
        specialize (IH (combine total e) matched mds locs (or_introl K)).
        destruct (fold_left any_of_step l _) as [[[t' m'] d'] l']. destruct IH as [-> IH]. split.
        -- cbn. rewrite E. reflexivity.
        -- intros Q. right. destruct (IH Q) as [[-> ->]|H]; assumption.
      * specialize (IH total true (mds ++ diagnostics e) (merge_valid locs (evaluated e)) HT).
        destruct (fold_left any_of_step l _) as [[[t' m'] d'] l']. destruct IH as [-> IH]. split.
        -- cbn. rewrite E. cbn. rewrite orb_true_r. reflexivity.
        -- discriminate.
Qed.

Lemma existsb_matches : forall T (subs : list (sub T)) p x,
  existsb (fun r => negb (failed r)) (each_results subs p x) = existsb (sub_matches p x) subs.
Proof.
  intros T subs p x. rewrite each_results_in.
  induction subs as [|s subs IH]; cbn; [reflexivity|]. unfold sub_matches at 1.
  destruct (skipped s); cbn; [exact IH|]. rewrite IH. reflexivity.
Qed.

Lemma any_of_failed : forall T R (c : composite T) p x subs errors,
  c_schemas c = Some (subs, errors) ->
  (exists s, In s subs /\ skipped s = false) ->
  failed (validate_any_of R c p x)
  = negb (existsb (sub_matches p x) subs) || adjacent_fails c p x.
Proof.
  intros T R c p x subs errors HC HS. unfold validate_any_of.
  pose proof (adjacent_failed T R c p x) as HA. destruct (adjacent R c p x) as [[f ds] base].
  cbn [fst] in HA. subst f. rewrite HC.
  pose proof (any_of_fold (each_results subs p x) new_invalid false [] base (or_intror eq_refl)) as K.
  destruct (fold_left any_of_step _ _) as [[[t m] d] l]. destruct K as [-> K].
  cbn [orb] in *. rewrite existsb_matches in *.
  destruct (existsb (sub_matches p x) subs); cbn [negb orb].
  - apply failed_finish.
  - destruct (K eq_refl) as [[Q _]|Q].
    + exfalso. destruct HS as (s & Hs & Hk). assert (HI : In (run_sub s p x) []); [|exact HI]. rewrite <- Q.
      rewrite each_results_in. apply in_map_iff. exists s. split; [reflexivity|]. apply filter_In. rewrite Hk. auto.
    + rewrite Q. reflexivity.
Qed.

(** ** [allOf] *)

Lemma all_of_fold : forall results f ds ev locs,
  fst (fst (fst (fold_left all_of_step results (f, ds, ev, locs)))) = f || existsb failed results.
Proof.
  induction results as [|r l IH]; intros f ds ev locs; cbn [fold_left existsb].
  - rewrite orb_false_r. reflexivity.
  - destruct r as [v|e]; cbn [all_of_step]; rewrite IH; cbn [failed]; rewrite ?orb_assoc, ?orb_false_r; reflexivity.
Qed.

Lemma all_of_failed : forall T R (c : composite T) p x subs errors,
  c_schemas c = Some (subs, errors) ->
  failed (validate_all_of R c p x)
  = existsb (fun s => failed (run_sub s p x)) subs || adjacent_fails c p x.
Proof.
  intros T R c p x subs errors HC. unfold validate_all_of. rewrite HC.
  pose proof (all_of_fold (map (fun s => run_sub s p x) subs) false (resolution_diagnostics R errors) no_evidence no_locations) as K.
  destruct (fold_left all_of_step _ _) as [[[f ds] ev] locs]. cbn [fst orb] in K.
  assert (K' : f = existsb (fun s => failed (run_sub s p x)) subs).
  { rewrite K. clear. induction subs as [|s l IH]; cbn; [reflexivity|]. rewrite IH. reflexivity. }
  rewrite <- K'. clear K K'. unfold adjacent_fails.
  set (ds1 := if is_nil ds then handle_deprecated R (c_deprecated c) ds else ds).
  set (N0 := match c_not c with Some n => _ | None => (f, ds1) end).
  assert (HN : fst N0 = f || match c_not c with Some n => item_matches n p x | None => false end).
  { unfold N0. destruct (c_not c) as [n|]; [|cbn; rewrite orb_false_r; reflexivity].
    rewrite <- (failed_not T R n p x). destruct (validate_not R n p x); cbn; rewrite ?orb_false_r; reflexivity. }
  destruct N0 as [f1 ds2]. cbn [fst] in HN.
  set (I0 := match c_ite c with Some s => _ | None => (f1, ds2, ev, locs) end).
  assert (HI : fst (fst (fst I0)) = f1 || match c_ite c with Some s => ite_fails s p x | None => false end).
  { unfold I0. destruct (c_ite c) as [s|]; [|cbn; rewrite orb_false_r; reflexivity].
    rewrite <- (failed_ite T R s p x). destruct (validate_if_then_else R s p x); cbn; rewrite ?orb_false_r; reflexivity. }
  destruct I0 as [[[f2 ds3] ev2] locs2]. cbn [fst] in HI.
  rewrite orb_assoc, <- HN, <- HI.
  destruct f2, (is_nil ds3); reflexivity.
Qed.

(** ** Applicators beside a typed schema *)

Definition applicators_fail {T} (R : rules) (a : applicators T) (p : path) (x : T) : bool :=
  match one_of a with
  | Some c => match validate_one_of R c p x with Some r => failed r | None => false end
  | None => false
  end
  || match any_of a with Some c => failed (validate_any_of R c p x) | None => false end
  || match all_of a with Some c => failed (validate_all_of R c p x) | None => false end
  || match not_schema a with Some n => item_matches n p x | None => false end.

Lemma applicators_failed : forall T R (a : applicators T) p x,
  exists r, validate_adjacent_applicators R a p x = Some r /\ failed r = applicators_fail R a p x.
Proof.
  intros T R a p x. unfold validate_adjacent_applicators, applicators_fail.
  set (r0 := match one_of a with Some c => _ | None => Some (Ok no_locations) end).
  assert (H0 : exists r, r0 = Some r /\ failed r = match one_of a with
            | Some c => match validate_one_of R c p x with Some r => failed r | None => false end | None => false end).
  { unfold r0. destruct (one_of a) as [c|]; [|eexists; split; reflexivity].
    destruct (one_of_never_panics T R c p x) as [r ->]. eexists. split; [reflexivity|]. apply failed_merge. }
  destruct H0 as (r & -> & <-). eexists. split; [reflexivity|].
  destruct (any_of a); destruct (all_of a); destruct (not_schema a);
    rewrite ?failed_merge, ?failed_not, ?orb_false_r; reflexivity.
Qed.

Lemma merge_adjacent_failed : forall T R (a : applicators T) p x base,
  exists r, merge_adjacent R a p x base = Some r /\ failed r = failed base || applicators_fail R a p x.
Proof.
  intros T R a p x base. unfold merge_adjacent. destruct (applicators_failed T R a p x) as (r & -> & H).
  eexists. split; [reflexivity|]. rewrite failed_merge, H. reflexivity.
Qed.

(** ** Keyword checks *)

Lemma check_failed : forall R c v acc, fst (check R c v acc) = fst acc || v.
Proof. intros R c [|] [f ds]; cbn; rewrite ?orb_true_r, ?orb_false_r; reflexivity. Qed.
Lemma check_value_failed : forall R c m acc,
  fst (check_value R c m acc) = fst acc || match m with Some b => negb b | None => false end.
Proof. intros R c [[|]|] [f ds]; cbn; rewrite ?orb_true_r, ?orb_false_r; reflexivity. Qed.

(** ** State steps *)

Lemma s_failed_absorb : forall r st, s_failed (absorb r st) = s_failed st || failed r.
Proof. intros [v|e] st; cbn; rewrite ?orb_false_r; reflexivity. Qed.
Lemma s_failed_check : forall R c v st, s_failed (check_state R c v st) = s_failed st || v.
Proof. intros R c [|] st; cbn; rewrite ?orb_true_r, ?orb_false_r; reflexivity. Qed.
Lemma s_failed_check_value : forall R c m st,
  s_failed (check_value_state R c m st) = s_failed st || match m with Some b => negb b | None => false end.
Proof. intros R c [[|]|] st; cbn; rewrite ?orb_true_r, ?orb_false_r; reflexivity. Qed.
Lemma s_evaluated_absorb : forall r st, s_evaluated (absorb r st) = s_evaluated st.
Proof. intros [v|e] st; reflexivity. Qed.
Lemma s_evaluated_check : forall R c v st, s_evaluated (check_state R c v st) = s_evaluated st.
Proof. intros R c [|] st; reflexivity. Qed.
Lemma s_evaluated_check_value : forall R c m st, s_evaluated (check_value_state R c m st) = s_evaluated st.
Proof. intros R c [[|]|] st; reflexivity. Qed.

Lemma fold_failed : forall X (step : state -> X -> state) (bad : X -> bool) l st,
  (forall st x, s_failed (step st x) = s_failed st || bad x) ->
  s_failed (fold_left step l st) = s_failed st || existsb bad l.
Proof.
  intros X step bad l st H. revert st. induction l as [|x l IH]; intros st; cbn.
  - rewrite orb_false_r. reflexivity.
  - rewrite IH, H, orb_assoc. reflexivity.
Qed.

Lemma fold_evaluated : forall X (step : state -> X -> state) (adds : X -> list N) l st,
  (forall st x, s_evaluated (step st x) = adds x ++ s_evaluated st) ->
  forall i, mem_index i (s_evaluated (fold_left step l st))
            = mem_index i (s_evaluated st) || existsb (fun x => mem_index i (adds x)) l.
Proof.
  intros X step adds l st H i. revert st. induction l as [|x l IH]; intros st; cbn.
  - rewrite orb_false_r. reflexivity.
  - rewrite IH, H. unfold mem_index. rewrite existsb_app, <- orb_assoc, (orb_comm (existsb (N.eqb i) (adds x))).
    rewrite <- !orb_assoc. f_equal. apply orb_comm.
Qed.

(** ** Arrays *)

Lemma enumerate_from_nth : forall X (l : list X) i n,
  nth_error (enumerate_from i l) n = match nth_error l n with Some x => Some (i + N.of_nat n, x) | None => None end.
Proof.
  induction l as [|x l IH]; intros i n; destruct n as [|n]; cbn [enumerate_from nth_error]; try reflexivity.
  - rewrite N.add_0_r. reflexivity.
  - rewrite IH. destruct (nth_error l n); [|reflexivity]. do 2 f_equal. lia.
Qed.

Lemma enumerate_in : forall X (l : list X) i x,
  In (i, x) (enumerate l) <-> nth_error l (N.to_nat i) = Some x.
Proof.
  intros X l i x. split; intros H.
  - apply In_nth_error in H. destruct H as [n H]. unfold enumerate in H. rewrite enumerate_from_nth in H.
    destruct (nth_error l n) eqn:E; [|discriminate]. injection H as <- <-.
    rewrite Nnat.Nat2N.id. exact E.
  - apply nth_error_In with (n := N.to_nat i). unfold enumerate. rewrite enumerate_from_nth, H. do 2 f_equal. lia.
Qed.

Definition prefix_bad {V} (s : array_schema V) (prefix : list (item V)) (overflow : option (path -> V -> result))
    (p : path) (iv : N * V) : bool :=
  let '(i, v) := iv in
  match nth_error prefix (N.to_nat i) with
  | Some (Resolved run) => failed (run (p ++ [Index i]) v)
  | Some _ => false
  | None => match overflow with
            | Some run => failed (run (p ++ [Index i]) v)
            | None => match arr_additional_items s with Some false => true | _ => false end
            end
  end.

Lemma prefix_step_failed : forall V R (s : array_schema V) prefix overflow p st iv,
  s_failed (prefix_step R s prefix overflow p st iv) = s_failed st || prefix_bad s prefix overflow p iv.
Proof.
  intros V R s prefix overflow p st [i v]. unfold prefix_step, prefix_bad.
  destruct (nth_error prefix (N.to_nat i)) as [[run| |]|].
  - rewrite s_failed_absorb. destruct (root_singleton_matched _); reflexivity.
  - cbn. rewrite orb_false_r. reflexivity.
  - cbn. rewrite orb_false_r. reflexivity.
  - destruct overflow as [run|].
    + rewrite s_failed_absorb. destruct (is_assertion_success _); reflexivity.
    + destruct (arr_additional_items s) as [[|]|]; cbn; rewrite ?orb_false_r, ?orb_true_r; reflexivity.
Qed.

Definition prefix_adds {V} (s : array_schema V) (prefix : list (item V)) (overflow : option (path -> V -> result))
    (iv : N * V) : list N :=
  let i := fst iv in
  match nth_error prefix (N.to_nat i), overflow, arr_additional_items s with
  | Some _, _, _ => [i]
  | None, Some _, _ => [i]
  | None, None, Some false => if has_unevaluated_items s then [i] else []
  | _, _, _ => []
  end.

Lemma prefix_step_evaluated : forall V R (s : array_schema V) prefix overflow p st iv,
  s_evaluated (prefix_step R s prefix overflow p st iv) = prefix_adds s prefix overflow iv ++ s_evaluated st.
Proof.
  intros V R s prefix overflow p st [i v]. unfold prefix_step, prefix_adds. cbn [fst].
  destruct (nth_error prefix (N.to_nat i)) as [[run| |]|].
  - rewrite s_evaluated_absorb. destruct (root_singleton_matched _); reflexivity.
  - reflexivity.
  - reflexivity.
  - destruct overflow as [run|].
    + rewrite s_evaluated_absorb. destruct (is_assertion_success _); reflexivity.
    + destruct (arr_additional_items s) as [[|]|]; try reflexivity.
      destruct (has_unevaluated_items s); reflexivity.
Qed.

Lemma items_step_failed : forall V (run : path -> V -> result) p st iv,
  s_failed (items_step run p st iv) = s_failed st || failed (run (p ++ [Index (fst iv)]) (snd iv)).
Proof.
  intros V run p st [i v]. unfold items_step. rewrite s_failed_absorb. cbn [fst snd].
  destruct (is_assertion_success _); reflexivity.
Qed.
Lemma items_step_evaluated : forall V (run : path -> V -> result) p st iv,
  s_evaluated (items_step run p st iv) = [fst iv] ++ s_evaluated st.
Proof.
  intros V run p st [i v]. unfold items_step. rewrite s_evaluated_absorb. cbn [fst].
  destruct (is_assertion_success _); reflexivity.
Qed.

(** The matches of [contains], in order. *)
Definition contained {V} (run : path -> V -> result) (p : path) (values : list (N * V)) : list N :=
  map fst (filter (fun iv => negb (failed (run (p ++ [Index (fst iv)]) (snd iv)))) values).

Lemma count_contains_full : forall V (run : path -> V -> result) p min values count found,
  count_contains run p true min values count found
  = (count + N.of_nat (length (contained run p values)), found ++ contained run p values).
Proof.
  intros V run p min values. unfold contained.
  induction values as [|[i v] l IH]; intros count found; cbn [count_contains filter map].
  - cbn. rewrite N.add_0_r, app_nil_r. reflexivity.
  - rewrite success_failed. cbn [fst snd negb andb]. destruct (failed _); cbn [negb].
    + rewrite IH. reflexivity.
    + rewrite IH. cbn [map length fst]. rewrite <- app_assoc. cbn [app]. f_equal. lia.
Qed.

Lemma count_contains_short : forall V (run : path -> V -> result) p min values count found,
  let n := fst (count_contains run p false min values count found) in
  (count < min \/ (n = count \/ min <= n)) /\
  (n <? min) = (count + N.of_nat (length (contained run p values)) <? min).
Proof.
  intros V run p min values. unfold contained.
  induction values as [|[i v] l IH]; intros count found; cbn [count_contains filter map].
  - cbn. rewrite N.add_0_r. auto.
  - rewrite success_failed. cbn [fst snd negb andb]. destruct (failed _); cbn [negb].
    + apply IH.
    + destruct (N.leb_spec min (count + 1)) as [L|L].
      * cbn [fst]. split; [lia|]. cbn [map length]. lia.
      * destruct (IH (count + 1) (found ++ [i])) as [A B]. split; [lia|].
        rewrite B. cbn [map length]. f_equal. lia.
Qed.

Lemma unevaluated_fold : forall V R (s : array_schema V) schema p l st,
  NoDup (map fst l) ->
  s_failed (fold_left (unevaluated_step R s schema p) l st)
  = s_failed st || existsb (fun iv => negb (mem_index (fst iv) (s_evaluated st))
        && match schema with
           | Some run => failed (run (p ++ [Index (fst iv)]) (snd iv))
           | None => match arr_unevaluated_items s with Some false => true | _ => false end
           end) l.
Proof.
  intros V R s schema p. induction l as [|[i v] l IH]; intros st HN; cbn [fold_left existsb].
  - rewrite orb_false_r. reflexivity.
  - cbn [map fst] in HN. inversion HN as [|? ? Hi HN']; subst.
    rewrite (IH _ HN'). cbn [fst snd]. unfold unevaluated_step.
    destruct (mem_index i (s_evaluated st)) eqn:E.
    { cbn [negb andb orb]. reflexivity. }
    cbn [negb andb].
    set (st' := match schema with Some run => _ | None => _ end).
    assert (Hst : s_evaluated st' = i :: s_evaluated st).
    { unfold st'. destruct schema; [rewrite s_evaluated_absorb; reflexivity|].
      destruct (arr_unevaluated_items s) as [[|]|]; reflexivity. }
    assert (Hf : s_failed st' = s_failed st || match schema with
           | Some run => failed (run (p ++ [Index i]) v)
           | None => match arr_unevaluated_items s with Some false => true | _ => false end end).
    { unfold st'. destruct schema; [rewrite s_failed_absorb; reflexivity|].
      destruct (arr_unevaluated_items s) as [[|]|]; cbn; rewrite ?orb_false_r, ?orb_true_r; reflexivity. }
    rewrite Hf, <- orb_assoc. f_equal. f_equal.
    rewrite Hst. clear - Hi. induction l as [|[j w] l IHl]; cbn [existsb]; [reflexivity|].
    cbn [map fst] in Hi. rewrite IHl by (intros Q; apply Hi; right; exact Q). f_equal.
    cbn [fst]. unfold mem_index. cbn [existsb]. destruct (N.eqb_spec j i) as [->|]; [|reflexivity].
    exfalso. apply Hi. left. reflexivity.
Qed.

Lemma enumerate_nodup : forall X (l : list X) i, NoDup (map fst (enumerate_from i l)).
Proof.
  intros X l. induction l as [|x l IH]; intros i; cbn; [constructor|]. constructor; [|apply IH].
  assert (K : forall j, In j (map fst (enumerate_from (i + 1) l)) -> i < j).
  { clear. revert i. induction l as [|x l IH]; intros i j H; cbn in H; [contradiction|].
    destruct H as [<-|H]; [lia|]. specialize (IH _ _ H). lia. }
  intros H. specialize (K _ H). lia.
Qed.

(** Stage by stage. *)
Definition array_items_bad {V} (s : array_schema V) (p : path) (values : list V) : bool :=
  match arr_prefix_items s with
  | Some prefix =>
      existsb (prefix_bad s prefix match overflow_item s with Some (Resolved run) => Some run | _ => None end p) (enumerate values)
  | None => match arr_items s with
            | Some (Resolved run) => existsb (fun iv => failed (run (p ++ [Index (fst iv)]) (snd iv))) (enumerate values)
            | _ => false
            end
  end.

Lemma array_ite_failed : forall V R (s : array_schema V) p values st,
  s_failed (array_ite R s p values st)
  = s_failed st || match arr_ite s with Some i => ite_fails i p values | None => false end.
Proof.
  intros V R s p values st. unfold array_ite. destruct (arr_ite s) as [i|]; [|rewrite orb_false_r; reflexivity].
  rewrite <- (failed_ite _ R i p values). destruct (validate_if_then_else R i p values); [cbn; rewrite orb_false_r; reflexivity|].
  rewrite s_failed_absorb. reflexivity.
Qed.
Lemma array_ite_evaluated : forall V R (s : array_schema V) p values st,
  s_evaluated (array_ite R s p values st) = s_evaluated st.
Proof.
  intros V R s p values st. unfold array_ite. destruct (arr_ite s) as [i|]; [|reflexivity].
  destruct (validate_if_then_else R i p values); [reflexivity|]. rewrite s_evaluated_absorb. reflexivity.
Qed.

Lemma resolve_once_run : forall T R (i : option (item T)),
  fst (resolve_once R i) = match i with Some (Resolved run) => Some run | _ => None end.
Proof. intros T R [[run| |]|]; reflexivity. Qed.

Lemma existsb_ext_in' : forall X (f g : X -> bool) l, (forall x, In x l -> f x = g x) -> existsb f l = existsb g l.
Proof.
  intros X f g l. induction l as [|x l IH]; intros H; cbn; [reflexivity|].
  rewrite H, IH; auto; [intros; apply H; right; assumption|left; reflexivity].
Qed.

Lemma array_items_failed : forall V R (s : array_schema V) p values st,
  s_failed (array_items R s p values st) = s_failed st || array_items_bad s p values.
Proof.
  intros V R s p values st. unfold array_items, array_items_bad.
  destruct (arr_prefix_items s) as [prefix|].
  - destruct (Nat.ltb_spec (length prefix) (length values)) as [L|L].
    + pose proof (resolve_once_run V R (overflow_item s)) as K. destruct (resolve_once R (overflow_item s)) as [o ds].
      cbn [fst] in K. rewrite <- K. rewrite (fold_failed _ _ _ _ _ (prefix_step_failed V R s prefix o p)). reflexivity.
    + rewrite (fold_failed _ _ _ _ _ (prefix_step_failed V R s prefix None p)). cbn [s_failed add_diags]. f_equal.
      apply existsb_ext_in'. intros [i v] Hi. apply enumerate_in in Hi. unfold prefix_bad.
      destruct (nth_error prefix (N.to_nat i)) as [[run| |]|] eqn:E; try reflexivity.
      apply nth_error_None in E. assert (N.to_nat i < length values)%nat by (apply nth_error_Some; congruence). lia.
  - pose proof (resolve_once_run V R (arr_items s)) as K. destruct (resolve_once R (arr_items s)) as [[run|] ds]; cbn [fst] in K.
    + rewrite (fold_failed _ _ _ _ _ (items_step_failed V run p)).
      destruct (arr_items s) as [[run'| |]|]; try discriminate. injection K as <-. reflexivity.
    + destruct (arr_items s) as [[run'| |]|]; try discriminate; cbn; rewrite orb_false_r; reflexivity.
Qed.

(** The indices the item keywords evaluate. *)
Definition array_items_evaluate {V} (s : array_schema V) (i : N) : bool :=
  match arr_prefix_items s with
  | Some prefix => match nth_error prefix (N.to_nat i), overflow_item s, arr_additional_items s with
                   | Some _, _, _ => true
                   | None, Some (Resolved _), _ => true
                   | None, _, Some false => has_unevaluated_items s
                   | _, _, _ => false
                   end
  | None => match arr_items s with Some (Resolved _) => true | _ => false end
  end.

Lemma existsb_self : forall V (adds : N * V -> list N) i v values,
  In (i, v) (enumerate values) -> (forall iv, adds iv = [fst iv] \/ adds iv = []) ->
  existsb (fun iv => mem_index i (adds iv)) (enumerate values) = negb (is_nil (adds (i, v))).
Proof.
  intros V adds i v values HI HA. destruct (existsb _ _) eqn:E; symmetry.
  - apply existsb_exists in E. destruct E as ([j w] & Hj & E). destruct (HA (j, w)) as [K|K]; rewrite K in E; [|discriminate].
    cbn in E. rewrite orb_false_r in E. apply N.eqb_eq in E. subst j.
    assert (w = v) by (apply enumerate_in in HI, Hj; congruence). subst w. rewrite K. reflexivity.
  - destruct (HA (i, v)) as [K|K]; rewrite K; [|reflexivity]. exfalso.
    assert (X : existsb (fun iv => mem_index i (adds iv)) (enumerate values) = true).
    { apply existsb_exists. exists (i, v). split; [exact HI|]. rewrite K. cbn. rewrite N.eqb_refl. reflexivity. }
    congruence.
Qed.

Lemma array_items_evaluated : forall V R (s : array_schema V) p values st i v,
  s_evaluated st = [] -> nth_error values (N.to_nat i) = Some v ->
  mem_index i (s_evaluated (array_items R s p values st)) = array_items_evaluate s i.
Proof.
  intros V R s p values st i v H0 HI. apply enumerate_in in HI. unfold array_items, array_items_evaluate.
  destruct (arr_prefix_items s) as [prefix|].
  - assert (K : forall o ds, mem_index i (s_evaluated (fold_left (prefix_step R s prefix o p) (enumerate values) (add_diags ds st)))
               = negb (is_nil (prefix_adds s prefix o (i, v)))).
    { intros o ds. rewrite (fold_evaluated _ _ _ _ _ (prefix_step_evaluated V R s prefix o p)).
      cbn [s_evaluated add_diags]. rewrite H0. cbn [mem_index existsb orb]. apply existsb_self; [exact HI|].
      intros iv. unfold prefix_adds. destruct (nth_error _ _), o, (arr_additional_items s) as [[|]|];
        try destruct (has_unevaluated_items s); auto. }
    destruct (Nat.ltb_spec (length prefix) (length values)) as [L|L].
    + pose proof (resolve_once_run V R (overflow_item s)) as Q. destruct (resolve_once R (overflow_item s)) as [o ds].
      cbn [fst] in Q. subst o. rewrite K. unfold prefix_adds. cbn [fst].
      destruct (nth_error _ _), (overflow_item s) as [[run| |]|], (arr_additional_items s) as [[|]|];
        try reflexivity; destruct (has_unevaluated_items s); reflexivity.
    + rewrite K. unfold prefix_adds. cbn [fst]. destruct (nth_error prefix (N.to_nat i)) eqn:E; [reflexivity|].
      apply nth_error_None in E. apply enumerate_in in HI.
      assert (N.to_nat i < length values)%nat by (apply nth_error_Some; congruence). lia.
  - pose proof (resolve_once_run V R (arr_items s)) as Q. destruct (resolve_once R (arr_items s)) as [[run|] ds]; cbn [fst] in Q.
    + rewrite (fold_evaluated _ _ _ _ _ (items_step_evaluated V run p)). rewrite H0. change (mem_index i []) with false. cbn [orb].
      rewrite (existsb_self V (fun iv => [fst iv]) i v values HI) by auto.
      destruct (arr_items s) as [[run'| |]|]; try discriminate. reflexivity.
    + cbn. rewrite H0. destruct (arr_items s) as [[run'| |]|]; try discriminate; reflexivity.
Qed.

Definition array_contains_bad {V} (s : array_schema V) (p : path) (values : list V) : bool :=
  match arr_contains s with
  | Some (Resolved run) =>
      let n := N.of_nat (length (contained run p (enumerate values))) in
      (n <? match arr_min_contains s with Some m => m | None => 1 end)
      || match arr_max_contains s with Some m => m <? n | None => false end
  | _ => false
  end.

Lemma array_contains_failed : forall V R (s : array_schema V) p values st,
  s_failed (array_contains R s p values st) = s_failed st || array_contains_bad s p values.
Proof.
  intros V R s p values st. unfold array_contains, array_contains_bad.
  pose proof (resolve_once_run V R (arr_contains s)) as K. destruct (resolve_once R (arr_contains s)) as [[run|] ds]; cbn [fst] in K.
  - destruct (arr_contains s) as [[run'| |]|]; try discriminate. injection K as <-.
    set (min := match arr_min_contains s with Some m => m | None => 1 end).
    set (n := N.of_nat (length (contained run p (enumerate values)))).
    set (full := _ || has_unevaluated_items s).
    assert (H : (fst (count_contains run p full min (enumerate values) 0 []) <? min) = (n <? min)
                /\ (full = true -> fst (count_contains run p full min (enumerate values) 0 []) = n)).
    { destruct full.
      - rewrite count_contains_full. cbn [fst]. fold n. rewrite N.add_0_l. auto.
      - destruct (count_contains_short V run p min (enumerate values) 0 []) as [_ B]. fold n in B. rewrite N.add_0_l in B.
        split; [exact B|discriminate]. }
    destruct H as [H1 H2]. destruct (count_contains run p full min (enumerate values) 0 []) as [count found]. cbn [fst] in *.
    cbn [s_failed]. rewrite H1.
    destruct (arr_max_contains s) as [max|].
    + rewrite (H2 eq_refl). destruct (n <? min), (max <? n); cbn; rewrite ?orb_true_r, ?orb_false_r; reflexivity.
    + destruct (n <? min); cbn; rewrite ?orb_true_r, ?orb_false_r; reflexivity.
  - destruct (arr_contains s) as [[run'| |]|]; try discriminate; cbn; rewrite orb_false_r; reflexivity.
Qed.

Lemma array_contains_evaluated : forall V R (s : array_schema V) p values st i,
  has_unevaluated_items s = true ->
  mem_index i (s_evaluated (array_contains R s p values st))
  = mem_index i (s_evaluated st)
    || match arr_contains s with Some (Resolved run) => mem_index i (contained run p (enumerate values)) | _ => false end.
Proof.
  intros V R s p values st i HU. unfold array_contains.
  pose proof (resolve_once_run V R (arr_contains s)) as K. destruct (resolve_once R (arr_contains s)) as [[run|] ds]; cbn [fst] in K.
  - destruct (arr_contains s) as [[run'| |]|]; try discriminate. injection K as <-.
    rewrite HU, orb_true_r, count_contains_full. cbn [app s_evaluated].
    set (st1 := if _ <? _ then _ else st).
    assert (E1 : s_evaluated st1 = s_evaluated st) by (unfold st1; destruct (_ <? _); reflexivity). clearbody st1.
    assert (E2 : s_evaluated match arr_max_contains s with Some max => if max <? 0 + N.of_nat (length (contained run p (enumerate values)))
              then fail ArrayMaxContains Error st1 else st1 | None => st1 end = s_evaluated st).
    { destruct (arr_max_contains s); [destruct (_ <? _)|]; cbn; exact E1. }
    rewrite E2. unfold mem_index. rewrite existsb_app. apply orb_comm.
  - destruct (arr_contains s) as [[run'| |]|]; try discriminate; cbn; rewrite orb_false_r; reflexivity.
Qed.

Lemma array_values_failed : forall V R (s : array_schema V) values st,
  s_failed (array_values R s values st)
  = s_failed st || match arr_const s with Some f => negb (f values) | None => false end
    || match arr_enum s with Some (f, _) => negb (f values) | None => false end.
Proof.
  intros V R s values st. unfold array_values.
  destruct (arr_const s) as [f|], (arr_enum s) as [[g one]|];
    rewrite ?s_failed_check_value; cbn [option_map update_evidence s_failed fst]; rewrite ?s_failed_check_value;
    cbn [option_map update_evidence s_failed fst]; rewrite ?orb_false_r; reflexivity.
Qed.

Lemma array_sizes_failed : forall V same R (s : array_schema V) values st,
  s_failed (array_sizes same R s values st)
  = s_failed st || match arr_max_items s with Some m => m <? N.of_nat (length values) | None => false end
    || match arr_min_items s with Some m => N.of_nat (length values) <? m | None => false end
    || match arr_unique_items s with Some true => negb (is_nil (duplicated same values)) | _ => false end.
Proof.
  intros V same R s values st. unfold array_sizes.
  destruct (arr_unique_items s) as [[|]|]; destruct (duplicated same values); cbn [s_failed is_nil negb];
    rewrite ?s_failed_check; unfold violates; destruct (arr_max_items s), (arr_min_items s);
    rewrite ?negb_involutive, ?orb_false_r, ?orb_true_r; reflexivity.
Qed.

Lemma validate_array_failed : forall V same R (s : array_schema V) p values,
  exists r, validate_array same R s p values = Some r
    /\ failed r = s_failed (array_sizes same R s values (array_values R s values (array_unevaluated R s p values
                    (array_contains R s p values (array_items R s p values (array_ite R s p values (mkState false [] no_locations [])))))))
                  || applicators_fail R (arr_applicators s) p values.
Proof.
  intros. unfold validate_array. cbv zeta.
  match goal with |- exists r, merge_adjacent ?R ?a ?p ?x ?b = Some r /\ _ =>
    destruct (merge_adjacent_failed _ R a p x b) as (r & Hr & Hf) end.
  exists r. split; [exact Hr|]. rewrite Hf, failed_finish. reflexivity.
Qed.

(** ** Tables *)

Lemma declared_fold : forall V R p (v : V) l st a,
  s_failed (fst (fold_left (declared_step R p v) l (st, a)))
  = s_failed st || existsb (fun i => item_fails (Some i) p v) l.
Proof.
  intros V R p v l. induction l as [|i l IH]; intros st [[ap m] ch]; cbn [fold_left existsb].
  - cbn. rewrite orb_false_r. reflexivity.
  - destruct i as [run| |]; cbn [declared_step]; rewrite IH; cbn [item_fails s_failed add_diags];
      rewrite ?s_failed_absorb, ?orb_assoc, ?orb_false_r; reflexivity.
Qed.

Definition is_false (o : option bool) : bool := match o with Some false => true | _ => false end.

Definition rest_bad {V} (strict : bool) (s : table_schema V) (evaluated : bool) : bool :=
  negb (evaluated && negb (is_false (tbl_additional s))) && negb (strict_violation s strict)
  && negb (allows_any_additional s strict).

Lemma unmatched_rest_failed : forall V R strict (s : table_schema V) ks k st,
  s_failed (unmatched_rest R strict s ks k st) = s_failed st || rest_bad strict s (mem_key k ks).
Proof.
  intros V R strict s ks k st. unfold unmatched_rest, rest_bad.
  fold (is_false (tbl_additional s)).
  destruct (mem_key k ks && negb (is_false (tbl_additional s))); cbn [negb andb]; [rewrite orb_false_r; reflexivity|].
  destruct (strict_violation s strict); cbn [negb andb]; [cbn; rewrite orb_false_r; reflexivity|].
  destruct (allows_any_additional s strict); cbn [negb andb]; [|cbn; rewrite orb_true_r; reflexivity].
  rewrite orb_false_r. destruct strict; reflexivity.
Qed.

Definition unmatched_bad {V} (strict : bool) (s : table_schema V) (evaluated : bool) (p : path) (v : V) : bool :=
  item_fails (option_map fst (tbl_additional_schema s)) p v
  || if negb evaluated
        && negb match tbl_additional_schema s with Some (Resolved _, _) => true | _ => false end
        && negb (is_some (tbl_additional s))
     then match tbl_unevaluated_schema s with
          | Some (Resolved run) => failed (run p v)
          | _ => is_false (tbl_unevaluated s) || rest_bad strict s evaluated
          end
     else rest_bad strict s evaluated.

Lemma unmatched_step_failed : forall V R strict (s : table_schema V) ks p k v st,
  s_failed (unmatched_step R strict s ks p k v st) = s_failed st || unmatched_bad strict s (mem_key k ks) p v.
Proof.
  intros V R strict s ks p k v st. unfold unmatched_step, unmatched_bad.
  set (A := match tbl_additional_schema s with Some (Resolved run, deprecated) => _ | Some (ResolveError, _) => _ | _ => (st, false) end).
  assert (HA : s_failed (fst A) = s_failed st || item_fails (option_map fst (tbl_additional_schema s)) p v
               /\ snd A = match tbl_additional_schema s with Some (Resolved _, _) => true | _ => false end).
  { unfold A. destruct (tbl_additional_schema s) as [[[run| |] d]|]; cbn [fst snd option_map item_fails].
    - rewrite s_failed_absorb. split; [|reflexivity]. destruct (is_assertion_success _); reflexivity.
    - cbn. rewrite orb_false_r. auto.
    - rewrite orb_false_r. auto.
    - rewrite orb_false_r. auto. }
  destruct A as [st' validated]. cbn [fst snd] in HA. destruct HA as [HA HV]. subst validated.
  destruct (negb (mem_key k ks) && _ && _).
  - destruct (tbl_unevaluated_schema s) as [[run| |]|].
    + rewrite s_failed_absorb, HA, orb_assoc. reflexivity.
    + destruct (tbl_unevaluated s) as [[|]|]; cbn [is_false orb]; rewrite ?unmatched_rest_failed; cbn [s_failed add_diags fail];
        rewrite ?HA, ?orb_assoc, ?orb_true_r; reflexivity.
    + destruct (tbl_unevaluated s) as [[|]|]; cbn [is_false orb]; rewrite ?unmatched_rest_failed; cbn [s_failed add_diags fail];
        rewrite ?HA, ?orb_assoc, ?orb_true_r; reflexivity.
    + destruct (tbl_unevaluated s) as [[|]|]; cbn [is_false orb]; rewrite ?unmatched_rest_failed; cbn [s_failed add_diags fail];
        rewrite ?HA, ?orb_assoc, ?orb_true_r; reflexivity.
  - rewrite unmatched_rest_failed, HA, orb_assoc. reflexivity.
Qed.

Definition declared_items {V} (s : table_schema V) (k : str) : list (item V) :=
  match find_property k (tbl_properties s) with Some i => [i] | None => [] end ++ matching_patterns s k.

Definition entry_bad {V} (strict : bool) (s : table_schema V) (ks : list str) (p : path) (kv : str * V) : bool :=
  let '(k, v) := kv in
  if is_nil (declared_items s k)
  then is_some (tbl_patterns s) && negb (allows_additional s strict)
       || unmatched_bad strict s (mem_key k ks) (p ++ [Key k]) v
  else existsb (fun i => item_fails (Some i) (p ++ [Key k]) v) (declared_items s k).

Lemma entry_step_failed : forall V R strict (s : table_schema V) ks p st kv,
  s_failed (entry_step R strict s ks p st kv) = s_failed st || entry_bad strict s ks p kv.
Proof.
  intros V R strict s ks p st [k v]. unfold entry_step, entry_bad. cbv zeta. fold (declared_items s k).
  pose proof (declared_fold V R (p ++ [Key k]) v (declared_items s k) st (false, true, no_evidence)) as HD.
  destruct (fold_left (declared_step R (p ++ [Key k]) v) (declared_items s k) (st, (false, true, no_evidence)))
    as [st1 [[ap m] ch]]. cbn [fst] in HD.
  set (st2 := match tbl_patterns s with Some _ => _ | None => st1 end).
  assert (H2 : s_failed st2 = s_failed st1 || (is_some (tbl_patterns s) && (is_nil (declared_items s k) && negb (allows_additional s strict)))).
  { unfold st2. destruct (tbl_patterns s); [|cbn; rewrite orb_false_r; reflexivity].
    rewrite s_failed_check, negb_involutive. reflexivity. }
  clearbody st2.
  destruct (is_nil (declared_items s k)) eqn:E; cbn [negb].
  - rewrite unmatched_step_failed, H2, HD.
    assert (Z : existsb (fun i => item_fails (Some i) (p ++ [Key k]) v) (declared_items s k) = false).
    { destruct (declared_items s k); [reflexivity|discriminate]. }
    rewrite Z, orb_false_r, orb_assoc. reflexivity.
  - assert (Q : s_failed st2 = s_failed st || existsb (fun i => item_fails (Some i) (p ++ [Key k]) v) (declared_items s k)).
    { rewrite H2, HD. cbn [andb]. rewrite andb_false_r, orb_false_r. reflexivity. }
    destruct ap; [destruct (m && root_singleton_matched ch)|]; cbn [s_failed update_evidence]; exact Q.
Qed.

Lemma require_keys_failed : forall keys required st,
  s_failed (require_keys keys required st) = s_failed st || existsb (fun k => negb (mem_key k keys)) required.
Proof.
  intros keys required st. unfold require_keys. apply fold_failed. intros st' k.
  destruct (mem_key k keys); cbn; rewrite ?orb_false_r, ?orb_true_r; reflexivity.
Qed.

Lemma require_schema_failed : forall V R (i : item (table V)) p t st,
  s_failed (require_schema R i p t st) = s_failed st || item_fails (Some i) p t.
Proof.
  intros V R [run| |] p t st; cbn [require_schema item_fails]; rewrite ?s_failed_absorb; cbn; rewrite ?orb_false_r; reflexivity.
Qed.

Lemma table_required_failed : forall V R (s : table_schema V) p keys st,
  s_failed (table_required R s p keys st)
  = s_failed st || match tbl_required s with Some l => existsb (fun k => negb (mem_key k keys)) l | None => false end.
Proof.
  intros V R s p keys st. unfold table_required. destruct (tbl_required s); [|rewrite orb_false_r; reflexivity].
  apply fold_failed. intros st' k. destruct (mem_key k keys); cbn; rewrite ?orb_false_r, ?orb_true_r; reflexivity.
Qed.

Lemma table_sizes_failed : forall V R (s : table_schema V) t st,
  s_failed (table_sizes R s t st)
  = s_failed st || match tbl_max s with Some m => m <? N.of_nat (length t) | None => false end
    || match tbl_min s with Some m => N.of_nat (length t) <? m | None => false end.
Proof.
  intros V R s t st. unfold table_sizes. rewrite !s_failed_check. unfold violates.
  destruct (tbl_max s), (tbl_min s); rewrite ?negb_involutive; reflexivity.
Qed.

Lemma table_dependencies_failed : forall V R (s : table_schema V) p t st,
  s_failed (table_dependencies R s p t st)
  = s_failed st || match tbl_dependencies s with
      | Some deps => existsb (fun kd => mem_key (fst kd) (map fst t) &&
            match snd kd with
            | DependsOn l => existsb (fun k => negb (mem_key k (map fst t))) l
            | DependsSchema i => item_fails (Some (t_item i)) p t
            end) deps
      | None => false
      end.
Proof.
  intros V R s p t st. unfold table_dependencies. destruct (tbl_dependencies s); [|rewrite orb_false_r; reflexivity].
  apply fold_failed. intros st' [k d]. cbn [fst snd]. destruct (mem_key k (map fst t)); cbn [andb]; [|rewrite orb_false_r; reflexivity].
  destruct d; [apply require_keys_failed|apply require_schema_failed].
Qed.

Lemma table_dependent_required_failed : forall V (s : table_schema V) t st,
  s_failed (table_dependent_required s t st)
  = s_failed st || match tbl_dependent_required s with
      | Some deps => existsb (fun kd => mem_key (fst kd) (map fst t) && existsb (fun k => negb (mem_key k (map fst t))) (snd kd)) deps
      | None => false
      end.
Proof.
  intros V s t st. unfold table_dependent_required. destruct (tbl_dependent_required s); [|rewrite orb_false_r; reflexivity].
  apply fold_failed. intros st' [k d]. cbn [fst snd]. destruct (mem_key k (map fst t)); cbn [andb]; [|rewrite orb_false_r; reflexivity].
  apply require_keys_failed.
Qed.

Lemma table_dependent_schemas_failed : forall V R (s : table_schema V) p t st,
  s_failed (table_dependent_schemas R s p t st)
  = s_failed st || match tbl_dependent_schemas s with
      | Some deps => existsb (fun kd => mem_key (fst kd) (map fst t) && item_fails (Some (t_item (snd kd))) p t) deps
      | None => false
      end.
Proof.
  intros V R s p t st. unfold table_dependent_schemas. destruct (tbl_dependent_schemas s); [|rewrite orb_false_r; reflexivity].
  apply fold_failed. intros st' [k d]. cbn [fst snd]. destruct (mem_key k (map fst t)); cbn [andb]; [|rewrite orb_false_r; reflexivity].
  apply require_schema_failed.
Qed.

Lemma table_values_failed : forall V R (s : table_schema V) t st,
  s_failed (table_values R s t st)
  = s_failed st || match tbl_const s with Some f => negb (f t) | None => false end
    || match tbl_enum s with Some (f, _) => negb (f t) | None => false end.
Proof.
  intros V R s t st. unfold table_values.
  destruct (tbl_const s) as [f|], (tbl_enum s) as [[g one]|];
    rewrite ?s_failed_check_value; cbn [option_map update_evidence s_failed fst]; rewrite ?s_failed_check_value;
    cbn [option_map update_evidence s_failed fst]; rewrite ?orb_false_r; reflexivity.
Qed.

Lemma table_names_failed : forall V R (s : table_schema V) p keys st,
  s_failed (table_names R s p keys st)
  = s_failed st || match tbl_property_names s with
      | Some (Resolved run) => existsb (fun k => failed (run p k)) keys
      | _ => false
      end.
Proof.
  intros V R s p keys st. unfold table_names.
  destruct (tbl_property_names s) as [[run| |]|]; cbn [resolve_once].
  - rewrite (fold_failed _ (fun st k => absorb (run p k) st) (fun k => failed (run p k))); [reflexivity|].
    intros. apply s_failed_absorb.
  - cbn. rewrite orb_false_r. reflexivity.
  - cbn. rewrite orb_false_r. reflexivity.
  - rewrite (fold_failed _ (fun st k => absorb (validate_key_empty_rule R k) st) (fun _ => false)).
    + cbn. f_equal. induction keys; cbn; auto.
    + intros st' k. rewrite s_failed_absorb. unfold validate_key_empty_rule. destruct (is_nil k); reflexivity.
Qed.

Lemma filter_table_strict_failed : forall e, failed (filter_table_strict e) = assertion_failed e.
Proof. intros e. unfold filter_table_strict. destruct (is_nil _), (assertion_failed e) eqn:E; cbn; auto. Qed.

Lemma validate_table_failed : forall V R strict (s : table_schema V) p t,
  exists r, validate_table R strict s p t = Some r
  /\ failed r =
     s_failed (table_names R s p (map fst t) (table_values R s t (table_dependent_schemas R s p t
        (table_dependent_required s t (table_dependencies R s p t (table_sizes R s t (table_required R s p (map fst t)
          (fold_left (entry_step R strict s (collect_evaluated s t) p) t (mkState false [] no_locations [])))))))))
     || match tbl_ite s with Some i => ite_fails i p t | None => false end
     || applicators_fail R (tbl_applicators s) p t.
Proof.
  intros V R strict s p t. unfold validate_table. cbv zeta.
  set (st := table_names R s p (map fst t) _).
  set (st1 := if is_nil (s_diags st) && tbl_deprecated s then _ else st).
  assert (H1 : s_failed st1 = s_failed st) by (unfold st1; destruct (is_nil (s_diags st) && tbl_deprecated s); reflexivity).
  clearbody st1. rewrite <- H1. clear H1 st.
  set (I0 := match tbl_ite s with Some i => _ | None => (st1, mkValid (collect_evaluated s t) [] no_evidence) end).
  assert (HI : s_failed (fst I0) = s_failed st1 || match tbl_ite s with Some i => ite_fails i p t | None => false end).
  { unfold I0. destruct (tbl_ite s) as [i|]; [|cbn; rewrite orb_false_r; reflexivity].
    rewrite <- (failed_ite _ R i p t). destruct (validate_if_then_else R i p t); [cbn; rewrite orb_false_r; reflexivity|].
    cbn [fst]. rewrite s_failed_absorb. reflexivity. }
  destruct I0 as [st2 locations]. cbn [fst] in HI. rewrite <- HI. clear HI st1.
  destruct (applicators_failed _ R (tbl_applicators s) p t) as (r & -> & <-).
  destruct r as [v|e]; eexists; (split; [reflexivity|]); rewrite failed_merge, failed_finish; [reflexivity|].
  rewrite filter_table_strict_failed. reflexivity.
Qed.
