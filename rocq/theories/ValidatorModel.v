(** Model of the schema validator (crates/tombi-validator/src).  Definitions only.

    A schema is modelled by what validating an instance against it returns: a function from the path and
    the instance to a result.  Resolving references, projecting a schema to an instance type, cycle
    detection and comment directives are outside: their outcomes are arguments ([item], [sub],
    [c_schemas], [rules]).  Ranges and messages of diagnostics are dropped; level and code are kept. *)
From Coq Require Import String Ascii List NArith ZArith Bool.
From Verif Require Import Base.
Import ListNotations.
Open Scope N_scope.
Open Scope list_scope.

(** ** Diagnostics *)

(** crates/tombi-validator/src/diagnostic.rs:170-250 [code]; the codes used below. *)
Inductive code :=
| UnusedNoqa | Deprecated | Const | Enum | TypeMismatch | Nothing | Resolution
| OneOfNoMatch | OneOfMultipleMatch | NotSchemaMatch
| IntegerMaximum | IntegerMinimum | IntegerExclusiveMaximum | IntegerExclusiveMinimum | IntegerMultipleOf
| StringMaxLength | StringMinLength | StringFormat | StringPattern
| ArrayAdditionalItems | ArrayContains | ArrayMinContains | ArrayMaxContains | ArrayUnevaluatedItemNotAllowed
| ArrayMaxValues | ArrayMinValues | ArrayUniqueValues
| KeyEmpty | KeyPattern | KeyNotAllowed | UnevaluatedPropertyNotAllowed | TableStrictAdditionalKeys | TableKeyRequired
| TableMaxKeys | TableMinKeys | TableDependencyRequired.

(** crates/tombi-severity-level: [SeverityLevel]. *)
Inductive level := Error | Warn | Off.

(** crates/tombi-diagnostic [Diagnostic]: [is_error] is [level() == ERROR]. *)
Record diag := mkDiag { is_error : bool; d_code : code }.

(** The lint configuration in force at an instance: the level of each rule, whether the rule is disabled
    by a comment directive (so that [handle_unused_noqa], validate.rs:366-417, warns when the rule has
    nothing to say), and whether [schema-resolution] is reported. *)
Record rules := mkRules { level_of : code -> level; noqa_of : code -> bool; resolution_shown : bool }.

(** crates/tombi-validator/src/diagnostic.rs:255-273 [push_diagnostic_with_level]. *)
Definition push (l : level) (c : code) (ds : list diag) : list diag :=
  match l with
  | Error => ds ++ [mkDiag true c]
  | Warn => ds ++ [mkDiag false c]
  | Off => ds
  end.

(** crates/tombi-validator/src/validate.rs:366-417 [handle_unused_noqa], called only when the rule is
    disabled. *)
Definition unused_noqa (R : rules) (c : code) (ds : list diag) : list diag :=
  if noqa_of R c then push Warn UnusedNoqa ds else ds.

(** crates/tombi-validator/src/validate.rs:222-261 [handle_deprecated] and :263-307
    [handle_deprecated_value]. *)
Definition handle_deprecated (R : rules) (deprecated : bool) (ds : list diag) : list diag :=
  if deprecated then push (level_of R Deprecated) Deprecated ds else unused_noqa R Deprecated ds.

(** crates/tombi-validator/src/validate.rs:444-454 [schema_resolution_diagnostic]. *)
Definition resolution_diagnostics (R : rules) (errors : nat) : list diag :=
  if resolution_shown R then repeat (mkDiag false Resolution) errors else [].

(** ** Match evidence *)

(** crates/tombi-accessor [Accessor]. *)
Inductive accessor := Key (k : str) | Index (i : N).
Definition accessor_eqb (a b : accessor) : bool :=
  match a, b with
  | Key k, Key k' => str_eqb k k'
  | Index i, Index i' => i =? i'
  | _, _ => false
  end.
Fixpoint path_eqb (a b : list accessor) : bool :=
  match a, b with
  | [], [] => true
  | x :: a', y :: b' => accessor_eqb x y && path_eqb a' b'
  | _, _ => false
  end.
Notation path := (list accessor) (only parsing).

(** [IndexSet::insert] and [IndexSet::extend]: the elements in order of first insertion. *)
Definition set_insert {X} (eqb : X -> X -> bool) (x : X) (s : list X) : list X :=
  if existsb (eqb x) s then s else s ++ [x].
Definition set_extend {X} (eqb : X -> X -> bool) (s t : list X) : list X :=
  fold_left (fun s x => set_insert eqb x s) t s.

(** crates/tombi-validator/src/match_evidence.rs:3-16.  The [u32] counters do not overflow here. *)
Record evidence := mkEvidence {
  root_value : N; matched_root_value : N;
  root_singleton : N; matched_root_singleton : N;
  type_assertions : N; matched_type : N;
  primary_value : list path; declared_child_value : list path; declared_child : list path;
  required_locations : list path; fallback_child_value : list path }.
Definition no_evidence : evidence := mkEvidence 0 0 0 0 0 0 [] [] [] [] [].

(** crates/tombi-validator/src/match_evidence.rs:20-36. *)
Definition merge_evidence (a b : evidence) : evidence :=
  mkEvidence (root_value a + root_value b) (matched_root_value a + matched_root_value b)
    (root_singleton a + root_singleton b) (matched_root_singleton a + matched_root_singleton b)
    (type_assertions a + type_assertions b) (matched_type a + matched_type b)
    (set_extend path_eqb (primary_value a) (primary_value b))
    (set_extend path_eqb (declared_child_value a) (declared_child_value b))
    (set_extend path_eqb (declared_child a) (declared_child b))
    (set_extend path_eqb (required_locations a) (required_locations b))
    (set_extend path_eqb (fallback_child_value a) (fallback_child_value b)).

(** crates/tombi-validator/src/match_evidence.rs:41-52. *)
Definition merge_descendant (a b : evidence) : evidence :=
  mkEvidence (root_value a) (matched_root_value a) (root_singleton a) (matched_root_singleton a)
    (type_assertions a) (matched_type a)
    (set_extend path_eqb (primary_value a) (primary_value b))
    (set_extend path_eqb (declared_child_value a) (declared_child_value b))
    (set_extend path_eqb (declared_child a) (declared_child b))
    (set_extend path_eqb (required_locations a) (required_locations b))
    (set_extend path_eqb (fallback_child_value a) (fallback_child_value b)).

(** crates/tombi-validator/src/match_evidence.rs:55-62. *)
Definition mark_root_value (matched singleton : bool) (e : evidence) : evidence :=
  let one := if matched then 1 else 0 in
  mkEvidence (root_value e + 1) (matched_root_value e + one)
    (root_singleton e + if singleton then 1 else 0) (matched_root_singleton e + if singleton then one else 0)
    (type_assertions e) (matched_type e) (primary_value e) (declared_child_value e) (declared_child e)
    (required_locations e) (fallback_child_value e).

(** crates/tombi-validator/src/match_evidence.rs:65-68. *)
Definition mark_type (matched : bool) (e : evidence) : evidence :=
  mkEvidence (root_value e) (matched_root_value e) (root_singleton e) (matched_root_singleton e)
    (type_assertions e + 1) (matched_type e + if matched then 1 else 0)
    (primary_value e) (declared_child_value e) (declared_child e) (required_locations e) (fallback_child_value e).

(** crates/tombi-validator/src/match_evidence.rs:71-74. *)
Definition root_singleton_matched (e : evidence) : bool :=
  (0 <? root_singleton e) && (root_singleton e =? matched_root_singleton e).

(** crates/tombi-validator/src/match_evidence.rs:77-97. *)
Definition mark_primary (p : path) (e : evidence) : evidence :=
  mkEvidence (root_value e) (matched_root_value e) (root_singleton e) (matched_root_singleton e)
    (type_assertions e) (matched_type e) (set_insert path_eqb p (primary_value e))
    (declared_child_value e) (declared_child e) (required_locations e) (fallback_child_value e).
Definition mark_declared_child (p : path) (value_matched : bool) (e : evidence) : evidence :=
  mkEvidence (root_value e) (matched_root_value e) (root_singleton e) (matched_root_singleton e)
    (type_assertions e) (matched_type e) (primary_value e)
    (if value_matched then set_insert path_eqb p (declared_child_value e) else declared_child_value e)
    (set_insert path_eqb p (declared_child e)) (required_locations e) (fallback_child_value e).
Definition mark_required (p : path) (e : evidence) : evidence :=
  mkEvidence (root_value e) (matched_root_value e) (root_singleton e) (matched_root_singleton e)
    (type_assertions e) (matched_type e) (primary_value e) (declared_child_value e) (declared_child e)
    (set_insert path_eqb p (required_locations e)) (fallback_child_value e).
Definition mark_fallback (p : path) (e : evidence) : evidence :=
  mkEvidence (root_value e) (matched_root_value e) (root_singleton e) (matched_root_singleton e)
    (type_assertions e) (matched_type e) (primary_value e) (declared_child_value e) (declared_child e)
    (required_locations e) (set_insert path_eqb p (fallback_child_value e)).

(** crates/tombi-validator/src/match_evidence.rs:100-124: the score, compared in field order (the derived
    [Ord]). *)
Definition score (e : evidence) : list N :=
  let b (x : bool) := if x then 1 else 0 in
  let len (l : list path) := N.of_nat (length l) in
  [ b ((0 <? root_value e) && (root_value e =? matched_root_value e));
    len (primary_value e);
    b ((0 <? type_assertions e) && (type_assertions e =? matched_type e));
    len (declared_child_value e); len (declared_child e); len (required_locations e);
    len (fallback_child_value e) ].
Fixpoint compare_scores (a b : list N) : comparison :=
  match a, b with
  | x :: a', y :: b' => match x ?= y with Eq => compare_scores a' b' | c => c end
  | [], [] => Eq
  | [], _ => Lt
  | _, [] => Gt
  end.

(** [*self.match_evidence == MatchEvidence::default()]. *)
Definition is_no_evidence (e : evidence) : bool :=
  (root_value e =? 0) && (matched_root_value e =? 0) && (root_singleton e =? 0) && (matched_root_singleton e =? 0)
  && (type_assertions e =? 0) && (matched_type e =? 0)
  && match primary_value e, declared_child_value e, declared_child e, required_locations e, fallback_child_value e with
     | [], [], [], [], [] => true
     | _, _, _, _, _ => false
     end.

(** ** Results *)

(** crates/tombi-validator/src/valid.rs:1-6. *)
Record valid := mkValid { properties : list str; indices : list N; v_evidence : evidence }.
Definition no_locations : valid := mkValid [] [] no_evidence.
(** crates/tombi-validator/src/valid.rs:15-19 [merge_from]. *)
Definition merge_valid (a b : valid) : valid :=
  mkValid (set_extend str_eqb (properties a) (properties b)) (set_extend N.eqb (indices a) (indices b))
    (merge_evidence (v_evidence a) (v_evidence b)).
(** crates/tombi-validator/src/valid.rs:22-29. *)
Definition mark_property (k : str) (v : valid) : valid :=
  mkValid (set_insert str_eqb k (properties v)) (indices v) (v_evidence v).
Definition mark_index (i : N) (v : valid) : valid :=
  mkValid (properties v) (set_insert N.eqb i (indices v)) (v_evidence v).
Definition with_evidence (e : evidence) (v : valid) : valid := mkValid (properties v) (indices v) e.

(** crates/tombi-validator/src/invalid.rs:2-8. *)
Record invalid := mkInvalid {
  assertion_failed : bool; i_evidence : evidence; diagnostics : list diag; evaluated : valid }.
(** crates/tombi-validator/src/invalid.rs:18-25. *)
Definition new_invalid : invalid := mkInvalid false no_evidence [] no_locations.

Inductive result := Ok (v : valid) | Err (e : invalid).

(** crates/tombi-validator/src/invalid.rs:28-44 [combine]. *)
Definition combine (a b : invalid) : invalid :=
  let accumulator_is_empty :=
    negb (assertion_failed a) && match diagnostics a with [] => true | _ => false end
    && is_no_evidence (i_evidence a) in
  let ordering := compare_scores (score (i_evidence a)) (score (i_evidence b)) in
  if accumulator_is_empty || match ordering with Lt => true | _ => false end then b
  else match ordering with
       | Eq => mkInvalid (assertion_failed a || assertion_failed b) (i_evidence a)
                 (diagnostics a ++ diagnostics b) (merge_valid (evaluated a) (evaluated b))
       | _ => a
       end.

(** crates/tombi-validator/src/invalid.rs:47-50. *)
Definition prepend_diagnostics (ds : list diag) (e : invalid) : invalid :=
  mkInvalid (assertion_failed e) (i_evidence e) (ds ++ diagnostics e) (evaluated e).

(** crates/tombi-validator/src/invalid.rs:53-63 [From<Vec<Diagnostic>>]. *)
Definition invalid_from (ds : list diag) : invalid :=
  mkInvalid (existsb is_error ds) no_evidence ds no_locations.

(** crates/tombi-validator/src/validate.rs:456-461. *)
Definition is_assertion_success (r : result) : bool :=
  match r with Ok _ => true | Err e => negb (assertion_failed e) end.
(** crates/tombi-validator/src/validate.rs:464-471. *)
Definition match_evidence (r : result) : evidence :=
  match r with Ok v => v_evidence v | Err e => i_evidence e end.
(** crates/tombi-validator/src/validate.rs:475-487. *)
Definition mark_type_match (r : result) (has_type_assertion matched : bool) : result :=
  if has_type_assertion then
    match r with
    | Ok v => Ok (with_evidence (mark_type matched (v_evidence v)) v)
    | Err e => Err (mkInvalid (assertion_failed e) (mark_type matched (i_evidence e)) (diagnostics e) (evaluated e))
    end
  else r.

(** crates/tombi-validator/src/validate.rs:309-341 [handle_type_mismatch]. *)
Definition handle_type_mismatch (R : rules) : result :=
  Err (mkInvalid true (mark_type false no_evidence) (push (level_of R TypeMismatch) TypeMismatch []) no_locations).
(** crates/tombi-validator/src/validate.rs:345-364. *)
Definition handle_anything_schema : result := Ok no_locations.
Definition handle_nothing_schema : result := Err (invalid_from (push Error Nothing [])).

(** crates/tombi-validator/src/validate.rs:420-442. *)
Definition with_lint_diagnostics (r : result) (ds : list diag) : result :=
  match r with
  | Ok v => match ds with [] => Ok v | _ => Err (mkInvalid false no_evidence ds v) end
  | Err e => Err (prepend_diagnostics ds e)
  end.

(** crates/tombi-validator/src/validate.rs:543-565. *)
Definition merge_validation_results (a b : result) : result :=
  match a, b with
  | Ok l, Ok r => Ok (merge_valid l r)
  | Err e, Ok v | Ok v, Err e =>
      Err (mkInvalid (assertion_failed e) (i_evidence e) (diagnostics e) (merge_valid (evaluated e) v))
  | Err l, Err r =>
      Err (mkInvalid (assertion_failed l || assertion_failed r) (merge_evidence (i_evidence l) (i_evidence r))
             (diagnostics l ++ diagnostics r) (merge_valid (evaluated l) (evaluated r)))
  end.

Definition is_nil {X} (l : list X) : bool := match l with [] => true | _ => false end.

(** crates/tombi-validator/src/validate.rs:568-580. *)
Definition filter_table_strict (e : invalid) : result :=
  let ds := filter (fun d => match d_code d with TableStrictAdditionalKeys => false | _ => true end) (diagnostics e) in
  if is_nil ds && negb (assertion_failed e) then Ok (evaluated e)
  else Err (mkInvalid (assertion_failed e) (i_evidence e) ds (evaluated e)).

(** crates/tombi-validator/src/validate.rs:530-539 and the same shape at the end of every keyword check:
    success without diagnostics and without a failed assertion, otherwise [Err]. *)
Definition finish (failed : bool) (ev : evidence) (ds : list diag) (v : valid) : result :=
  if is_nil ds && negb failed then Ok v else Err (mkInvalid failed ev ds v).

(** ** Subschemas *)

(** The outcome of [resolve_schema_item] on a subschema applied to instances of type [T]: resolved (then
    validating is a function of the path and the instance), an error, or nothing. *)
Inductive item (T : Type) :=
| Resolved (run : path -> T -> result)
| ResolveError
| ResolveNone.
Arguments Resolved {T} _.
Arguments ResolveError {T}.
Arguments ResolveNone {T}.

(** A member of [oneOf]/[anyOf]/[allOf] that resolved.  [validate_resolved_schema] (validate.rs:713-853)
    returns [None] for the [null] schema and when the member is being validated already; [skipped] says
    so. *)
Record sub (T : Type) := mkSub { skipped : bool; run_sub : path -> T -> result }.
Arguments mkSub {T} _ _.
Arguments skipped {T} _.
Arguments run_sub {T} _ _ _.
Definition validate_resolved_schema {T} (s : sub T) (p : path) (x : T) : option result :=
  if skipped s then None else Some (run_sub s p x).

(** crates/tombi-validator/src/validate/not_schema.rs:11-89. *)
Definition validate_not {T} (R : rules) (schema : item T) (p : path) (x : T) : result :=
  let finish_not (matches_not_schema : bool) :=
    if matches_not_schema then
      Err (mkInvalid true no_evidence (push (level_of R NotSchemaMatch) NotSchemaMatch []) no_locations)
    else
      let ds := unused_noqa R NotSchemaMatch [] in
      if is_nil ds then Ok no_locations else Err (invalid_from ds) in
  match schema with
  | Resolved run => finish_not (is_assertion_success (run p x))
  | ResolveError =>
      match resolution_diagnostics R 1 with
      | [] => finish_not false
      | ds => Err (invalid_from ds)
      end
  | ResolveNone => finish_not false
  end.

(** crates/tombi-schema-store/src/schema/if_then_else_schema.rs [IfThenElseSchema]. *)
Record ite (T : Type) := mkIte { if_schema : item T; then_schema : option (item T); else_schema : option (item T) }.
Arguments mkIte {T} _ _ _.
Arguments if_schema {T} _.
Arguments then_schema {T} _.
Arguments else_schema {T} _.

(** crates/tombi-validator/src/validate/if_then_else.rs:22-34 [merge_if_result]. *)
Definition merge_if_result (branch if_result : result) : result :=
  match if_result with
  | Ok v => merge_validation_results (Ok v) branch
  | Err e => if negb (assertion_failed e) then merge_validation_results (Err e) branch else branch
  end.

(** crates/tombi-validator/src/validate/if_then_else.rs:10-128. *)
Definition validate_if_then_else {T} (R : rules) (s : ite T) (p : path) (x : T) : result :=
  let after (branch : option (item T)) (merge : result -> result) : result :=
    match branch with
    | None => merge (Ok no_locations)
    | Some (Resolved run) => merge (run p x)
    | Some ResolveError =>
        match resolution_diagnostics R 1 with
        | [] => merge (Ok no_locations)
        | ds => merge (Err (invalid_from ds))
        end
    | Some ResolveNone => merge (Ok no_locations)
    end in
  match if_schema s with
  | Resolved run =>
      let if_result := run p x in
      if is_assertion_success if_result
      then after (then_schema s) (fun branch => merge_if_result branch if_result)
      else after (else_schema s) (fun branch => branch)
  | ResolveError =>
      match resolution_diagnostics R 1 with [] => Ok no_locations | ds => Err (invalid_from ds) end
  | ResolveNone => Ok no_locations
  end.

(** crates/tombi-schema-store/src/schema/{one_of,any_of,all_of}_schema.rs.  [c_schemas] is the outcome of
    [resolve_and_collect_schemas_with_errors]: [None] when the list is being traversed already or locked,
    otherwise the members that resolved and the number of errors. *)
Record composite (T : Type) := mkComposite {
  c_schemas : option (list (sub T) * nat);
  c_not : option (item T);
  c_ite : option (ite T);
  c_deprecated : bool }.
Arguments mkComposite {T} _ _ _ _.
Arguments c_schemas {T} _.
Arguments c_not {T} _.
Arguments c_ite {T} _.
Arguments c_deprecated {T} _.

(** one_of.rs:29-70 and any_of.rs:29-70: the adjacent [not] and [if]/[then]/[else]: whether an assertion
    failed, the diagnostics, the evaluated locations. *)
Definition adjacent {T} (R : rules) (c : composite T) (p : path) (x : T) : bool * list diag * valid :=
  let '(failed, ds) :=
    match c_not c with
    | Some n => match validate_not R n p x with
                | Ok _ => (false, [])
                | Err e => (assertion_failed e, diagnostics e)
                end
    | None => (false, [])
    end in
  match c_ite c with
  | Some s => match validate_if_then_else R s p x with
              | Ok v => (failed, ds, merge_valid no_locations v)
              | Err e => (failed || assertion_failed e, ds ++ diagnostics e,
                          if negb (assertion_failed e) then merge_valid no_locations (evaluated e) else no_locations)
              end
  | None => (failed, ds, no_locations)
  end.

(** The results of the members that gave one, one_of.rs:122-142. *)
Fixpoint each_results {T} (subs : list (sub T)) (p : path) (x : T) : list result :=
  match subs with
  | [] => []
  | s :: subs' => match validate_resolved_schema s p x with
                  | Some r => r :: each_results subs' p x
                  | None => each_results subs' p x
                  end
  end.

(** one_of.rs:145-174: the first success of [each_results]; [None] is [unreachable!]. *)
Fixpoint pick_match (results : list result) (failed : bool) (ds : list diag) (base : valid) : option result :=
  match results with
  | [] => None
  | Ok v :: _ =>
      if is_nil ds && negb failed then Some (Ok (merge_valid v base))
      else Some (Err (mkInvalid failed no_evidence ds (merge_valid base v)))
  | Err e :: rest =>
      if negb (assertion_failed e)
      then Some (Err (mkInvalid (assertion_failed e) (i_evidence e) (ds ++ diagnostics e) (merge_valid (evaluated e) base)))
      else pick_match rest failed ds base
  end.

Definition combine_errors (results : list result) : invalid :=
  fold_left (fun a b => match b with Err e => combine a e | Ok _ => a end) results new_invalid.

(** crates/tombi-validator/src/validate/one_of.rs:16-232; [None] is a panic. *)
Definition validate_one_of {T} (R : rules) (c : composite T) (p : path) (x : T) : option result :=
  let '(failed, ds, base) := adjacent R c p x in
  match c_schemas c with
  | None => Some (finish failed no_evidence ds base)
  | Some (subs, errors) =>
      let ds := ds ++ resolution_diagnostics R errors in
      match subs with
      | [] =>
          let ds := if Nat.eqb errors 0 then push Error OneOfNoMatch ds else ds in
          Some (Err (mkInvalid (failed || Nat.eqb errors 0) no_evidence ds base))
      | _ =>
          let results := each_results subs p x in
          let valid_count := length (filter is_assertion_success results) in
          if Nat.eqb valid_count 1 then pick_match results failed ds base
          else if Nat.ltb 1 valid_count then
            Some (Err (mkInvalid true no_evidence (push (level_of R OneOfMultipleMatch) OneOfMultipleMatch ds) base))
          else
            let error := combine_errors results in
            let own := if is_nil (diagnostics error) then handle_deprecated R (c_deprecated c) [] else diagnostics error in
            Some (Err (mkInvalid (assertion_failed error) (i_evidence error) (ds ++ own) (merge_valid (evaluated error) base)))
      end
  end.

(** any_of.rs:105-134. *)
Definition any_of_step (acc : invalid * bool * list diag * valid) (r : result) : invalid * bool * list diag * valid :=
  let '(total, matched, mds, locs) := acc in
  match r with
  | Ok v => (total, true, mds, merge_valid locs v)
  | Err e =>
      if assertion_failed e then (combine total e, matched, mds, locs)
      else (total, true, mds ++ diagnostics e, merge_valid locs (evaluated e))
  end.

(** crates/tombi-validator/src/validate/any_of.rs:12-172. *)
Definition validate_any_of {T} (R : rules) (c : composite T) (p : path) (x : T) : result :=
  let '(failed, ds, base) := adjacent R c p x in
  match c_schemas c with
  | None => finish failed no_evidence ds base
  | Some (subs, errors) =>
      let ds := ds ++ resolution_diagnostics R errors in
      let '(total, matched, mds, locs) := fold_left any_of_step (each_results subs p x) (new_invalid, false, [], base) in
      if matched then
        let mds := mds ++ handle_deprecated R (c_deprecated c) [] ++ ds in
        finish failed no_evidence mds locs
      else if negb (assertion_failed total) && is_nil ds then Ok locs
      else Err (mkInvalid (assertion_failed total) (i_evidence total) (ds ++ diagnostics total)
                  (merge_valid (evaluated total) locs))
  end.

(** all_of.rs:55-70 and :101-122: one conjunct's result added to the totals. *)
Definition all_of_step (acc : bool * list diag * evidence * valid) (r : result) : bool * list diag * evidence * valid :=
  let '(failed, ds, ev, locs) := acc in
  match r with
  | Ok v => (failed, ds, ev, merge_valid locs v)
  | Err e =>
      (failed || assertion_failed e, ds ++ diagnostics e, merge_evidence ev (i_evidence e),
       if negb (assertion_failed e) then merge_valid locs (evaluated e) else locs)
  end.

(** crates/tombi-validator/src/validate/all_of.rs:12-137. *)
Definition validate_all_of {T} (R : rules) (c : composite T) (p : path) (x : T) : result :=
  match c_schemas c with
  | None => Ok no_locations
  | Some (subs, errors) =>
      let '(failed, ds, ev, locs) :=
        fold_left all_of_step (map (fun s => run_sub s p x) subs)
          (false, resolution_diagnostics R errors, no_evidence, no_locations) in
      let ds := if is_nil ds then handle_deprecated R (c_deprecated c) ds else ds in
      let '(failed, ds) :=
        match c_not c with
        | Some n => match validate_not R n p x with
                    | Ok _ => (failed, ds)
                    | Err e => (failed || assertion_failed e, ds ++ diagnostics e)
                    end
        | None => (failed, ds)
        end in
      let '(failed, ds, ev, locs) :=
        match c_ite c with
        | Some s => all_of_step (failed, ds, ev, locs) (validate_if_then_else R s p x)
        | None => (failed, ds, ev, locs)
        end in
      if is_nil ds && negb failed then Ok locs
      else Err (mkInvalid failed (merge_evidence ev (v_evidence locs)) ds locs)
  end.

(** The [oneOf]/[anyOf]/[allOf]/[not] beside a typed schema. *)
Record applicators (T : Type) := mkApplicators {
  one_of : option (composite T); any_of : option (composite T); all_of : option (composite T);
  not_schema : option (item T) }.
Arguments mkApplicators {T} _ _ _ _.
Arguments one_of {T} _.
Arguments any_of {T} _.
Arguments all_of {T} _.
Arguments not_schema {T} _.

(** crates/tombi-validator/src/validate.rs:582-666; [None] is a panic. *)
Definition validate_adjacent_applicators {T} (R : rules) (a : applicators T) (p : path) (x : T) : option result :=
  let r0 :=
    match one_of a with
    | Some c => match validate_one_of R c p x with
                | Some r => Some (merge_validation_results (Ok no_locations) r)
                | None => None
                end
    | None => Some (Ok no_locations)
    end in
  match r0 with
  | None => None
  | Some r0 =>
      let r1 := match any_of a with Some c => merge_validation_results r0 (validate_any_of R c p x) | None => r0 end in
      let r2 := match all_of a with Some c => merge_validation_results r1 (validate_all_of R c p x) | None => r1 end in
      Some (match not_schema a with Some n => merge_validation_results r2 (validate_not R n p x) | None => r2 end)
  end.

(** [merge_validation_results(base_result, validate_adjacent_applicators(..))], the end of every typed
    check. *)
Definition merge_adjacent {T} (R : rules) (a : applicators T) (p : path) (x : T) (base : result) : option result :=
  match validate_adjacent_applicators R a p x with
  | Some r => Some (merge_validation_results base r)
  | None => None
  end.

(** ** One assertion keyword: [failed] sets [assertion_failed] and pushes the diagnostic at the rule's
    level, otherwise an unused [noqa] is reported. *)
Definition check (R : rules) (c : code) (violated : bool) (acc : bool * list diag) : bool * list diag :=
  let '(failed, ds) := acc in
  if violated then (true, push (level_of R c) c ds) else (failed, unused_noqa R c ds).

(** [const] and [enum]: when the keyword is present nothing is said about an unused [noqa]. *)
Definition check_value (R : rules) (c : code) (matched : option bool) (acc : bool * list diag) : bool * list diag :=
  let '(failed, ds) := acc in
  match matched with
  | Some true => acc
  | Some false => (true, push (level_of R c) c ds)
  | None => (failed, unused_noqa R c ds)
  end.

(** ** Integers *)

(** crates/tombi-schema-store/src/schema/integer_schema.rs:4-21; the fields are [i64]. *)
Record integer_schema := mkIntegerSchema {
  int_minimum : option Z; int_maximum : option Z;
  int_exclusive_minimum : option Z; int_exclusive_maximum : option Z;
  int_multiple_of : option Z; int_enum : option (list Z); int_const : option Z;
  int_deprecated : bool; int_applicators : applicators Z }.

Definition violates {X} (bound : option X) (holds : X -> bool) : bool :=
  match bound with Some b => negb (holds b) | None => false end.

(** [value % multiple_of] on [i64]: [None] is the panic on a zero divisor and on [i64::MIN % -1]. *)
Definition i64_min : Z := (- 9223372036854775808)%Z.
Definition rem_i64 (a b : Z) : option Z :=
  if (b =? 0)%Z then None
  else if ((a =? i64_min) && (b =? -1))%Z then None
  else Some (Z.rem a b).

(** crates/tombi-validator/src/validate/integer.rs:142-443; [None] is a panic. *)
Definition validate_integer (R : rules) (s : integer_schema) (p : path) (value : Z) : option result :=
  let ev := no_evidence in
  let ev := match int_const s with Some c => mark_root_value (value =? c)%Z true ev | None => ev end in
  let ev := match int_enum s with
            | Some l => mark_root_value (existsb (Z.eqb value) l) (Nat.eqb (length l) 1) ev
            | None => ev
            end in
  let acc := (false, []) in
  let acc := check_value R Const (option_map (Z.eqb value) (int_const s)) acc in
  let acc := check_value R Enum (option_map (existsb (Z.eqb value)) (int_enum s)) acc in
  let acc := check R IntegerMaximum (violates (int_maximum s) (fun m => value <=? m)%Z) acc in
  let acc := check R IntegerMinimum (violates (int_minimum s) (fun m => m <=? value)%Z) acc in
  let acc := check R IntegerExclusiveMaximum (violates (int_exclusive_maximum s) (fun m => value <? m)%Z) acc in
  let acc := check R IntegerExclusiveMinimum (violates (int_exclusive_minimum s) (fun m => m <? value)%Z) acc in
  let multiple :=
    match int_multiple_of s with
    | Some m => match rem_i64 value m with Some r => Some (negb (r =? 0)%Z) | None => None end
    | None => Some false
    end in
  match multiple with
  | None => None
  | Some violated =>
      let '(failed, ds) := check R IntegerMultipleOf violated acc in
      let ds := if is_nil ds then handle_deprecated R (int_deprecated s) ds else ds in
      let base := if is_nil ds && negb failed then Ok (with_evidence ev no_locations)
                  else Err (mkInvalid failed ev ds no_locations) in
      merge_adjacent R (int_applicators s) p value base
  end.

(** ** Strings *)

(** crates/tombi-schema-store/src/schema/string_schema.rs.  [str_format] is the predicate of the declared
    format, [str_pattern] the predicate of the compiled pattern; a pattern that does not compile is
    [None] (string.rs:599-602 skips it). *)
Record string_schema := mkStringSchema {
  str_min_length : option N; str_max_length : option N;
  str_format : option (str -> bool); str_pattern : option (str -> bool);
  str_enum : option (list str); str_const : option str;
  str_deprecated : bool; str_applicators : applicators str }.

(** crates/tombi-validator/src/validate/string.rs:392-648; [graphemes] is
    [UnicodeSegmentation::graphemes(value, true).count()]. *)
Definition validate_raw_string (graphemes : str -> N) (R : rules) (format_assertion : bool) (s : string_schema)
    (value : str) : result :=
  let ev := no_evidence in
  let ev := match str_const s with Some c => mark_root_value (str_eqb value c) true ev | None => ev end in
  let ev := match str_enum s with
            | Some l => mark_root_value (existsb (str_eqb value) l) (Nat.eqb (length l) 1) ev
            | None => ev
            end in
  let length := graphemes value in
  let acc := (false, []) in
  let acc := check_value R Const (option_map (str_eqb value) (str_const s)) acc in
  let acc := check_value R Enum (option_map (existsb (str_eqb value)) (str_enum s)) acc in
  let acc := check R StringMaxLength (violates (str_max_length s) (fun m => negb (m <? length))) acc in
  let acc := check R StringMinLength (violates (str_min_length s) (fun m => negb (length <? m))) acc in
  let acc := check R StringFormat (format_assertion && violates (str_format s) (fun f => f value)) acc in
  let '(failed, ds) := check R StringPattern (violates (str_pattern s) (fun f => f value)) acc in
  if is_nil ds && negb failed then Ok (with_evidence ev no_locations)
  else Err (mkInvalid failed ev ds no_locations).

(** crates/tombi-validator/src/validate/string.rs:319-382 [validate_string]. *)
Definition validate_string (graphemes : str -> N) (R : rules) (format_assertion : bool) (s : string_schema)
    (p : path) (value : str) : option result :=
  let base :=
    match validate_raw_string graphemes R format_assertion s value with
    | Ok v => with_lint_diagnostics (Ok v) (handle_deprecated R (str_deprecated s) [])
    | Err e => Err e
    end in
  merge_adjacent R (str_applicators s) p value base.

(** ** Arrays *)

(** crates/tombi-schema-store/src/schema/array_schema.rs:18-46, for arrays of [V].  [arr_const] and
    [arr_enum] are the comparisons with the array's JSON value (with whether the enum has one member). *)
Record array_schema (V : Type) := mkArraySchema {
  arr_items : option (item V); arr_prefix_items : option (list (item V));
  arr_additional_items : option bool; arr_additional_items_schema : option (item V);
  arr_unevaluated_items : option bool; arr_unevaluated_items_schema : option (item V);
  arr_contains : option (item V); arr_min_contains : option N; arr_max_contains : option N;
  arr_min_items : option N; arr_max_items : option N; arr_unique_items : option bool;
  arr_const : option (list V -> bool); arr_enum : option ((list V -> bool) * bool);
  arr_deprecated : bool; arr_ite : option (ite (list V)); arr_applicators : applicators (list V) }.
Arguments mkArraySchema {V} _ _ _ _ _ _ _ _ _ _ _ _ _ _ _ _ _.
Arguments arr_items {V} _.
Arguments arr_prefix_items {V} _.
Arguments arr_additional_items {V} _.
Arguments arr_additional_items_schema {V} _.
Arguments arr_unevaluated_items {V} _.
Arguments arr_unevaluated_items_schema {V} _.
Arguments arr_contains {V} _.
Arguments arr_min_contains {V} _.
Arguments arr_max_contains {V} _.
Arguments arr_min_items {V} _.
Arguments arr_max_items {V} _.
Arguments arr_unique_items {V} _.
Arguments arr_const {V} _.
Arguments arr_enum {V} _.
Arguments arr_deprecated {V} _.
Arguments arr_ite {V} _.
Arguments arr_applicators {V} _.

(** The mutable state of [validate_array] and [validate_table]. *)
Record state := mkState { s_failed : bool; s_diags : list diag; s_valid : valid; s_evaluated : list N }.
Definition fail (c : code) (l : level) (st : state) : state :=
  mkState true (push l c (s_diags st)) (s_valid st) (s_evaluated st).
Definition add_diags (ds : list diag) (st : state) : state :=
  mkState (s_failed st) (s_diags st ++ ds) (s_valid st) (s_evaluated st).
Definition update_evidence (f : evidence -> evidence) (st : state) : state :=
  mkState (s_failed st) (s_diags st) (with_evidence (f (v_evidence (s_valid st))) (s_valid st)) (s_evaluated st).
Definition evaluate (i : N) (st : state) : state :=
  mkState (s_failed st) (s_diags st) (s_valid st) (i :: s_evaluated st).
(** [if let Err(Invalid { assertion_failed, diagnostics, .. }) = result]. *)
Definition absorb (r : result) (st : state) : state :=
  match r with
  | Ok _ => st
  | Err e => mkState (s_failed st || assertion_failed e) (s_diags st ++ diagnostics e) (s_valid st) (s_evaluated st)
  end.
Definition check_state (R : rules) (c : code) (violated : bool) (st : state) : state :=
  let '(failed, ds) := check R c violated (s_failed st, s_diags st) in
  mkState failed ds (s_valid st) (s_evaluated st).
Definition check_value_state (R : rules) (c : code) (matched : option bool) (st : state) : state :=
  let '(failed, ds) := check_value R c matched (s_failed st, s_diags st) in
  mkState failed ds (s_valid st) (s_evaluated st).

(** [resolve_schema_item] on an optional subschema, reported once for the whole array or table. *)
Definition resolve_once {T} (R : rules) (i : option (item T)) : option (path -> T -> result) * list diag :=
  match i with
  | Some (Resolved run) => (Some run, [])
  | Some ResolveError => (None, resolution_diagnostics R 1)
  | _ => (None, [])
  end.

(** array.rs:141-142. *)
Definition has_unevaluated_items {V} (s : array_schema V) : bool :=
  match arr_unevaluated_items_schema s with Some _ => true | None => false end
  || match arr_unevaluated_items s with Some false => true | _ => false end.

(** array.rs:201-296: one element of a tuple. *)
Definition prefix_step {V} (R : rules) (s : array_schema V) (prefix : list (item V))
    (overflow : option (path -> V -> result)) (p : path) (st : state) (iv : N * V) : state :=
  let '(i, v) := iv in
  let path' := p ++ [Index i] in
  match nth_error prefix (N.to_nat i) with
  | Some it =>
      let st := evaluate i st in
      match it with
      | Resolved run =>
          let r := run path' v in
          let child := match_evidence r in
          let st := if root_singleton_matched child then update_evidence (mark_primary path') st else st in
          let st := update_evidence (mark_declared_child path' (is_assertion_success r)) st in
          let st := update_evidence (fun e => merge_descendant e child) st in
          absorb r st
      | ResolveError => add_diags (resolution_diagnostics R 1) st
      | ResolveNone => st
      end
  | None =>
      match overflow with
      | Some run =>
          let st := evaluate i st in
          let r := run path' v in
          let st := if is_assertion_success r then update_evidence (mark_fallback path') st else st in
          let st := update_evidence (fun e => merge_descendant e (match_evidence r)) st in
          absorb r st
      | None =>
          match arr_additional_items s with
          | Some false =>
              let st := if has_unevaluated_items s then evaluate i st else st in
              fail ArrayAdditionalItems Error st
          | _ => st
          end
      end
  end.

(** array.rs:309-337: one element against the single [items] schema. *)
Definition items_step {V} (run : path -> V -> result) (p : path) (st : state) (iv : N * V) : state :=
  let '(i, v) := iv in
  let path' := p ++ [Index i] in
  let st := evaluate i st in
  let r := run path' v in
  let st := if is_assertion_success r then update_evidence (mark_fallback path') st else st in
  let st := update_evidence (fun e => merge_descendant e (match_evidence r)) st in
  absorb r st.

(** array.rs:383-401: the number of matches counted and the indices they were found at; stops at
    [min_contains] unless the full count is needed. *)
Fixpoint count_contains {V} (run : path -> V -> result) (p : path) (full : bool) (min : N)
    (values : list (N * V)) (count : N) (found : list N) : N * list N :=
  match values with
  | [] => (count, found)
  | (i, v) :: rest =>
      if is_assertion_success (run (p ++ [Index i]) v) then
        if negb full && (min <=? count + 1) then (count + 1, found ++ [i])
        else count_contains run p full min rest (count + 1) (found ++ [i])
      else count_contains run p full min rest count found
  end.

Definition mem_index (i : N) (l : list N) : bool := existsb (N.eqb i) l.

(** array.rs:481-514: one element against [unevaluatedItems]. *)
Definition unevaluated_step {V} (R : rules) (s : array_schema V) (schema : option (path -> V -> result)) (p : path)
    (st : state) (iv : N * V) : state :=
  let '(i, v) := iv in
  if mem_index i (s_evaluated st) then st
  else
    let st := evaluate i st in
    match schema with
    | Some run => absorb (run (p ++ [Index i]) v) st
    | None =>
        match arr_unevaluated_items s with
        | Some false => fail ArrayUnevaluatedItemNotAllowed Error st
        | _ => st
        end
    end.

(** [iter().enumerate()]. *)
Fixpoint enumerate_from {X} (i : N) (l : list X) : list (N * X) :=
  match l with [] => [] | x :: l' => (i, x) :: enumerate_from (i + 1) l' end.
Definition enumerate {X} (l : list X) : list (N * X) := enumerate_from 0 l.

(** array.rs:800-824 [get_duplicated_ranges]: the number of elements equal, as JSON values, to another
    element; [same] is equality of the JSON values. *)
Definition duplicated {V} (same : V -> V -> bool) (values : list V) : list V :=
  map snd (filter (fun iv => existsb (fun jw => negb (fst jw =? fst iv) && same (snd jw) (snd iv)) (enumerate values))
             (enumerate values)).

(** array.rs:144-161. *)
Definition array_ite {V} (R : rules) (s : array_schema V) (p : path) (values : list V) (st : state) : state :=
  match arr_ite s with
  | Some i =>
      match validate_if_then_else R i p values with
      | Ok _ => st
      | Err e =>
          absorb (Err e)
            (mkState (s_failed st) (s_diags st)
               (merge_valid (with_evidence (merge_evidence (v_evidence (s_valid st)) (i_evidence e)) (s_valid st)) (evaluated e))
               (s_evaluated st))
      end
  | None => st
  end.

(** array.rs:166-170: [additional_items_schema.or(items)]. *)
Definition overflow_item {V} (s : array_schema V) : option (item V) :=
  match arr_additional_items_schema s with Some x => Some x | None => arr_items s end.

(** array.rs:163-350. *)
Definition array_items {V} (R : rules) (s : array_schema V) (p : path) (values : list V) (st : state) : state :=
  match arr_prefix_items s with
  | Some prefix =>
      let '(overflow, ds) :=
        if Nat.ltb (length prefix) (length values) then resolve_once R (overflow_item s) else (None, []) in
      fold_left (prefix_step R s prefix overflow p) (enumerate values) (add_diags ds st)
  | None =>
      match resolve_once R (arr_items s) with
      | (Some run, _) => fold_left (items_step run p) (enumerate values) st
      | (None, ds) => add_diags ds st
      end
  end.

(** array.rs:352-451. *)
Definition array_contains {V} (R : rules) (s : array_schema V) (p : path) (values : list V) (st : state) : state :=
  match resolve_once R (arr_contains s) with
  | (None, ds) => add_diags ds st
  | (Some run, _) =>
      let min := match arr_min_contains s with Some m => m | None => 1 end in
      let full := match arr_max_contains s with Some _ => true | None => false end || has_unevaluated_items s in
      let '(count, found) := count_contains run p full min (enumerate values) 0 [] in
      let st :=
        if count <? min
        then fail match arr_min_contains s with Some _ => ArrayMinContains | None => ArrayContains end Error st
        else st in
      let st :=
        match arr_max_contains s with
        | Some max => if max <? count then fail ArrayMaxContains Error st else st
        | None => st
        end in
      mkState (s_failed st) (s_diags st) (s_valid st) (found ++ s_evaluated st)
  end.

(** array.rs:453-515. *)
Definition array_unevaluated {V} (R : rules) (s : array_schema V) (p : path) (values : list V) (st : state) : state :=
  if has_unevaluated_items s then
    let '(schema, ds) := resolve_once R (arr_unevaluated_items_schema s) in
    fold_left (unevaluated_step R s schema p) (enumerate values) (add_diags ds st)
  else st.

(** array.rs:517-598. *)
Definition array_values {V} (R : rules) (s : array_schema V) (values : list V) (st : state) : state :=
  match arr_const s, arr_enum s with
  | None, None => st
  | _, _ =>
      let st := match arr_const s with Some f => update_evidence (mark_root_value (f values) true) st | None => st end in
      let st := check_value_state R Const (option_map (fun f => f values) (arr_const s)) st in
      let st := match arr_enum s with Some (f, one) => update_evidence (mark_root_value (f values) one) st | None => st end in
      check_value_state R Enum (option_map (fun f => fst f values) (arr_enum s)) st
  end.

(** array.rs:600-702. *)
Definition array_sizes {V} (same : V -> V -> bool) (R : rules) (s : array_schema V) (values : list V) (st : state) : state :=
  let len := N.of_nat (length values) in
  let st := check_state R ArrayMaxValues (violates (arr_max_items s) (fun m => negb (m <? len))) st in
  let st := check_state R ArrayMinValues (violates (arr_min_items s) (fun m => negb (len <? m))) st in
  let dup := duplicated same values in
  match arr_unique_items s, dup with
  | Some true, _ :: _ =>
      mkState true (fold_left (fun ds _ => push (level_of R ArrayUniqueValues) ArrayUniqueValues ds) dup (s_diags st))
        (s_valid st) (s_evaluated st)
  | _, _ => mkState (s_failed st) (unused_noqa R ArrayUniqueValues (s_diags st)) (s_valid st) (s_evaluated st)
  end.

(** crates/tombi-validator/src/validate/array.rs:127-750; [None] is a panic. *)
Definition validate_array {V} (same : V -> V -> bool) (R : rules) (s : array_schema V) (p : path) (values : list V)
    : option result :=
  let st := mkState false [] no_locations [] in
  let st := array_ite R s p values st in
  let st := array_items R s p values st in
  let st := array_contains R s p values st in
  let st := array_unevaluated R s p values st in
  let st := array_values R s values st in
  let st := array_sizes same R s values st in
  (* 704-750 *)
  let ds := if is_nil (s_diags st) then handle_deprecated R (arr_deprecated s) (s_diags st) else s_diags st in
  let v := fold_left (fun v iv => if mem_index (fst iv) (s_evaluated st) then mark_index (fst iv) v else v)
             (enumerate values) (s_valid st) in
  merge_adjacent R (arr_applicators s) p values (finish (s_failed st) (v_evidence v) ds v).

(** ** Tables *)

(** A table is the list of its entries, with distinct keys.  A subschema applied to tables also carries
    the properties [collect_evaluated_properties_from_schema_item] (table.rs:1210-1249) finds in it. *)
Definition table (V : Type) := list (str * V).

Record table_item (V : Type) := mkTableItem { t_item : item (table V); t_collect : table V -> list str }.
Arguments mkTableItem {V} _ _.
Arguments t_item {V} _.
Arguments t_collect {V} _.

Inductive dependency (V : Type) := DependsOn (keys : list str) | DependsSchema (s : table_item V).
Arguments DependsOn {V} _.
Arguments DependsSchema {V} _.

(** crates/tombi-schema-store/src/schema/table_schema.rs:20-70, for tables of [V].  A pattern is the
    predicate of its compiled regular expression; one that does not compile is [None].
    [tbl_additional_schema] carries whether that schema is deprecated. *)
Record table_schema (V : Type) := mkTableSchema {
  tbl_properties : list (str * item V);
  tbl_patterns : option (list (option (str -> bool) * item V));
  tbl_additional : option bool; tbl_additional_schema : option (item V * bool);
  tbl_unevaluated : option bool; tbl_unevaluated_schema : option (item V);
  tbl_property_names : option (item str);
  tbl_required : option (list str);
  tbl_dependencies : option (list (str * dependency V));
  tbl_dependent_required : option (list (str * list str));
  tbl_dependent_schemas : option (list (str * table_item V));
  tbl_min : option N; tbl_max : option N;
  tbl_const : option (table V -> bool); tbl_enum : option ((table V -> bool) * bool);
  tbl_deprecated : bool;
  tbl_ite : option (ite (table V)); tbl_applicators : applicators (table V);
  (* what collect_evaluated_properties finds through oneOf, anyOf, allOf and if/then/else *)
  tbl_collect_adjacent : table V -> list str }.
Arguments mkTableSchema {V} _ _ _ _ _ _ _ _ _ _ _ _ _ _ _ _ _ _ _.
Arguments tbl_properties {V} _.
Arguments tbl_patterns {V} _.
Arguments tbl_additional {V} _.
Arguments tbl_additional_schema {V} _.
Arguments tbl_unevaluated {V} _.
Arguments tbl_unevaluated_schema {V} _.
Arguments tbl_property_names {V} _.
Arguments tbl_required {V} _.
Arguments tbl_dependencies {V} _.
Arguments tbl_dependent_required {V} _.
Arguments tbl_dependent_schemas {V} _.
Arguments tbl_min {V} _.
Arguments tbl_max {V} _.
Arguments tbl_const {V} _.
Arguments tbl_enum {V} _.
Arguments tbl_deprecated {V} _.
Arguments tbl_ite {V} _.
Arguments tbl_applicators {V} _.
Arguments tbl_collect_adjacent {V} _.

Definition mem_key (k : str) (l : list str) : bool := existsb (str_eqb k) l.

(** [properties.contains_key]; the map has distinct keys. *)
Fixpoint find_property {X} (k : str) (l : list (str * X)) : option X :=
  match l with
  | [] => None
  | (k', x) :: l' => if str_eqb k k' then Some x else find_property k l'
  end.

(** The patterns of [patternProperties] matching a key, with their schemas. *)
Definition matching_patterns {V} (s : table_schema V) (k : str) : list (item V) :=
  match tbl_patterns s with
  | None => []
  | Some ps => map snd (filter (fun ps => match fst ps with Some f => f k | None => false end) ps)
  end.

Definition is_some {X} (o : option X) : bool := match o with Some _ => true | None => false end.

(** crates/tombi-validator/src/validate/table.rs:1005-1208 [collect_evaluated_properties_from_table_schema];
    the keys marked. *)
Definition collect_evaluated {V} (s : table_schema V) (t : table V) : list str :=
  map fst (tbl_properties s)
  ++ flat_map (fun kv => if is_some (find_property (fst kv) (tbl_properties s)) || negb (is_nil (matching_patterns s (fst kv)))
                         then [fst kv] else []) t
  ++ (if is_some (tbl_additional s)
      then flat_map (fun kv => if is_some (find_property (fst kv) (tbl_properties s))
                                  || negb (is_nil (matching_patterns s (fst kv)))
                               then [] else [fst kv]) t
      else [])
  ++ match tbl_dependencies s with
     | None => []
     | Some deps => flat_map (fun kd => fst kd :: match snd kd with DependsOn keys => keys | DependsSchema i => t_collect i t end) deps
     end
  ++ match tbl_dependent_required s with
     | None => []
     | Some deps => flat_map (fun kd => fst kd :: snd kd) deps
     end
  ++ match tbl_dependent_schemas s with
     | None => []
     | Some deps => flat_map (fun kd => fst kd :: t_collect (snd kd) t) deps
     end
  ++ tbl_collect_adjacent s t
  ++ match tbl_unevaluated_schema s, tbl_unevaluated s with None, Some true => map fst t | _, _ => [] end.

(** table.rs:182-238 and :247-304: one declared schema applied to the value of a key.  The extra state is
    whether a schema was applied, whether the value matched, and the child's evidence. *)
Definition declared_step {V} (R : rules) (p : path) (v : V) (acc : state * (bool * bool * evidence)) (i : item V)
    : state * (bool * bool * evidence) :=
  let '(st, (applied, matched, child)) := acc in
  match i with
  | Resolved run =>
      let r := run p v in
      (absorb r st, (true, matched && is_assertion_success r, merge_evidence child (match_evidence r)))
  | ResolveError => (add_diags (resolution_diagnostics R 1) st, (applied, matched, child))
  | ResolveNone => (st, (applied, matched, child))
  end.

(** table.rs:355-372: [additional_properties.unwrap_or(!strict)] and what follows. *)
Definition allows_additional {V} (s : table_schema V) (strict : bool) : bool :=
  match tbl_additional s with Some b => b | None => negb strict end.
Definition allows_any_additional {V} (s : table_schema V) (strict : bool) : bool :=
  allows_additional s strict || is_some (tbl_patterns s).
Definition strict_violation {V} (s : table_schema V) (strict : bool) : bool :=
  strict && negb (is_some (tbl_additional s)) && negb (is_some (tbl_patterns s)).

(** table.rs:478-532: what is left of an unmatched key after [unevaluatedProperties]. *)
Definition unmatched_rest {V} (R : rules) (strict : bool) (s : table_schema V) (evaluated_keys : list str) (k : str)
    (st : state) : state :=
  if mem_key k evaluated_keys && negb (match tbl_additional s with Some false => true | _ => false end) then st
  else if strict_violation s strict then add_diags [mkDiag false TableStrictAdditionalKeys] st
  else if negb (allows_any_additional s strict) then fail KeyNotAllowed (level_of R KeyNotAllowed) st
  else if strict then mkState (s_failed st) (unused_noqa R KeyNotAllowed (s_diags st)) (s_valid st) (s_evaluated st)
  else st.

(** table.rs:358-533: a key no property or pattern declares. *)
Definition unmatched_step {V} (R : rules) (strict : bool) (s : table_schema V) (evaluated_keys : list str) (p : path)
    (k : str) (v : V) (st : state) : state :=
  let '(st, validated) :=
    match tbl_additional_schema s with
    | Some (Resolved run, deprecated) =>
        let st := mkState (s_failed st) (handle_deprecated R deprecated (s_diags st)) (s_valid st) (s_evaluated st) in
        let r := run p v in
        let st := if is_assertion_success r then update_evidence (mark_fallback p) st else st in
        let st := update_evidence (fun e => merge_descendant e (match_evidence r)) st in
        (absorb r st, true)
    | Some (ResolveError, _) => (add_diags (resolution_diagnostics R 1) st, false)
    | _ => (st, false)
    end in
  if negb (mem_key k evaluated_keys) && negb validated && negb (is_some (tbl_additional s)) then
    match tbl_unevaluated_schema s with
    | Some (Resolved run) => absorb (run p v) st
    | i =>
        let st := match i with Some ResolveError => add_diags (resolution_diagnostics R 1) st | _ => st end in
        match tbl_unevaluated s with
        | Some false => fail UnevaluatedPropertyNotAllowed Error st
        | _ => unmatched_rest R strict s evaluated_keys k st
        end
    end
  else unmatched_rest R strict s evaluated_keys k st.

(** table.rs:162-534: one entry. *)
Definition entry_step {V} (R : rules) (strict : bool) (s : table_schema V) (evaluated_keys : list str) (p : path)
    (st : state) (kv : str * V) : state :=
  let '(k, v) := kv in
  let path' := p ++ [Key k] in
  let property := find_property k (tbl_properties s) in
  let declared := match property with Some i => [i] | None => [] end ++ matching_patterns s k in
  let '(st, (applied, matched, child)) :=
    fold_left (declared_step R path' v) declared (st, (false, true, no_evidence)) in
  let matched_key := negb (is_nil declared) in
  let st :=
    match tbl_patterns s with
    | Some _ => check_state R KeyPattern (negb matched_key && negb (allows_additional s strict)) st
    | None => st
    end in
  if matched_key then
    let st := update_evidence (fun e => merge_descendant e child) st in
    if applied then
      let st := if matched && root_singleton_matched child then update_evidence (mark_primary path') st else st in
      update_evidence (mark_declared_child path' matched) st
    else st
  else unmatched_step R strict s evaluated_keys path' k v st.

(** table.rs:661-679 and :742-757: the keys required by a key that is present. *)
Definition require_keys (keys : list str) (required : list str) (st : state) : state :=
  fold_left (fun st k => if mem_key k keys then st else fail TableDependencyRequired Error st) required st.

(** table.rs:690-731 and :767-813: a schema required by a key that is present. *)
Definition require_schema {V} (R : rules) (i : item (table V)) (p : path) (t : table V) (st : state) : state :=
  match i with
  | Resolved run => absorb (run p t) st
  | ResolveError => add_diags (resolution_diagnostics R 1) st
  | ResolveNone => st
  end.

(** table.rs:536-581. *)
Definition table_required {V} (R : rules) (s : table_schema V) (p : path) (keys : list str) (st : state) : state :=
  match tbl_required s with
  | Some required =>
      fold_left (fun st k =>
        if mem_key k keys
        then update_evidence (mark_required (p ++ [Key k]))
               (mkState (s_failed st) (unused_noqa R TableKeyRequired (s_diags st)) (s_valid st) (s_evaluated st))
        else fail TableKeyRequired (level_of R TableKeyRequired) st) required st
  | None => st
  end.

(** table.rs:583-653. *)
Definition table_sizes {V} (R : rules) (s : table_schema V) (t : table V) (st : state) : state :=
  let len := N.of_nat (length t) in
  let st := check_state R TableMaxKeys (violates (tbl_max s) (fun m => negb (m <? len))) st in
  check_state R TableMinKeys (violates (tbl_min s) (fun m => negb (len <? m))) st.

(** table.rs:655-734. *)
Definition table_dependencies {V} (R : rules) (s : table_schema V) (p : path) (t : table V) (st : state) : state :=
  let keys := map fst t in
  match tbl_dependencies s with
  | Some deps =>
      fold_left (fun st kd =>
        if mem_key (fst kd) keys then
          match snd kd with
          | DependsOn required => require_keys keys required st
          | DependsSchema i => require_schema R (t_item i) p t st
          end
        else st) deps st
  | None => st
  end.

(** table.rs:736-759. *)
Definition table_dependent_required {V} (s : table_schema V) (t : table V) (st : state) : state :=
  let keys := map fst t in
  match tbl_dependent_required s with
  | Some deps => fold_left (fun st kd => if mem_key (fst kd) keys then require_keys keys (snd kd) st else st) deps st
  | None => st
  end.

(** table.rs:761-815. *)
Definition table_dependent_schemas {V} (R : rules) (s : table_schema V) (p : path) (t : table V) (st : state) : state :=
  let keys := map fst t in
  match tbl_dependent_schemas s with
  | Some deps => fold_left (fun st kd => if mem_key (fst kd) keys then require_schema R (t_item (snd kd)) p t st else st) deps st
  | None => st
  end.

(** table.rs:817-891. *)
Definition table_values {V} (R : rules) (s : table_schema V) (t : table V) (st : state) : state :=
  match tbl_const s, tbl_enum s with
  | None, None => st
  | _, _ =>
      let st := match tbl_const s with Some f => update_evidence (mark_root_value (f t) true) st | None => st end in
      let st := check_value_state R Const (option_map (fun f => f t) (tbl_const s)) st in
      let st := match tbl_enum s with Some (f, one) => update_evidence (mark_root_value (f t) one) st | None => st end in
      check_value_state R Enum (option_map (fun f => fst f t) (tbl_enum s)) st
  end.

(** crates/tombi-validator/src/validate/string.rs:289-317. *)
Definition validate_key_empty_rule (R : rules) (k : str) : result :=
  if is_nil k then Err (mkInvalid false no_evidence (push (level_of R KeyEmpty) KeyEmpty []) no_locations)
  else Ok no_locations.

(** table.rs:893-939; without [propertyNames], [key.validate(accessors, None, ..)] is the [key-empty] rule
    (string.rs:253-257).  The diagnostics of the key's own comment directives are dropped. *)
Definition table_names {V} (R : rules) (s : table_schema V) (p : path)
    (keys : list str) (st : state) : state :=
  let '(names, ds) := resolve_once R (tbl_property_names s) in
  let st := add_diags ds st in
  match tbl_property_names s, names with
  | Some _, None => st
  | _, Some run => fold_left (fun st k => absorb (run p k) st) keys st
  | None, None => fold_left (fun st k => absorb (validate_key_empty_rule R k) st) keys st
  end.

(** crates/tombi-validator/src/validate/table.rs:136-1003; [None] is a panic. *)
Definition validate_table {V} (R : rules) (strict : bool) (s : table_schema V) (p : path) (t : table V)
    : option result :=
  let evaluated_keys := collect_evaluated s t in
  let keys := map fst t in
  let st := mkState false [] no_locations [] in
  let st := fold_left (entry_step R strict s evaluated_keys p) t st in
  let st := table_required R s p keys st in
  let st := table_sizes R s t st in
  let st := table_dependencies R s p t st in
  let st := table_dependent_required s t st in
  let st := table_dependent_schemas R s p t st in
  let st := table_values R s t st in
  let st := table_names R s p keys st in
  (* 941-969 *)
  let st :=
    if is_nil (s_diags st) && tbl_deprecated s
    then mkState (s_failed st) (handle_deprecated R true (s_diags st)) (s_valid st) (s_evaluated st) else st in
  let locations := mkValid evaluated_keys [] no_evidence in
  let '(st, locations) :=
    match tbl_ite s with
    | Some i =>
        match validate_if_then_else R i p t with
        | Ok _ => (st, locations)
        | Err e => (absorb (Err e) (update_evidence (fun ev => merge_evidence ev (i_evidence e)) st),
                    merge_valid locations (evaluated e))
        end
    | None => (st, locations)
    end in
  (* 971-1003 *)
  let ev := v_evidence (s_valid st) in
  let base := finish (s_failed st) ev (s_diags st) (with_evidence ev locations) in
  match validate_adjacent_applicators R (tbl_applicators s) p t with
  | None => None
  | Some (Ok v) => Some (merge_validation_results base (Ok v))
  | Some (Err e) => Some (merge_validation_results base (filter_table_strict e))
  end.
