(** Model of the key and value sorting of the formatter: crates/tombi-ast-editor/src/rule/.
    Syntax nodes are an abstract type [T]; a document value is what [get_sorted_accessors] looks at: tables by key, arrays by
    position, everything else opaque.  Schemas are an abstract type [S] seen through [env]; reading a schema, resolving a
    reference and validating a value are arguments.  The async functions are modelled as ordinary ones. *)
From Coq Require Import String Ascii List NArith ZArith Bool Arith Lia.
From Verif Require Import Base VersionSortModel TomlTextModel.
Import ListNotations.
Open Scope N_scope.
Open Scope list_scope.

(** ** Accessors *)
(** crates/tombi-accessor/src/accessor.rs:6-9 *)
Inductive accessor := AKey (k : str) | AIndex (i : nat).
(** derived [PartialEq], crates/tombi-accessor/src/accessor.rs:5 *)
Definition acc_eqb (a b : accessor) : bool :=
  match a, b with AKey x, AKey y => str_eqb x y | AIndex i, AIndex j => Nat.eqb i j | _, _ => false end.
(** [str::cmp]: the byte order of UTF-8 texts is the order of their scalar values. *)
Fixpoint str_cmp (a b : str) : comparison :=
  match a, b with
  | [], [] => Eq
  | [], _ :: _ => Lt
  | _ :: _, [] => Gt
  | x :: a, y :: b => match N.compare x y with Eq => str_cmp a b | o => o end
  end.
(** crates/tombi-accessor/src/accessor.rs:71-79 *)
Definition acc_cmp (a b : accessor) : option comparison :=
  match a, b with
  | AKey x, AKey y => Some (str_cmp x y)
  | AIndex i, AIndex j => Some (Nat.compare i j)
  | _, _ => None
  end.
(** crates/tombi-accessor/src/accessor.rs:44-51; an index is only printed for messages, its digits are not modelled *)
Definition acc_to_string (a : accessor) : str := match a with AKey k => to_key_string k | AIndex _ => [91; 93] end.
(** crates/tombi-accessor/src/accessor.rs:16-18 *)
Definition is_key (a : accessor) : bool := match a with AKey _ => true | AIndex _ => false end.
(** crates/tombi-accessor/src/accessor.rs:29-31 *)
Definition is_index (a : accessor) : bool := match a with AKey _ => false | AIndex _ => true end.

(** ** Document values: crates/tombi-document-tree/src/value.rs, reduced to tables, arrays and the rest *)
Inductive dval := DTable (es : list (str * dval)) | DArray (vs : list dval) | DOther.
(** crates/tombi-document-tree/src/value/table.rs, [Table::get]: [IndexMap::get] by key text *)
Fixpoint table_get (k : str) (es : list (str * dval)) : option dval :=
  match es with
  | [] => None
  | (k', v) :: es => if str_eqb k k' then Some v else table_get k es
  end.

(** ** Orders *)
(** crates/tombi-x-keyword/src/table_keys_order.rs [TableKeysOrder] *)
Inductive order := Ascending | Descending | Schema | VersionSort.
(** crates/tombi-x-keyword/src/table_keys_order.rs [TableKeysOrderGroupKind] *)
Inductive group_kind := GKeys | GPatternKeys | GAdditionalKeys.
(** crates/tombi-schema-store, [XTombiTableKeysOrder] *)
Inductive xorder := OAll (o : order) | OGroups (gs : list (group_kind * order)).
(** crates/tombi-schema-store, [TableOrderOverride], without its target *)
Record override := { ov_disabled : bool; ov_order : option order }.

(** ** Stable sorting: [slice::sort_by] *)
Fixpoint insert_sorted {A} (le : A -> A -> bool) (x : A) (l : list A) : list A :=
  match l with
  | [] => [x]
  | y :: l' => if le x y then x :: l else y :: insert_sorted le x l'
  end.
(** [slice::sort_by]: stable.  A stable sort by a total preorder has one possible result; [le a b] is [cmp a b != Greater]. *)
Definition stable_sort {A} (le : A -> A -> bool) (l : list A) : list A := fold_right (insert_sorted le) [] l.
Definition le_of (c : comparison) : bool := match c with Gt => false | _ => true end.

(** ** Schemas as the sorter sees them *)
(** crates/tombi-schema-store/src/schema/table_schema.rs: the keys of [properties] in order (374-386), whether some valid
    [patternProperties] regex matches a key, [resolve_property_schema] (388), the resolved [additional_property_schema] and
    [keys_order]. *)
Record table_schema (S : Type) := {
  ts_accessors : list accessor;
  ts_pattern : str -> bool;
  ts_property : accessor -> option S;
  ts_additional : option S;
  ts_keys_order : option xorder }.
Arguments ts_accessors {S}. Arguments ts_pattern {S}. Arguments ts_property {S}. Arguments ts_additional {S}. Arguments ts_keys_order {S}.
(** [SchemaView]: the combinators with the result of [resolve_and_collect_schemas] and their [keys_order], tables, arrays with
    their resolved [items], and the rest *)
Inductive schema_view (S : Type) :=
| VCombinator (resolved : option (list S)) (keys_order : option order)
| VTable (t : table_schema S)
| VArray (items : option S)
| VOther.
Arguments VCombinator {S}. Arguments VTable {S}. Arguments VArray {S}. Arguments VOther {S}.
(** [SchemaContext] and the comment directives of the tables, as used by crates/tombi-ast-editor/src/rule/table_keys_order.rs *)
Record env (S : Type) := {
  e_view : S -> schema_view S;
  e_valid : S -> list accessor -> dval -> bool;                       (* value.validate(accessors, schema, ctx).is_ok() *)
  e_enabled : option S -> bool;                                       (* schema_table_keys_order_enabled *)
  e_schema_override : option S -> list accessor -> option override;   (* schema_context.table_order_override *)
  e_comment_override : list accessor -> option override }.            (* table_order_overrides.find *)
Arguments e_view {S}. Arguments e_valid {S}. Arguments e_enabled {S}. Arguments e_schema_override {S}. Arguments e_comment_override {S}.

(** The result of [get_sorted_accessors]; [GiveUp] is its [None].  [OutOfFuel] is not a behaviour of the code. *)
Inductive sres (A : Type) := OutOfFuel | GiveUp | Done (a : A).
Arguments OutOfFuel {A}. Arguments GiveUp {A}. Arguments Done {A}.

Section Targets.
Context {T : Type}.
(** what is still to be followed of an entry's keys, and the entry *)
Definition target : Type := list accessor * T.
Definition targets_map : Type := list (accessor * list target).

(** [IndexMap::entry(a).or_insert_with(Vec::new).push(x)], crates/tombi-ast-editor/src/rule/table_keys_order.rs:181-184 *)
Fixpoint map_push (a : accessor) (x : target) (m : targets_map) : targets_map :=
  match m with
  | [] => [(a, [x])]
  | (b, xs) :: m' => if acc_eqb a b then (b, xs ++ [x]) :: m' else (b, xs) :: map_push a x m'
  end.
(** crates/tombi-ast-editor/src/rule/table_keys_order.rs:176-188 *)
Definition push_target (st : list T * targets_map) (x : target) : list T * targets_map :=
  match fst x with
  | a :: p => (fst st, map_push a (p, snd x) (snd st))
  | [] => (fst st ++ [snd x], snd st)
  end.
Definition group_targets (ts : list target) : list T * targets_map := fold_left push_target ts ([], []).

(** [new_targets.extend(targets.extract_if(.., |e| e == accessor))] for each accessor, then the rest:
    crates/tombi-ast-editor/src/rule/table_keys_order.rs:415-420 *)
Fixpoint schema_sort (order_of : list accessor) (l : targets_map) : targets_map :=
  match order_of with
  | [] => l
  | a :: rest => filter (fun e => acc_eqb (fst e) a) l ++ schema_sort rest (filter (fun e => negb (acc_eqb (fst e) a)) l)
  end.
(** crates/tombi-ast-editor/src/rule/table_keys_order.rs:404, 407: [partial_cmp(..).unwrap()].  Only called on keys, see
    [sort_targets_keys]; two different kinds, where the code panics, count as in order. *)
Definition acc_le (a b : accessor) : bool := match acc_cmp a b with Some c => le_of c | None => true end.
(** crates/tombi-ast-editor/src/rule/table_keys_order.rs:424-431; other kinds are [unreachable!] *)
Definition acc_version_le (a b : accessor) : bool :=
  match a, b with AKey x, AKey y => le_of (version_sort x y) | _, _ => true end.
(** crates/tombi-ast-editor/src/rule/table_keys_order.rs:397-435 *)
Definition sort_targets {S} (l : targets_map) (o : order) (ts : option (table_schema S)) : targets_map :=
  match o with
  | Ascending => stable_sort (fun x y => acc_le (fst x) (fst y)) l
  | Descending => stable_sort (fun x y => acc_le (fst y) (fst x)) l
  | Schema => match ts with None => l | Some t => schema_sort (ts_accessors t) l end
  | VersionSort => stable_sort (fun x y => acc_version_le (fst x) (fst y)) l
  end.
(** crates/tombi-ast-editor/src/rule/table_keys_order.rs:437-454 *)
Definition get_table_keys_order {S} (e : env S) (o : option order) (cs : option S) (schema_order_enabled : bool) : option xorder :=
  match o with
  | Some o => Some (OAll o)
  | None =>
      if schema_order_enabled
      then match cs with
           | Some s => match e_view e s with VTable t => ts_keys_order t | _ => None end
           | None => None
           end
      else None
  end.

(** [groups.iter()] setting the [has_*_group] flags, crates/tombi-ast-editor/src/rule/table_keys_order.rs:472-480 *)
Definition kind_eqb (a b : group_kind) : bool :=
  match a, b with GKeys, GKeys | GPatternKeys, GPatternKeys | GAdditionalKeys, GAdditionalKeys => true | _, _ => false end.
Definition has_group (k : group_kind) (gs : list (group_kind * order)) : bool := existsb (fun g => kind_eqb (fst g) k) gs.
(** crates/tombi-ast-editor/src/rule/table_keys_order.rs:483-492 *)
Definition fallback_additional_order (gs : list (group_kind * order)) : option order :=
  if has_group GAdditionalKeys gs then None
  else match gs with
       | [] => None
       | (_, Schema) :: _ => None
       | (_, o) :: _ => Some o
       end.
(** crates/tombi-ast-editor/src/rule/table_keys_order.rs:518-527 *)
Definition kind_of {S} (t : table_schema S) (a : accessor) : group_kind :=
  if existsb (acc_eqb a) (ts_accessors t) then GKeys
  else match a with
       | AKey k => if ts_pattern t k then GPatternKeys else GAdditionalKeys
       | AIndex _ => GAdditionalKeys
       end.
(** crates/tombi-ast-editor/src/rule/table_keys_order.rs:529-535 *)
Definition in_sort_group (gs : list (group_kind * order)) (k : group_kind) : bool :=
  match k with
  | GAdditionalKeys => has_group GAdditionalKeys gs || (match fallback_additional_order gs with Some _ => true | None => false end)
  | k => has_group k gs
  end.
(** The three lists [properties], [pattern_properties], [additional_properties]; a list that was appended to the result is
    empty afterwards: crates/tombi-ast-editor/src/rule/table_keys_order.rs:554-577 *)
Definition buckets : Type := group_kind -> targets_map.
Definition take_bucket (b : buckets) (k : group_kind) : buckets := fun k' => if kind_eqb k k' then [] else b k'.
Fixpoint sort_groups {S} (t : table_schema S) (gs : list (group_kind * order)) (b : buckets) : targets_map * buckets :=
  match gs with
  | [] => ([], b)
  | (k, o) :: gs => let '(l, b') := sort_groups t gs (take_bucket b k) in (sort_targets (b k) o (Some t) ++ l, b')
  end.
(** crates/tombi-ast-editor/src/rule/table_keys_order.rs:579-592 *)
Definition place_additional {S} (t : table_schema S) (gs : list (group_kind * order)) (sorted : targets_map) (b : buckets) : targets_map :=
  match fallback_additional_order gs with
  | None => sorted
  | Some Descending => sorted ++ sort_targets (b GAdditionalKeys) Descending (Some t)
  | Some o => sort_targets (b GAdditionalKeys) o (Some t) ++ sorted
  end.
(** crates/tombi-ast-editor/src/rule/table_keys_order.rs:594-611 *)
Fixpoint fill_slots (slots : list bool) (specified unspecified : targets_map) : targets_map :=
  match slots with
  | [] => specified ++ unspecified
  | true :: slots =>
      match specified with
      | x :: specified => x :: fill_slots slots specified unspecified
      | [] => fill_slots slots [] unspecified
      end
  | false :: slots =>
      match unspecified with
      | x :: unspecified => x :: fill_slots slots specified unspecified
      | [] => fill_slots slots specified []
      end
  end.
(** crates/tombi-ast-editor/src/rule/table_keys_order.rs:456-616 *)
Definition sort_table_targets {S} (m : targets_map) (ts : option (table_schema S)) (o : option xorder) : targets_map :=
  match o, ts with
  | Some (OAll o), _ => sort_targets m o ts
  | Some (OGroups gs), Some t =>
      let spec (x : accessor * list target) := in_sort_group gs (kind_of t (fst x)) in
      let b : buckets := fun k => filter (fun x => spec x && kind_eqb (kind_of t (fst x)) k) m in
      let '(sorted, b') := sort_groups t gs b in
      fill_slots (map spec m) (place_additional t gs sorted b') (filter (fun x => negb (spec x)) m)
  | _, _ => m
  end.

(** [results.extend(f(x).await?)] for every [x] *)
Fixpoint extend_all {X} (f : X -> sres (list T)) (xs : list X) : sres (list T) :=
  match xs with
  | [] => Done []
  | x :: xs =>
      match f x with
      | Done l => match extend_all f xs with Done r => Done (l ++ r) | e => e end
      | e => e
      end
  end.
(** [Iterator::enumerate], from [i] *)
Fixpoint enumerate_from {A} (i : nat) (l : list A) : list (nat * A) :=
  match l with [] => [] | x :: l => (i, x) :: enumerate_from (S i) l end.
Definition option_or {A} (a b : option A) : option A := match a with Some _ => a | None => b end.
Definition is_disabled (o : option override) : bool := match o with Some o => ov_disabled o | None => false end.
Definition order_of_override (o : option override) : option order := match o with Some o => ov_order o | None => None end.

(** One level below the combinators, crates/tombi-ast-editor/src/rule/table_keys_order.rs:175-394; [rec] is the recursive call.
    Below a table without a schema the code keeps passing the enclosing [value] (the binding of line 234 does not reach line
    292), as here. *)
Definition sort_level {S} (rec : dval -> list accessor -> list target -> option S -> option order -> sres (list T))
    (e : env S) (value : dval) (accessors : list accessor) (targets : list target) (cs : option S) (o : option order) : sres (list T) :=
  let '(results, m) := group_targets targets in
  let table_schema := match cs with Some s => match e_view e s with VTable t => Some t | _ => None end | None => None end in
  let done r := match r with Done l => Done (results ++ l) | x => x end in
  match value with
  | DTable es =>
      if forallb (fun x => is_key (fst x)) m then
        let cov := e_comment_override e accessors in
        let sov := e_schema_override e cs accessors in
        let disabled := is_disabled cov || is_disabled sov in
        let override_order := option_or (order_of_override cov) (option_or o (order_of_override sov)) in
        let override_enabled := match sov with Some x => negb (ov_disabled x) | None => false end in
        let table_order := get_table_keys_order e override_order cs (override_enabled || e_enabled e cs) in
        let sorted := if disabled || (match table_order with None => true | _ => false end) then m
                      else sort_table_targets m table_schema table_order in
        done (extend_all (fun '(a, ts) =>
          match (match table_get (acc_to_string a) es, table_schema with
                 | Some v, Some t =>
                     match ts_property t a with
                     | Some s => Some (v, s)
                     | None => match ts_additional t with Some s => Some (v, s) | None => None end
                     end
                 | _, _ => None
                 end) with
          | Some (v, s) => rec v (accessors ++ [a]) ts (Some s) o
          | None => rec value (accessors ++ [a]) ts None o
          end) sorted)
      else Done (results ++ flat_map (fun x => map snd (snd x)) m)
  | DArray vs =>
      if forallb (fun x => is_index (fst x)) m then
        let items := match cs with Some s => match e_view e s with VArray i => i | _ => None end | None => None end in
        done (extend_all (fun '(i, (v, (_, ts))) => rec v (accessors ++ [AIndex i]) ts items o) (enumerate_from 0 (combine vs m)))
      else Done (results ++ flat_map (fun x => map snd (snd x)) m)
  | DOther => Done (results ++ flat_map (fun x => map snd (snd x)) m)
  end.
(** the match on [schema_view], crates/tombi-ast-editor/src/rule/table_keys_order.rs:112-138 *)
Definition combinator_of {S} (e : env S) (cs : option S) : option (option (list S) * option order) :=
  match cs with Some s => match e_view e s with VCombinator r k => Some (r, k) | _ => None end | None => None end.
(** crates/tombi-ast-editor/src/rule/table_keys_order.rs:99-395 *)
Fixpoint get_sorted_accessors {S} (fuel : nat) (e : env S) (value : dval) (accessors : list accessor) (targets : list target)
    (cs : option S) (o : option order) : sres (list T) :=
  match fuel with
  | O => OutOfFuel
  | Datatypes.S fuel =>
      match combinator_of e cs with
      | Some (resolved, keys_order) =>
          match resolved with
          | Some schemas =>
              match find (fun s' => e_valid e s' accessors value) schemas with
              | Some s' =>
                  let o' := match o with Some _ => o | None => if e_enabled e (Some s') then keys_order else None end in
                  get_sorted_accessors fuel e value accessors targets (Some s') o'
              | None => GiveUp
              end
          | None => GiveUp
          end
      | None => sort_level (get_sorted_accessors fuel e) e value accessors targets cs o
      end
  end.
End Targets.
