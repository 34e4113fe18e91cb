(** * Building the document tree: crates/tombi-document-tree/src/{root,value/table,value/array}.rs

    The input is the document after parsing: key/values with decoded keys, and sections with a header.  Left out: ranges,
    comments and their directives, keys or values that cannot be decoded, key/values without a value, and key/values standing
    in an array (the parser has reported these before).  Scalars are kept as given. *)
From Coq Require Import String Ascii List NArith Bool Arith Lia.
From Verif Require Import Base.
Import ListNotations.
Open Scope N_scope.
Open Scope list_scope.

(** ** The syntax *)
(** [tombi_ast::Value] *)
Inductive syn_value :=
| SynScalar (x : str)
| SynArray (vs : list syn_value)
| SynInline (kvs : list (list str * syn_value)).
(** [tombi_ast::KeyValue]: the dotted keys and the value *)
Notation key_value := (list str * syn_value)%type (only parsing).
(** [tombi_ast::Table], [tombi_ast::ArrayOfTable] *)
Record section := { s_array : bool; s_header : list str; s_body : list key_value }.
(** [tombi_ast::Root] *)
Record document := { d_body : list key_value; d_sections : list section }.

(** ** The tree *)
(** crates/tombi-document-tree/src/value/table.rs:10-57 *)
Inductive tkind := Root | Table | ParentTable | InlineTable | ParentKey | KeyValue.
(** crates/tombi-document-tree/src/value/array.rs:6-38 *)
Inductive akind := ArrayOfTable | ParentArrayOfTable | PlainArray.
(** crates/tombi-document-tree/src/value.rs:27-40; the [IndexMap] of a table is the list of its entries in order *)
Inductive value := Scalar (x : str) | Tab (k : tkind) (es : list (str * value)) | Arr (k : akind) (vs : list value).
(** crates/tombi-document-tree/src/error.rs:3-20; [Unreachable] is the panic of value/array.rs:135 *)
Inductive error := DuplicateKey (k : str) | ConflictTable | ConflictArray | Unreachable.

(** [IndexMap::get] *)
Fixpoint lookup (k : str) (es : list (str * value)) : option value :=
  match es with [] => None | (k', v) :: es => if str_eqb k k' then Some v else lookup k es end.
(** writing through [OccupiedEntry::get_mut] *)
Fixpoint update (k : str) (v : value) (es : list (str * value)) : list (str * value) :=
  match es with [] => [] | (k', v') :: es => if str_eqb k k' then (k', v) :: es else (k', v') :: update k v es end.

Definition is_inline (v : value) : bool := match v with Tab InlineTable _ => true | _ => false end.
(** the case [(KeyValue, KeyValue)], crates/tombi-document-tree/src/value/table.rs:250-268 *)
Definition key_values_conflict (es1 es2 : list (str * value)) : bool :=
  existsb (fun e => match lookup (fst e) es2 with
                    | Some v2 => match snd e, v2 with
                                 | Tab k1 _, _ => is_inline (snd e)
                                 | _, Tab k2 _ => is_inline v2
                                 | _, _ => false
                                 end
                    | None => false
                    end) es1.
(** the other cases of crates/tombi-document-tree/src/value/table.rs:249-284: whether the tables are in conflict *)
Definition kinds_conflict (k1 k2 : tkind) : bool :=
  match k1, k2 with
  | (Table | InlineTable | KeyValue), (Table | InlineTable) => true
  | InlineTable, (ParentTable | ParentKey | KeyValue) => true
  | ParentTable, ParentKey => true
  | ParentKey, (Table | InlineTable) => true
  | _, _ => false
  end.
(** [self.kind = other.kind], crates/tombi-document-tree/src/value/table.rs:276-282 *)
Definition merged_kind (k1 k2 : tkind) : tkind :=
  match k1, k2 with
  | (ParentTable | ParentKey), (Table | InlineTable) => k2
  | _, _ => k1
  end.
Definition conflict (k1 : tkind) (es1 : list (str * value)) (k2 : tkind) (es2 : list (str * value)) : bool :=
  match k1, k2 with
  | KeyValue, KeyValue => key_values_conflict es1 es2
  | _, _ => kinds_conflict k1 k2
  end.
(** crates/tombi-document-tree/src/value/table.rs:463-466 *)
Definition can_merge_arrays (k1 k2 : akind) : bool :=
  match k1, k2 with PlainArray, _ | _, PlainArray => false | _, _ => true end.

(** [Table::merge], crates/tombi-document-tree/src/value/table.rs:242-333, with [Array::merge],
    crates/tombi-document-tree/src/value/array.rs:125-159; [v2] is always a table here.  The arms of [Array::merge] for plain
    arrays are not reached because of [can_merge_arrays]. *)
Fixpoint merge_table (k1 : tkind) (es1 : list (str * value)) (v2 : value) {struct v2} : value * list error :=
  match v2 with
  | Tab k2 es2 =>
      if conflict k1 es1 k2 es2 then (Tab (merged_kind k1 k2) es1, [ConflictTable])
      else
        let '(es, errs) :=
          (fix entries (es1 es2 : list (str * value)) {struct es2} : list (str * value) * list error :=
             match es2 with
             | [] => (es1, [])
             | (key, w2) :: es2 =>
                 let '(es1', e) :=
                   match lookup key es1 with
                   | None => (es1 ++ [(key, w2)], [])
                   | Some w1 =>
                       match w1, w2 with
                       | Tab k es, Tab _ _ => let '(w, e) := merge_table k es w2 in (update key w es1, e)
                       | Arr a1 vs, Arr a2 ws =>
                           if can_merge_arrays a1 a2 then
                             match a2 with
                             | ParentArrayOfTable =>
                                 let '(w, e) :=
                                   (fix pop (ws : list value) : value * list error :=
                                      match ws with
                                      | [] => (Arr a1 vs, [Unreachable])
                                      | w :: ws' =>
                                          match ws' with
                                          | [] =>
                                              match w with
                                              | Tab _ _ =>
                                                  match rev vs with
                                                  | Tab k es :: r => let '(w', e) := merge_table k es w in (Arr a1 (rev r ++ [w']), e)
                                                  | _ => (Arr a1 (vs ++ [w]), [])
                                                  end
                                              | _ => (Arr a1 vs, [Unreachable])
                                              end
                                          | _ => pop ws'
                                          end
                                      end) ws in
                                 (update key w es1, e)
                             | _ => (update key (Arr a1 (vs ++ ws)) es1, [])
                             end
                           else (es1, [DuplicateKey key])
                       | _, _ => (es1, [DuplicateKey key])
                       end
                   end in
                 let '(es1'', e') := entries es1' es2 in (es1'', e ++ e')
             end) es1 es2 in
        (Tab (merged_kind k1 k2) es, errs)
  | _ => (Tab k1 es1, [])
  end.
Definition merge (v1 v2 : value) : value * list error :=
  match v1 with Tab k1 es1 => merge_table k1 es1 v2 | _ => (v1, []) end.

(** merging one after another, collecting the errors *)
Fixpoint merge_all (v : value) (others : list (value * list error)) : value * list error :=
  match others with
  | [] => (v, [])
  | (w, errs) :: others => let '(v', e) := merge v w in let '(v'', e') := merge_all v' others in (v'', errs ++ e ++ e')
  end.

(** the tables of the keys before the last: [new_parent_key(..).insert(..)] into an empty table,
    crates/tombi-document-tree/src/value/table.rs:855-896 *)
Fixpoint wrap_keys (keys : list str) (v : value) : value :=
  match keys with
  | [] => v
  | [k] => Tab KeyValue [(k, v)]
  | k :: keys => Tab ParentKey [(k, wrap_keys keys v)]
  end.
(** [IntoDocumentTreeAndErrors] of values, crates/tombi-document-tree/src/value.rs:211-280,
    crates/tombi-document-tree/src/value/array.rs:254-440 (arrays), crates/tombi-document-tree/src/value/table.rs:904-1024 (inline
    tables, whose kind is [Table] while they are filled), and of key/values, crates/tombi-document-tree/src/value/table.rs:779-902.
    A key/value without keys gives the empty table and loses its value; the parser does not make one. *)
Fixpoint build_value (v : syn_value) : value * list error :=
  match v with
  | SynScalar x => (Scalar x, [])
  | SynArray vs => let l := map build_value vs in (Arr PlainArray (map fst l), flat_map snd l)
  | SynInline kvs =>
      let '(t, errs) := merge_all (Tab Table [])
        (map (fun kv => let '(keys, v) := kv in
                        let '(w, e) := build_value v in
                        match keys with [] => (Tab KeyValue [], e) | _ => (wrap_keys keys w, e) end) kvs) in
      (match t with Tab _ es => Tab InlineTable es | _ => t end, errs)
  end.
Definition build_key_value (kv : list str * syn_value) : value * list error :=
  let '(keys, v) := kv in
  let '(w, e) := build_value v in
  match keys with [] => (Tab KeyValue [], e) | _ => (wrap_keys keys w, e) end.

(** [AstChildren<Key>::starts_with], crates/tombi-ast/src/impls/key.rs:72-86 *)
Fixpoint starts_with (keys prefix : list str) : bool :=
  match prefix, keys with
  | [], _ => true
  | p :: prefix, k :: keys => str_eqb k p && starts_with keys prefix
  | _ :: _, [] => false
  end.
Definition same_first (a b : list str) : bool :=
  match a, b with k :: _, k' :: _ => str_eqb k k' | _, _ => false end.
(** [parent_array_of_tables_keys], crates/tombi-ast/src/impls/table.rs:151-178 and
    crates/tombi-ast/src/impls/array_of_table.rs:150-176, with [get_array_of_tables_keys],
    crates/tombi-document-tree/src/value/table.rs:1081-1103: [before] are the sections before this one, nearest first. *)
Definition array_keys (before : list section) (header : list str) : list (list str) :=
  filter (starts_with header)
    (take_while (same_first header) (map s_header (filter s_array before))).
Definition is_array_key (arrays : list (list str)) (path : list str) : bool := existsb (fun p => starts_with path p && starts_with p path) arrays.
(** the loop over the header keys from the last to the first, crates/tombi-document-tree/src/value/table.rs:604-618, 733-751, with
    [insert_table] and [insert_array_of_tables] into an empty table, lines 1105-1137: [rest] are the keys still to wrap, last first;
    the flag is [is_array_of_table]. *)
Fixpoint wrap_header (arrays : list (list str)) (rest : list str) (is_array_of_table : bool) (t : value) : value :=
  match rest with
  | [] => t
  | k :: rest =>
      wrap_header arrays rest (is_array_key arrays (rev rest))
        (Tab ParentTable [(k, if is_array_of_table then Arr ParentArrayOfTable [t] else t)])
  end.
(** crates/tombi-document-tree/src/value/table.rs:500-623 and 628-757.  A section without a header (the parser has reported it) is not
    modelled. *)
Definition build_section (before : list section) (s : section) : value * list error :=
  let '(t, errs) := merge_all (Tab Table []) (map build_key_value (s_body s)) in
  let arrays := array_keys before (s_header s) in
  match rev (s_header s) with
  | [] => (t, errs)
  | k :: rest =>
      (wrap_header arrays rest (is_array_key arrays (rev rest)) (Tab ParentTable [(k, if s_array s then Arr ArrayOfTable [t] else t)]), errs)
  end.
Fixpoint merge_sections (v : value) (before : list section) (l : list section) : value * list error :=
  match l with
  | [] => (v, [])
  | s :: l =>
      let '(t, errs) := build_section before s in
      let '(v', e) := merge v t in
      let '(v'', e') := merge_sections v' (s :: before) l in (v'', errs ++ e ++ e')
  end.
(** crates/tombi-document-tree/src/root.rs:38-116 *)
Definition build_document (d : document) : value * list error :=
  let '(v, errs) := merge_all (Tab Root []) (map build_key_value (d_body d)) in
  let '(v', e) := merge_sections v [] (d_sections d) in (v', errs ++ e).
