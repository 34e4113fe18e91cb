(** Model of the sorting of array values: crates/tombi-ast-editor/src/rule/array_values_order.rs and its directory, and of the
    commas and comments around sorted values (also crates/tombi-ast-editor/src/rule/inline_table_keys_order.rs). *)
From Coq Require Import String Ascii List NArith ZArith Bool Arith Lia.
From Verif Require Import Base VersionSortModel SortModel.
Import ListNotations.
Open Scope N_scope.
Open Scope list_scope.

(** ** Values
    The code walks a syntax value and the document value made from it side by side; they agree on the kind, so one type models
    both.  A date or time is the text its document node prints ([to_string]).  An inline table is the list of its key/values,
    each with its dotted key; the document table's [get key] is the value of the entry whose key is just [key]. *)
Inductive aval :=
| ABool (b : bool)
| AInt (z : Z)
| AString (s : str)
| AOffsetDateTime (s : str)
| ALocalDateTime (s : str)
| ALocalDate (s : str)
| ALocalTime (s : str)
| AInline (kvs : list (list str * aval))
| AUnsortable.                          (* floats and arrays *)
(** crates/tombi-ast-editor/src/rule/array_values_order.rs:367-376 *)
Inductive sortable_type := SBoolean | SInteger | SString | SOffsetDateTime | SLocalDateTime | SLocalDate | SLocalTime.
Definition type_eqb (a b : sortable_type) : bool :=
  match a, b with
  | SBoolean, SBoolean | SInteger, SInteger | SString, SString | SOffsetDateTime, SOffsetDateTime
  | SLocalDateTime, SLocalDateTime | SLocalDate, SLocalDate | SLocalTime, SLocalTime => true
  | _, _ => false
  end.
(** [Table::get] on the document table of an inline table *)
Fixpoint inline_get (k : str) (kvs : list (list str * aval)) : option aval :=
  match kvs with
  | [] => None
  | ([k'], v) :: kvs => if str_eqb k k' then Some v else inline_get k kvs
  | _ :: kvs => inline_get k kvs
  end.
(** [SortableType::try_new], crates/tombi-ast-editor/src/rule/array_values_order.rs:388-484; [None] is any [SortFailReason].
    [by] is what [try_array_values_order_by_from_item_schema] (312-365) finds for the table: the [x-tombi-array-values-order-by]
    of the first schema the table satisfies. *)
Fixpoint sortable_type_of (by_key : aval -> option str) (v : aval) : option sortable_type :=
  match v with
  | ABool _ => Some SBoolean
  | AInt _ => Some SInteger
  | AString _ => Some SString
  | AOffsetDateTime _ => Some SOffsetDateTime
  | ALocalDateTime _ => Some SLocalDateTime
  | ALocalDate _ => Some SLocalDate
  | ALocalTime _ => Some SLocalTime
  | AUnsortable => None
  | AInline kvs =>
      match by_key v with
      | None => None
      | Some k =>
          (fix go (l : list (list str * aval)) : option sortable_type :=
             match l with
             | [] => None
             | ([], _) :: l => go l
             | (k' :: rest, w) :: l =>
                 if str_eqb k' k then match rest with [] => sortable_type_of by_key w | _ :: _ => None end else go l
             end) kvs
      end
  end.
(** The sort keys of the seven [SortableValues] variants. *)
Inductive skey := KBool (b : bool) | KInt (z : Z) | KText (s : str).
(** the sort key of a value which is of the type itself: the first arm of [create_*_sortable_values] *)
Definition direct_key (t : sortable_type) (v : aval) : option skey :=
  match t, v with
  | SBoolean, ABool b => Some (KBool b)
  | SInteger, AInt z => Some (KInt z)
  | SString, AString s | SOffsetDateTime, AOffsetDateTime s | SLocalDateTime, ALocalDateTime s
  | SLocalDate, ALocalDate s | SLocalTime, ALocalTime s => Some (KText s)
  | _, _ => None
  end.
(** the loop over an inline table's key/values, e.g. crates/tombi-ast-editor/src/rule/array_values_order/integer.rs:49-80 *)
Fixpoint table_key (t : sortable_type) (k : str) (all l : list (list str * aval)) : option skey :=
  match l with
  | [] => None
  | ([k'], _) :: l =>
      if str_eqb k' k
      then match inline_get k' all with
           | Some w => match direct_key t w with Some x => Some x | None => table_key t k all l end
           | None => table_key t k all l
           end
      else table_key t k all l
  | _ :: _ => None
  end.
Definition sort_key (by_key : aval -> option str) (t : sortable_type) (v : aval) : option skey :=
  match v with
  | AInline kvs => match by_key v with Some k => table_key t k kvs kvs | None => None end
  | _ => direct_key t v
  end.

(** ** Commas and comments *)
(** A comma with its comments (crates/tombi-ast/src/node/comma.rs).  The edits move nodes of a mutable tree about, so a node of the
    original tree has a number; a comma made by the editor has none. *)
Record comma := { c_id : option nat; c_leading : list str; c_trailing : option str }.
(** crates/tombi-ast-editor/src/node.rs:5-7 *)
Definition make_comma : comma := {| c_id := None; c_leading := []; c_trailing := None |}.
(** crates/tombi-ast-editor/src/node.rs:16-21 *)
Definition make_comma_with_trailing_comment (t : str) : comma := {| c_id := None; c_leading := []; c_trailing := Some t |}.
(** A value of an array, or a key/value of an inline table: its number, its content (with the comments inside), the comments before
    it and its trailing comment. *)
Record item {V : Type} := { i_id : nat; i_value : V; i_leading : list str; i_trailing : option str }.
Arguments item : clear implicits.
Definition entry (V : Type) : Type := item V * option comma.

(** ** Sorting *)
Definition bool_le (a b : bool) : bool := implb a b.
(** [Ord] of the keys: [bool], [i64] and [String] *)
Definition skey_le (a b : skey) : bool :=
  match a, b with
  | KBool x, KBool y => bool_le x y
  | KInt x, KInt y => Z.leb x y
  | KText x, KText y => le_of (str_cmp x y)
  | _, _ => true
  end.
(** [sorted_version] compares strings by version and leaves the other types to [sorted],
    crates/tombi-ast-editor/src/rule/array_values_order.rs:637-710 *)
Definition skey_version_le (t : sortable_type) (a b : skey) : bool :=
  match t, a, b with
  | SString, KText x, KText y => le_of (version_sort x y)
  | _, _, _ => skey_le a b
  end.
(** crates/tombi-x-keyword/src/array_values_order.rs *)
Inductive aorder := AAscending | ADescending | AVersionSort.

(** [SortableValues::try_new], crates/tombi-ast-editor/src/rule/array_values_order.rs:511-635, with the
    [create_*_sortable_values] it calls: the common type and the keyed values, each with a comma. *)
Fixpoint keyed (by_key : aval -> option str) (t : sortable_type) (l : list (entry aval)) : option (list (skey * item aval * comma)) :=
  match l with
  | [] => Some []
  | (i, c) :: l =>
      match sort_key by_key t (i_value i), keyed by_key t l with
      | Some k, Some r => Some ((k, i, match c with Some c => c | None => make_comma end) :: r)
      | _, _ => None
      end
  end.
Definition sortable_values (by_key : aval -> option str) (l : list (entry aval)) : option (sortable_type * list (skey * item aval * comma)) :=
  match l with
  | [] => None                                (* unreachable!, the callers have checked *)
  | (i, _) :: rest =>
      match sortable_type_of by_key (i_value i) with
      | None => None
      | Some t =>
          if forallb (fun x => match sortable_type_of by_key (i_value (fst x)) with Some t' => type_eqb t' t | None => false end) rest
          then match keyed by_key t l with Some r => Some (t, r) | None => None end
          else None
      end
  end.
Definition entry_of (x : skey * item aval * comma) : entry aval := (snd (fst x), Some (snd x)).
(** crates/tombi-ast-editor/src/rule/array_values_order.rs:285-310 *)
Definition sort_array_values (sv : sortable_type * list (skey * item aval * comma)) (o : aorder) : list (entry aval) :=
  let key (x : skey * item aval * comma) := fst (fst x) in
  map entry_of
    (match o with
     | AAscending => stable_sort (fun x y => skey_le (key x) (key y)) (snd sv)
     | ADescending => rev (stable_sort (fun x y => skey_le (key x) (key y)) (snd sv))
     | AVersionSort => stable_sort (fun x y => skey_version_le (fst sv) (key x) (key y)) (snd sv)
     end).
(** crates/tombi-ast-editor/src/rule/array_values_order.rs:174-198 *)
Definition sorted_all (by_key : aval -> option str) (l : list (entry aval)) (o : aorder) : option (list (entry aval)) :=
  match sortable_values by_key l with Some sv => Some (sort_array_values sv o) | None => None end.
(** crates/tombi-ast-editor/src/rule/array_values_order.rs:200-283, for an [ArrayValuesOrderGroup] matching the item schema and
    members that resolve: each group is an order and the member schema, seen as the values it accepts and its sort key. *)
Fixpoint sorted_groups (groups : list (aorder * (aval -> bool) * (aval -> option str))) (l : list (entry aval)) : list (entry aval) :=
  match groups with
  | [] => l
  | (o, valid, by_key) :: groups =>
      let mine := filter (fun x => valid (i_value (fst x))) l in
      let rest := filter (fun x => negb (valid (i_value (fst x)))) l in
      (match mine with
       | [] => []
       | _ => match sortable_values by_key mine with Some sv => sort_array_values sv o | None => mine end
       end) ++ sorted_groups groups rest
  end.

(** ** The edits of one group of values
    A group is a node whose children are values and commas; the blanks and line breaks between them are left out. *)
Section Group.
Context {V : Type}.
Notation entry := (entry V).
Inductive child := CValue (i : item V) | CComma (c : comma).
Definition group_of (l : list entry) : list child :=
  flat_map (fun x => CValue (fst x) :: match snd x with Some c => [CComma c] | None => [] end) l.

(** The changes of crates/tombi-ast-editor/src/change.rs the rules make, naming values by number; the nodes of a replacement are
    those of the tree at that time, so an edit of a value before it is moved stays with it. *)
Inductive change :=
| RemoveTrailing (k : nat)                    (* Change::Remove of the trailing comment's token *)
| AppendAfter (k : nat) (c : comma)           (* Change::Append after the value *)
| ReplaceRange (first last : nat) (new : list child).
Definition without_trailing (i : item V) : item V :=
  {| i_id := i_id i; i_value := i_value i; i_leading := i_leading i; i_trailing := None |}.
Definition is_value (k : nat) (x : child) : bool := match x with CValue i => Nat.eqb (i_id i) k | CComma _ => false end.
(** [splice_children] detaches what it inserts from its old place (crates/tombi-rg-tree/src/cursor.rs:1007-1032). *)
Definition moved (new : list child) (x : child) : bool :=
  match x with
  | CValue i => existsb (is_value (i_id i)) new
  | CComma c =>
      match c_id c with
      | None => false
      | Some k => existsb (fun y => match y with CComma c' => match c_id c' with Some k' => Nat.eqb k k' | None => false end | _ => false end) new
      end
  end.
(** the node of the tree as it is now *)
Definition current (g : list child) (x : child) : child :=
  match x with
  | CValue i => match find (is_value (i_id i)) g with Some y => y | None => x end
  | CComma c => x
  end.
(** crates/tombi-ast-editor/src/editor.rs:64-94.  Removing a comment a second time does nothing: the token has no parent. *)
Definition apply_change (g : list child) (ch : change) : list child :=
  match ch with
  | RemoveTrailing k => map (fun x => if is_value k x then match x with CValue i => CValue (without_trailing i) | _ => x end else x) g
  | AppendAfter k c => flat_map (fun x => if is_value k x then [x; CComma c] else [x]) g
  | ReplaceRange first last new =>
      let before := take_while (fun x => negb (is_value first x)) g in
      let from := drop_while (fun x => negb (is_value last x)) g in
      filter (fun x => negb (moved new x)) before ++ map (current g) new ++ filter (fun x => negb (moved new x)) (tl from)
  end.

Definition has_comments (c : comma) : bool :=
  negb (match c_leading c with [] => true | _ => false end) || (match c_trailing c with Some _ => true | None => false end).
(** crates/tombi-ast-editor/src/rule/array_comma_trailing_comment.rs:9-54,
    crates/tombi-ast-editor/src/rule/inline_table_comma_trailing_comment.rs:9-54 *)
Definition comma_trailing_comment (x : entry) (should_append_missing_comma : bool) : list change :=
  match snd x with
  | Some c =>
      match i_trailing (fst x) with
      | Some t => if has_comments c then []
                  else [RemoveTrailing (i_id (fst x)); AppendAfter (i_id (fst x)) (make_comma_with_trailing_comment t)]
      | None => []
      end
  | None =>
      if should_append_missing_comma
      then match i_trailing (fst x) with
           | Some t => [RemoveTrailing (i_id (fst x)); AppendAfter (i_id (fst x)) (make_comma_with_trailing_comment t)]
           | None => [AppendAfter (i_id (fst x)) make_comma]
           end
      else []
  end.
(** the rule for each entry: [append_last] is the flag for the last one, the others are given [true] *)
Fixpoint comma_changes (append_last : bool) (l : list entry) : list change :=
  match l with
  | [] => []
  | [x] => comma_trailing_comment x append_last
  | x :: l => comma_trailing_comment x true ++ comma_changes append_last l
  end.

Definition is_last_comma (l : list entry) : bool :=
  match rev l with (_, Some _) :: _ => true | _ => false end.
(** The new last entry loses its comma if the old last one had none, unless the comma carries comments:
    crates/tombi-ast-editor/src/rule/array_values_order.rs:130-137 *)
Fixpoint drop_last_comma (l : list entry) : list entry :=
  match l with
  | [] => []
  | [(i, Some c)] => if has_comments c then [(i, Some c)] else [(i, None)]
  | [x] => [x]
  | x :: l => x :: drop_last_comma l
  end.
(** crates/tombi-ast-editor/src/rule/array_values_order.rs:92-172 and
    crates/tombi-ast-editor/src/rule/inline_table_keys_order.rs:39-115, from the sorted entries on *)
Definition order_changes (l sorted : list entry) : list change :=
  let sorted := if is_last_comma l then sorted else drop_last_comma sorted in
  match l with
  | [] => []
  | x :: _ => ReplaceRange (i_id (fst x)) (i_id (fst (last l x))) (group_of sorted) :: comma_changes (is_last_comma l) sorted
  end.
(** The edits of a group, crates/tombi-ast-editor/src/edit/array.rs:36-122 and crates/tombi-ast-editor/src/edit/inline_table.rs:24-76:
    first the commas, then the order, both computed from the tree before any edit.  The edits inside the values and those of the
    other groups touch other nodes and are left out.  [append_last] is whether the last value of the group must be followed by a
    comma: the group is not the last one, or the array has a trailing comma.  [sorted = None]: the order is left alone. *)
Definition edit_group (append_last : bool) (l : list entry) (sorted : option (list entry)) : list child :=
  fold_left apply_change
    (comma_changes append_last l ++ match sorted with Some s => order_changes l s | None => [] end) (group_of l).

(** reading the entries back: crates/tombi-ast/src/support/iter.rs:24-45 *)
Fixpoint with_comma (pending : option (item V)) (l : list child) : list entry :=
  match l with
  | [] => match pending with Some i => [(i, None)] | None => [] end
  | CValue i :: l => match pending with Some j => (j, None) :: with_comma (Some i) l | None => with_comma (Some i) l end
  | CComma c :: l => match pending with Some j => (j, Some c) :: with_comma None l | None => with_comma None l end
  end.
End Group.
Arguments child : clear implicits.

(** an array's group after the edits *)
Definition array_edited (append_last : bool) (by_key : aval -> option str) (o : aorder) (l : list (entry aval)) : list (entry aval) :=
  with_comma None (edit_group append_last l (match l with [] => None | _ => sorted_all by_key l o end)).
