(** Model of the two rewriting actions of the editor, "Convert Dotted Keys to Inline Table" and "Convert Inline Table to Dotted Keys":
    crates/tombi-lsp/src/code_action.rs, with the places that the document tree keeps for them:
    crates/tombi-document-tree/src/value/table.rs.

    Simplifications:
    - documents without headers; they may have errors of no kind (one error and there is no tree here);
    - a place is the number of characters before it; positions of lines and columns and those of the editor are the subject of TextModel
      and LspTextModel;
    - the keys under the cursor, with their kinds and places, are given ([cursor] below says which); crates/tombi-lsp/src/completion.rs:869-944
      and crates/tombi-document-tree/src/lib.rs:135-184 find them;
    - comments are part of the text between other things, and an inline table tells whether it has any inside. *)
From Coq Require Import String Ascii List NArith Bool Arith Lia.
From Verif Require Import Base TomlTextModel.
Import ListNotations.
Open Scope list_scope.
Open Scope nat_scope.

(** * The text of a document *)
(** a key as it is written, and what it says *)
Record key := Key { raw : str; val : str }.
(** a value: an array has a text after its bracket and after each element; an inline table after its brace and after each key/value (so the
    commas are in there); a key/value has a text after each key, the one after the last has the equals sign *)
Inductive lval :=
| LScalar (w : str)
| LArray (open : str) (vs : list (lval * str))
| LInline (open : str) (comments : bool) (items : list ((list (key * str) * lval) * str)).
Definition lkv := (list (key * str) * lval)%type.
Definition item := (lkv * str)%type.
Record doc := Doc { lead : str; items : list item }.

Definition keys_text (ks : list (key * str)) : str := flat_map (fun k => raw (fst k) ++ snd k) ks.
Fixpoint text (v : lval) : str :=
  match v with
  | LScalar w => w
  | LArray open vs => lit "[" ++ open ++ flat_map (fun x => text (fst x) ++ snd x) vs ++ lit "]"
  | LInline open _ items => lit "{" ++ open ++ flat_map (fun x => keys_text (fst (fst x)) ++ text (snd (fst x)) ++ snd x) items ++ lit "}"
  end.
Definition kv_text (kv : lkv) : str := keys_text (fst kv) ++ text (snd kv).
Definition items_text (l : list item) : str := flat_map (fun x => kv_text (fst x) ++ snd x) l.
Definition doc_text (d : doc) : str := lead d ++ items_text (items d).

(** * The tree with its places *)
Definition range := (nat * nat)%type.
(** range.rs: [+] *)
Definition join (a b : range) : range := (Nat.min (fst a) (fst b), Nat.max (snd a) (snd b)).
(** table.rs:10-55, the kinds that occur without headers *)
Inductive kind := Root | Table | InlineTable (has_comment : bool) | ParentKey | KeyValue.
(** values with [range] and [symbol_range]; the entries of a table are its keys with their places *)
Inductive rval :=
| RScalar (r : range) (w : str)
| RArray (r sr : range) (vs : list rval)
| RTable (k : kind) (r sr : range) (es : list ((str * range) * rval)).
Definition range_of (v : rval) : range := match v with RScalar r _ => r | RArray r _ _ => r | RTable _ r _ _ => r end.
Definition symbol_range (v : rval) : range := match v with RScalar r _ => r | RArray _ r _ => r | RTable _ _ r _ => r end.

Definition entries := list ((str * range) * rval).
Fixpoint get (k : str) (es : entries) : option rval :=
  match es with [] => None | (k', v) :: es => if str_eqb k (fst k') then Some v else get k es end.
Fixpoint put (k : str) (v : rval) (es : entries) : entries :=
  match es with [] => [] | (k', v') :: es => if str_eqb k (fst k') then (k', v) :: es else (k', v') :: put k v es end.
Definition is_inline (v : rval) : bool := match v with RTable (InlineTable _) _ _ _ => true | _ => false end.
Definition is_table (v : rval) : bool := match v with RTable _ _ _ _ => true | _ => false end.
(** table.rs:247-263 *)
Definition key_values_conflict (es1 es2 : entries) : bool :=
  existsb (fun e => match get (fst (fst e)) es2 with Some v2 => if is_table (snd e) then is_inline (snd e) else is_inline v2 | None => false end) es1.
(** table.rs:246-278; the root is only merged with the tables of key/values *)
Definition conflict (k1 : kind) (es1 : entries) (k2 : kind) (es2 : entries) : bool :=
  match k1, k2 with
  | KeyValue, KeyValue => key_values_conflict es1 es2
  | _, (Table | InlineTable _) => true
  | InlineTable _, (ParentKey | KeyValue) => true
  | _, _ => false
  end.
(** table.rs:242-333 [Table::merge]: [None] if there is any error *)
Fixpoint merge (v1 v2 : rval) {struct v2} : option rval :=
  match v1, v2 with
  | RTable k1 r1 s1 es1, RTable k2 r2 s2 es2 =>
      if conflict k1 es1 k2 es2 then None
      else option_map (RTable k1 (join r1 r2) (join s1 s2))
        ((fix go (es1 es2 : entries) {struct es2} : option entries :=
            match es2 with
            | [] => Some es1
            | (k, w2) :: es2 =>
                match get (fst k) es1 with
                | None => go (es1 ++ [(k, w2)]) es2
                | Some w1 => match merge w1 w2 with Some w => go (put (fst k) w es1) es2 | None => None end
                end
            end) es1 es2)
  | _, _ => None
  end.
Fixpoint merge_all (v : rval) (l : list (option rval)) : option rval :=
  match l with
  | [] => Some v
  | Some w :: l => match merge v w with Some v => merge_all v l | None => None end
  | None :: _ => None
  end.

(** table.rs:779-902: a key/value at place [o], whose value is [v]; :147-157 [new_key_value], :170-180 [new_parent_key] *)
Fixpoint kv_table (o : nat) (ks : list (key * str)) (v : rval) : rval :=
  match ks with
  | [] => v
  | (k, s) :: ks =>
      let kr := (o, o + length (raw k)) in
      match ks with
      | [] => RTable KeyValue (join kr (range_of v)) (join kr (symbol_range v)) [((val k, kr), v)]
      | _ => let t := kv_table (o + length (raw k) + length s) ks v in
             RTable ParentKey (o, snd (range_of t)) (o, snd (symbol_range t)) [((val k, kr), t)]
      end
  end.
Fixpoint all_some {A} (l : list (option A)) : option (list A) :=
  match l with
  | [] => Some []
  | Some x :: l => option_map (cons x) (all_some l)
  | None :: _ => None
  end.
Definition set_kind (k : kind) (v : rval) : rval := match v with RTable _ r s es => RTable k r s es | _ => v end.
(** table.rs:904-1034 (inline tables, filled as a table of kind [Table]), array.rs; the [range] of an array or inline table
    also has the comment behind it, which the actions do not look at *)
Fixpoint tree_of (o : nat) (v : lval) : option rval :=
  match v with
  | LScalar w => Some (RScalar (o, o + length w) w)
  | LArray open vs =>
      let r := (o, o + length (text v)) in
      option_map (RArray r r)
        (all_some ((fix go (o : nat) (vs : list (lval * str)) : list (option rval) :=
                      match vs with
                      | [] => []
                      | (v, gap) :: vs => tree_of o v :: go (o + length (text v) + length gap) vs
                      end) (o + 1 + length open) vs))
  | LInline open c items =>
      let r := (o, o + length (text v)) in
      option_map (set_kind (InlineTable c))
        (merge_all (RTable Table r r [])
           ((fix go (o : nat) (l : list ((list (key * str) * lval) * str)) : list (option rval) :=
               match l with
               | [] => []
               | ((ks, v), gap) :: l =>
                   option_map (kv_table o ks) (tree_of (o + length (keys_text ks)) v)
                   :: go (o + length (keys_text ks) + length (text v) + length gap) l
               end) (o + 1 + length open) items))
  end.
Fixpoint item_trees (o : nat) (l : list item) : list (option rval) :=
  match l with
  | [] => []
  | ((ks, v), gap) :: l =>
      option_map (kv_table o ks) (tree_of (o + length (keys_text ks)) v)
      :: item_trees (o + length (keys_text ks) + length (text v) + length gap) l
  end.
(** table.rs:490-560, without headers *)
Definition tree (d : doc) : option rval :=
  let r := (0, length (doc_text d)) in merge_all (RTable Root r r []) (item_trees (length (lead d)) (items d)).

(** * The actions *)
Inductive accessor := AKey (k : str) | AIndex (i : nat).
(** crates/tombi-accessor/src/lib.rs: [AccessorKeyKind], [KeyContext], [AccessorContext] *)
Inductive key_kind := Header | Dotted | Last.
Inductive context := CKey (k : key_kind) (r : range) | CIndex.
Definition access (a : accessor) (v : rval) : option rval :=
  match a, v with
  | AKey k, RTable _ _ _ es => get k es
  | AIndex i, RArray _ _ vs => nth_error vs i
  | _, _ => None
  end.
Fixpoint access_all (l : list accessor) (v : rval) : option rval :=
  match l with
  | [] => Some v
  | a :: l => match access a v with Some w => access_all l w | None => None end
  end.
(** crates/tombi-document-tree/src/lib.rs:106-133 *)
Definition dig_accessors (t : rval) (l : list accessor) : option (accessor * rval) :=
  match l with
  | AKey k :: _ => option_map (pair (last l (AKey k))) (access_all l t)
  | _ => None
  end.
(** what is to be replaced by what *)
Definition edit := (range * str)%type.
(** code_action.rs:28-98 *)
Definition to_inline (t : rval) (accessors : list accessor) (contexts : list context) : option (list edit) :=
  if length accessors <? 2 then None
  else match nth_error contexts (length accessors - 2) with
       | Some (CKey pk pr) =>
           match dig_accessors t (removelast accessors) with
           | Some (AKey parent, RTable kind _ _ [((k, _), v)]) =>
               match pk, kind with
               | Header, _ | _, InlineTable _ => None
               | _, _ =>
                   Some [((fst pr, fst (range_of v)),
                          to_key_string parent ++ lit " = { " ++ k ++ match kind with KeyValue => lit " = " | _ => lit "." end);
                         ((snd (symbol_range v), snd (symbol_range v)), lit " }")]
               end
           | _ => None
           end
       | _ => None
       end.
(** code_action.rs:100-166; that the node of the table has no comments inside is asked twice *)
Definition to_dotted (t : rval) (accessors : list accessor) (contexts : list context) : option (list edit) :=
  if length accessors <? 2 then None
  else match nth_error contexts (length accessors - 2) with
       | Some (CKey _ pr) =>
           match dig_accessors t (removelast accessors) with
           | Some (_, RTable (InlineTable false) _ sr [((_, kr), v)]) =>
               Some [((snd pr, fst kr), lit "."); ((snd (range_of v), snd sr), [])]
           | _ => None
           end
       | _ => None
       end.

(** * What the editor does with edits: each replaces its part of the text, none of which overlap *)
Definition replace (e : edit) (s : str) : str := firstn (fst (fst e)) s ++ snd e ++ skipn (snd (fst e)) s.
Definition apply_edits (es : list edit) (s : str) : str := fold_right replace s es.
