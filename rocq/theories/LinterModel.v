(** Model of the syntactic lint rules (crates/tombi-linter/src/rule).  Definitions only.  Each rule is
    modelled with its level switched on and not disabled by a comment directive, and returns the elements
    it reports (the diagnostics carry their ranges). *)
From Coq Require Import String Ascii List NArith Bool.
From Verif Require Import Base SyntaxKind TextModel LexerModel LexerSpec TomlTextModel ParserModel ParserBuild AstModel.
Import ListNotations.
Open Scope N_scope.
Open Scope list_scope.

(** [HashMap<key, Vec<(usize, T)>>] with [entry(key).or_default().push(..)].  The order of the groups is
    the order of insertion here and unspecified in the code. *)
Fixpoint push_group {X} (k : str) (x : X) (gs : list (str * list X)) : list (str * list X) :=
  match gs with
  | [] => [(k, [x])]
  | (k', xs) :: gs' => if str_eqb k k' then (k', xs ++ [x]) :: gs' else (k', xs) :: push_group k x gs'
  end.

(** crates/tombi-linter/src/rule/tables_out_of_order.rs:121-142 [extract_key_parts]; [None] when a slice
    panics. *)
Definition key_part (source : str) (key : el) : option str :=
  let sp := espan_of key in
  match ekind_of key with
  | BARE_KEY => text_slice source (sstart sp) (send sp)
  | _ => text_slice source (sstart sp + 1) (send sp - 1)
  end.
Fixpoint extract_key_parts (source : str) (keys : list el) : option (list str) :=
  match keys with
  | [] => Some []
  | k :: ks =>
      match key_part source k, extract_key_parts source ks with
      | Some p, Some ps => Some (p :: ps)
      | _, _ => None
      end
  end.

(** crates/tombi-linter/src/rule/tables_out_of_order.rs:50-76: position, key parts and table. *)
Fixpoint table_positions (source : str) (position : N) (items : list el) : option (list (N * list str * el)) :=
  match items with
  | [] => Some []
  | item :: items' =>
      match table_positions source (position + 1) items' with
      | None => None
      | Some rest =>
          if is_table_or_array_of_table (ekind_of item) then
            match keys_child item with
            | None => Some rest
            | Some header =>
                match extract_key_parts source (keys_of header) with
                | None => None
                | Some [] => Some rest
                | Some parts => Some ((position, parts, item) :: rest)
                end
            end
          else Some rest
      end
  end.

Definition list_min (l : list N) : N := match l with [] => 0 | x :: l' => fold_left N.min l' x end.
Definition list_max (l : list N) : N := match l with [] => 0 | x :: l' => fold_left N.max l' x end.

(** crates/tombi-linter/src/rule/tables_out_of_order.rs:78-118 *)
Definition out_of_order_tables (ts : list (N * list str * el)) : list el :=
  let groups := fold_left (fun gs '(pos, keys, e) => match keys with k :: _ => push_group k (pos, e) gs | [] => gs end) ts [] in
  flat_map (fun '(prefix, positions) =>
    if Nat.ltb 1 (length positions) then
      let min_pos := list_min (map fst positions) in
      let max_pos := list_max (map fst positions) in
      if existsb (fun '(pos, keys, _) => (min_pos <? pos) && (pos <? max_pos) &&
                    (match keys with k :: _ => negb (str_eqb k prefix) | [] => false end)) ts
      then map snd positions else []
    else []) groups.
Definition tables_out_of_order (source : str) (root : el) : option (list el) :=
  option_map out_of_order_tables (table_positions source 0 (root_items root)).

(** crates/tombi-linter/src/rule/dotted_keys_out_of_order.rs:70-85; [None] when the text of a key panics *)
Definition first_key_text (v : toml_version) (key_value : el) : option (option str) :=
  match keys_child key_value with
  | None => Some None
  | Some keys =>
      match keys_of keys with
      | [] => Some None
      | key :: _ =>
          match try_to_raw_text v key with
          | DOk s => Some (Some s)
          | DErr _ => Some None
          | DPanic => None
          end
      end
  end.
Fixpoint dotted_groups (v : toml_version) (index : N) (kvs : list el) (gs : list (str * list (N * el))) : option (list (str * list (N * el))) :=
  match kvs with
  | [] => Some gs
  | kv :: kvs' =>
      match first_key_text v kv with
      | None => None
      | Some None => dotted_groups v (index + 1) kvs' gs
      | Some (Some k) => dotted_groups v (index + 1) kvs' (push_group k (index, kv) gs)
      end
  end.
(** [positions.windows(2).any(|w| w[0].0 + 1 != w[1].0)] *)
Fixpoint has_gap (l : list N) : bool :=
  match l with
  | a :: ((b :: _) as l') => negb (N.eqb (a + 1) b) || has_gap l'
  | _ => false
  end.
(** crates/tombi-linter/src/rule/dotted_keys_out_of_order.rs:87-107 *)
Definition dotted_keys_out_of_order (v : toml_version) (kvs : list el) : option (list el) :=
  option_map (fun gs => flat_map (fun '(_, positions) => if has_gap (map fst positions) then map snd positions else []) gs)
    (dotted_groups v 0 kvs []).

(** crates/tombi-linter/src/rule/missing_comma.rs:11-29: the reported item is the one whose end is in the
    diagnostic. *)
Fixpoint missing_commas (items : list (el * option el)) : list el :=
  match items with
  | [] => []
  | (x, comma) :: rest =>
      match rest, comma with
      | _ :: _, None => x :: missing_commas rest
      | _, _ => missing_commas rest
      end
  end.
Definition array_missing_comma (array : el) : list el :=
  missing_commas (flat_map (items_with_comma is_value) (item_groups (value_with_comma_groups array))).
(** crates/tombi-linter/src/rule/missing_comma.rs:31-51 *)
Definition inline_table_missing_comma (table : el) : list el :=
  missing_commas (flat_map (items_with_comma (is_kind KEY_VALUE)) (item_groups (key_value_with_comma_groups table))).

(** crates/tombi-linter/src/rule/trailing_comma.rs:8-33: the commas reported. *)
Definition trailing_commas (e : el) : list el :=
  flat_map (fun g => flat_map (fun '(_, c) => match c with Some c => match token COMMA c with Some t => [t] | None => [] end | None => [] end)
                       (items_with_comma (is_kind KEY_VALUE) g)) (item_groups (key_value_groups e)).

(** crates/tombi-ast/src/impls/inline_table.rs:92-105 [has_last_key_value_trailing_comma] *)
Fixpoint find_map {A B} (f : A -> option B) (l : list A) : option B :=
  match l with [] => None | x :: l' => match f x with Some y => Some y | None => find_map f l' end end.
Definition last_opt {A} (l : list A) : option A := match rev l with x :: _ => Some x | [] => None end.
Definition has_last_key_value_trailing_comma (table : el) : bool :=
  match find_map (fun g => match g with
      | GDangling _ => None
      | GItems e => option_map (fun '(_, c) => match c with Some _ => true | None => false end) (last_opt (items_with_comma (is_kind KEY_VALUE) e))
      end) (rev (key_value_with_comma_groups table)) with
  | Some b => b
  | None => false
  end.
(** crates/tombi-ast/src/impls/inline_table.rs:171-213 [has_newlines_between_braces] *)
Definition is_line_break_token (t : tree) : bool := match t with TToken LINE_BREAK _ => true | _ => false end.
Fixpoint line_break_in_groups (t : tree) : bool :=
  match t with
  | TToken k _ => kind_eqb k LINE_BREAK
  | TNode k cs =>
      match k with
      | DANGLING_COMMENT_GROUP | KEY_VALUE_GROUP | KEY_VALUE_WITH_COMMA_GROUP => existsb line_break_in_groups cs
      | KEY_VALUE | COMMA => existsb is_line_break_token cs
      | _ => false
      end
  end.
Definition has_newlines_between_braces (table : el) : bool :=
  existsb (fun e => line_break_in_groups (it e))
    (take_while (fun e => negb (has_kind BRACE_END e)) (tl (drop_while (fun e => negb (has_kind BRACE_START e)) (children_with_tokens table)))).
(** crates/tombi-linter/src/rule/inline_table_toml_version.rs:7-33: whether the table is reported as not on
    one line, and the trailing comma reported. *)
Definition inline_table_version (v : toml_version) (table : el) : bool * list el :=
  if negb (is_v1_0_0 v) then (false, [])
  else (has_newlines_between_braces table,
        if has_last_key_value_trailing_comma table then
          match last_opt (flat_map (items_with_comma (is_kind KEY_VALUE)) (item_groups (key_value_with_comma_groups table))) with
          | Some (_, Some c) => [c]
          | _ => []
          end
        else []).
