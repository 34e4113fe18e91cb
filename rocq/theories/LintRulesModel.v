(** The linter's rules about commas and inline tables, over the syntax tree. *)
From Coq Require Import String Ascii List NArith Bool Arith.
From Verif Require Import Base SyntaxKind TextModel LexerModel ParserModel TomlTextModel AstModel FormatterModel.
Import ListNotations.
Open Scope N_scope.
Open Scope list_scope.

(** crates/tombi-linter/src/diagnostic.rs:2-17, without the two rules about order, which are those of LinterModel.v.
    [OutOfFuel] is not a diagnostic of the code: it is what the model says when it has not followed the tree to its end. *)
Inductive rule_kind := ForbiddenKeyValueTrailingComma | InlineTableMustSingleLine | ForbiddenInlineTableLastComma | MissingArrayComma |
  MissingInlineTableComma | OutOfFuel.
(** The kind of a diagnostic and the bytes it is about.  The code has lines and columns in the place of bytes. *)
Notation report := (rule_kind * span)%type.
(** [Range::at(x.range().end)] *)
Definition at_end (e : el) : span := let s := send (espan_of e) in MkSpan s s.

(** crates/tombi-linter/src/rule/missing_comma.rs:17-28 and 40-50 *)
Fixpoint missing_comma (k : rule_kind) (items : list (el * option el)) : list report :=
  match items with
  | [] => []
  | (item, comma) :: rest =>
      match rest, comma with
      | _ :: _, None => [(k, at_end item)]
      | _, _ => []
      end ++ missing_comma k rest
  end.
(** crates/tombi-linter/src/rule/missing_comma.rs:11-16 *)
Definition values_with_comma (e : el) : list (el * option el) := flat_map (items_with_comma is_value) (item_groups (value_with_comma_groups e)).
(** crates/tombi-linter/src/rule/missing_comma.rs:33-38 and crates/tombi-ast/src/impls/inline_table.rs:77-88 *)
Definition key_values_with_comma (e : el) : list (el * option el) :=
  flat_map (items_with_comma (is_kind KEY_VALUE)) (item_groups (key_value_with_comma_groups e)).

(** crates/tombi-linter/src/rule/trailing_comma.rs:8-31 *)
Definition comma_token (comma : el) : option el := token COMMA comma.
Definition trailing_comma (e : el) : list report :=
  flat_map (fun group => flat_map (fun p =>
    match snd p with
    | None => []
    | Some comma => match comma_token comma with Some t => [(ForbiddenKeyValueTrailingComma, espan_of t)] | None => [] end
    end) (items_with_comma (is_kind KEY_VALUE) group)) (item_groups (key_value_groups e)).

(** crates/tombi-ast/src/impls/inline_table.rs:183-189 *)
Definition has_direct_line_break (t : tree) : bool := match t with TToken k _ => kind_eqb k LINE_BREAK | TNode _ _ => false end.
(** crates/tombi-ast/src/impls/inline_table.rs:181-209 *)
Fixpoint has_line_break_in_groups (t : tree) : bool :=
  match t with
  | TToken k _ => kind_eqb k LINE_BREAK
  | TNode k cs =>
      match k with
      | DANGLING_COMMENT_GROUP | KEY_VALUE_GROUP | KEY_VALUE_WITH_COMMA_GROUP => existsb has_line_break_in_groups cs
      | KEY_VALUE | COMMA => existsb has_direct_line_break cs
      | _ => false
      end
  end.
(** crates/tombi-ast/src/impls/inline_table.rs:211-217 *)
Definition has_newlines_between_braces (e : el) : bool :=
  existsb has_line_break_in_groups (map it
    (take_while (fun c => negb (has_kind BRACE_END c)) (tl (drop_while (fun c => negb (has_kind BRACE_START c)) (children_with_tokens e))))).
(** crates/tombi-ast/src/impls/inline_table.rs:101-115: the comma behind the last key/value of the last group that has one *)
Fixpoint find_map {A B} (f : A -> option B) (l : list A) : option B :=
  match l with [] => None | x :: l => match f x with Some y => Some y | None => find_map f l end end.
Definition last_comma (items : list (el * option el)) : option bool :=
  match rev items with [] => None | (_, c) :: _ => Some (match c with Some _ => true | None => false end) end.
Definition has_last_key_value_trailing_comma (e : el) : bool :=
  match find_map (fun g => match g with
                           | GDangling _ => None
                           | GItems group => last_comma (items_with_comma (is_kind KEY_VALUE) group)
                           end) (rev (key_value_with_comma_groups e)) with
  | Some b => b
  | None => false
  end.
(** crates/tombi-linter/src/rule/inline_table_toml_version.rs:8-31 *)
Definition inline_table_version (v : toml_version) (e : el) : list report :=
  if negb (is_v1_0_0 v) then []
  else (if has_newlines_between_braces e then [(InlineTableMustSingleLine, espan_of e)] else []) ++
    (if has_last_key_value_trailing_comma e then
       match rev (key_values_with_comma e) with
       | (_, Some comma) :: _ => [(ForbiddenInlineTableLastComma, espan_of comma)]
       | _ => []
       end
     else []).

(** crates/tombi-linter/src/lint/key_value.rs:6-13, over the lint of a value *)
Definition lint_key_value (lint : el -> list report) (e : el) : list report := match value_child e with Some x => lint x | None => [] end.
(** crates/tombi-linter/src/lint/value.rs:14-36, crates/tombi-linter/src/lint/value/array.rs:6-15 and
    crates/tombi-linter/src/lint/value/inline_table.rs:6-17.  The lints of the other values do nothing.  The code recurs along the tree, the
    model on its height. *)
Fixpoint lint_value (fuel : nat) (v : toml_version) (e : el) : list report :=
  match fuel with
  | O => [(OutOfFuel, espan_of e)]
  | S fuel =>
      match ekind_of e with
      | ARRAY => missing_comma MissingArrayComma (values_with_comma e) ++ flat_map (lint_value fuel v) (array_values e)
      | INLINE_TABLE =>
          missing_comma MissingInlineTableComma (key_values_with_comma e) ++ inline_table_version v e ++
          flat_map (lint_key_value (lint_value fuel v)) (inline_key_values e)
      | _ => []
      end
  end.
(** crates/tombi-linter/src/lint/table.rs:6-16 and crates/tombi-linter/src/lint/array_of_table.rs:6-16 *)
Definition lint_table (fuel : nat) (v : toml_version) (e : el) : list report :=
  trailing_comma e ++ flat_map (lint_key_value (lint_value fuel v)) (key_values e).
(** crates/tombi-linter/src/lint/root.rs:6-20 and 25-34 *)
Definition lint_root (fuel : nat) (v : toml_version) (e : el) : list report :=
  trailing_comma e ++ flat_map (lint_key_value (lint_value fuel v)) (key_values e) ++
  flat_map (lint_table fuel v) (children_of is_table_or_array_of_table e).
(** What the rules report in the tree of a text *)
Definition lint_tree (v : toml_version) (t : tree) : list report := lint_root (height t) v (El [] t).
