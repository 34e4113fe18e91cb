(** crates/tombi-syntax/src/generated/syntax_kind.rs:7-57 *)
From Coq Require Import Bool.

Inductive kind :=
| TOMBSTONE | EOF | COMMA | DOT | EQUAL | BRACKET_START | BRACKET_END | BRACE_START | BRACE_END
| DOUBLE_BRACKET_START | DOUBLE_BRACKET_END
| BASIC_STRING | MULTI_LINE_BASIC_STRING | LITERAL_STRING | MULTI_LINE_LITERAL_STRING
| INTEGER_DEC | INTEGER_HEX | INTEGER_OCT | INTEGER_BIN | FLOAT | BOOLEAN
| OFFSET_DATE_TIME | LOCAL_DATE_TIME | LOCAL_DATE | LOCAL_TIME
| WHITESPACE | LINE_BREAK | COMMENT | ERROR
| ROOT | KEYS | KEY | VALUE | KEY_VALUE | BARE_KEY | ARRAY | TABLE | INLINE_TABLE | ARRAY_OF_TABLE
| DANGLING_COMMENT_GROUP | KEY_VALUE_GROUP | KEY_VALUE_WITH_COMMA_GROUP | VALUE_WITH_COMMA_GROUP
| INVALID_TOKEN | LAST_KIND.

Definition kind_eq_dec (a b : kind) : {a = b} + {a <> b}.
Proof. decide equality. Defined.

Definition kind_eqb (a b : kind) : bool := if kind_eq_dec a b then true else false.

Lemma kind_eqb_eq a b : kind_eqb a b = true <-> a = b.
Proof. unfold kind_eqb; destruct (kind_eq_dec a b); split; congruence. Qed.

Lemma kind_eqb_neq a b : kind_eqb a b = false <-> a <> b.
Proof. unfold kind_eqb; destruct (kind_eq_dec a b); split; congruence. Qed.

Lemma kind_eqb_refl a : kind_eqb a a = true.
Proof. apply kind_eqb_eq; reflexivity. Qed.

(** crates/tombi-syntax/src/generated/syntax_kind.rs:60-62 [SyntaxKind::is_trivia] *)
Definition is_trivia (k : kind) : bool := kind_eqb k WHITESPACE.
