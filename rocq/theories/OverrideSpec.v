(** What the paths of the configuration mean, independently of how they are read: the notation of the
    documentation (docs and the comments of crates/tombi-config/src/schema.rs:390-400): keys as in TOML, [*] for
    any key, [[*]] for any index, [[1]] for one index; keys after the first part come after a dot. *)
From Coq Require Import List NArith Bool Arith Lia.
From Verif Require Import Base TomlStringGrammar PointerSpec OverrideModel.
Import ListNotations.
Open Scope N_scope.
Open Scope list_scope.

(** a word: characters other than [.] and [[], the first one no quote *)
Definition word (s : str) : Prop :=
  s <> [] /\ Forall (fun c => c <> 46 /\ c <> 91) s /\ (forall r, s <> 34 :: r) /\ (forall r, s <> 39 :: r).
(** [key_text w p]: [w] is written for a key or any key *)
Inductive key_text : str -> pattern -> Prop :=
| text_key w k : simple_key false w k -> key_text w (PKey k)
| text_word s : word s -> s <> [42] -> key_text s (PKey s)
| text_any : key_text [42] PAnyKey.
(** [index_text w p]: [w] is written for an index or any index *)
Inductive index_text : str -> pattern -> Prop :=
| text_index t n : index_of t n -> n < 2 ^ 64 -> index_text ([91] ++ t ++ [93]) (PIndex n)
| text_any_index : index_text [91; 42; 93] PAnyIndex.
(** what follows the first part *)
Inductive more_text : str -> list pattern -> Prop :=
| more_none : more_text [] []
| more_key w p r ps : key_text w p -> more_text r ps -> more_text ([46] ++ w ++ r) (p :: ps)
| more_index w p r ps : index_text w p -> more_text r ps -> more_text (w ++ r) (p :: ps).
Inductive path_text : str -> list pattern -> Prop :=
| path_key w p r ps : key_text w p -> more_text r ps -> path_text (w ++ r) (p :: ps)
| path_index w p r ps : index_text w p -> more_text r ps -> path_text (w ++ r) (p :: ps).

(** [covers ps path]: the path is one of those the pattern stands for *)
Inductive part_covers : pattern -> accessor -> Prop :=
| covers_key k : part_covers (PKey k) (AccKey k)
| covers_any_key k : part_covers PAnyKey (AccKey k)
| covers_any_index n : part_covers PAnyIndex (AccIndex n)
| covers_index n : part_covers (PIndex n) (AccIndex n).
Definition covers (ps : list pattern) (path : list accessor) : Prop := Forall2 part_covers ps path.
(** how many parts of a pattern are no wildcards *)
Definition definite (p : pattern) : bool := match p with PKey _ | PIndex _ => true | _ => false end.
Definition precision (ps : list pattern) : nat := length (filter definite ps).
(** the patterns that can be written: keys of characters that TOML 1.0 has escapes for, and not of the form
    [${...}] unless they are words; indices of 64 bits *)
Definition writable_char (c : char) : Prop := is_scalar c /\ c <> 0 /\ c <> 7 /\ c <> 11 /\ c <> 27.
Definition placeholder_like (s : str) : Prop := exists u, s = [36; 123] ++ u /\ exists v, s = v ++ [125].
Definition writable (p : pattern) : Prop :=
  match p with
  | PKey k => (placeholder_like k /\ word k) \/ (~ placeholder_like k /\ Forall writable_char k)
  | PIndex n => n < 2 ^ 64
  | _ => True
  end.
(** [chosen items path t r]: the rule [r] is that of the most precise target [t] for the path; of equally precise ones the
    first counts *)
Definition chosen {rule} (all : list (list pattern * rule)) (path : list accessor) (o : list pattern * rule) : Prop :=
  exists before after, all = before ++ o :: after /\ covers (fst o) path /\
    (forall x, In x before -> covers (fst x) path -> (precision (fst x) < precision (fst o))%nat) /\
    (forall x, In x after -> covers (fst x) path -> (precision (fst x) <= precision (fst o))%nat).
