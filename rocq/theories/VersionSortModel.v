(** Model of crates/tombi-version-sort/src/lib.rs: the comparison that sorts keys and values. *)
From Coq Require Import String Ascii List NArith Bool.
From Verif Require Import Base NumberSpec.
Import ListNotations.
Open Scope N_scope.
Open Scope list_scope.

(** crates/tombi-version-sort/src/lib.rs:150-165 *)
Inductive chunk := Underscore | Hyphen | VersionOp (op : str) | Str (s : str) | Number (value : N) (zeros : N) (source : str).

(** [str::starts_with] *)
Fixpoint starts_with (p s : str) : bool :=
  match p, s with
  | [], _ => true
  | a :: p, b :: s => N.eqb a b && starts_with p s
  | _ :: _, [] => false
  end.

(** crates/tombi-version-sort/src/lib.rs:105-107 *)
Definition version_ops : list str := map lit ["==="; ">="; "<="; "=="; "!="; "~="; "~>"; ">"; "<"; "="; "^"; "~"]%string.
(** crates/tombi-version-sort/src/lib.rs:103-113; on the remaining text, the operator found instead of its end *)
Definition check_version_operator_at (remaining : str) : option str := find (fun op => starts_with op remaining) version_ops.

(** crates/tombi-version-sort/src/lib.rs:53-101: where the string chunk ends, after its first character.  The
    operator found there is not part of the chunk, and the chunk is not empty, so its text is the text up to here. *)
Fixpoint str_chunk_tail (s : str) : str * str :=
  match s with
  | [] => ([], [])
  | c :: s' =>
      if N.eqb c 95 || N.eqb c 45 then ([], s)
      else if is_ascii_digit c then ([], s)
      else match check_version_operator_at s with
           | Some _ => ([], s)
           | None => let (a, r) := str_chunk_tail s' in (c :: a, r)
           end
  end.

(** [str::parse::<usize>] on a non-empty text of digits, 64 bit *)
Definition parse_usize (s : str) : option N := let v := positional 10 s in if v <? 2 ^ 64 then Some v else None.

(** crates/tombi-version-sort/src/lib.rs:15-51 *)
Definition parse_numeric_chunk (s : str) : option chunk * str :=
  let source := take_while is_ascii_digit s in
  let zeros := N.of_nat (length (take_while (N.eqb 48) source)) in
  (option_map (fun v => Number v zeros source) (parse_usize source), drop_while is_ascii_digit s).

(** crates/tombi-version-sort/src/lib.rs:119-145: [next] on the remaining text *)
Definition next_chunk (s : str) : option chunk * str :=
  match s with
  | [] => (None, [])
  | c :: s' =>
      if N.eqb c 95 then (Some Underscore, s')
      else if N.eqb c 45 then (Some Hyphen, s')
      else if is_ascii_digit c then parse_numeric_chunk s
      else match check_version_operator_at s with
           | Some op => (Some (VersionOp op), skipn (length op) s)
           | None => let (a, r) := str_chunk_tail s' in (Some (Str (c :: a)), r)
           end
  end.
(** The whole iterator.  [zip_longest] fuses it, so the first [None] ends it.  Every call consumes a
    character, so the length is enough fuel. *)
Fixpoint chunks_fuel (fuel : nat) (s : str) : list chunk :=
  match fuel with
  | O => []
  | S fuel => match next_chunk s with (Some c, r) => c :: chunks_fuel fuel r | (None, _) => [] end
  end.
Definition chunks (s : str) : list chunk := chunks_fuel (length s) s.

(** [str::cmp]: the order of the UTF-8 bytes is the order of the characters. *)
Fixpoint str_cmp (a b : str) : comparison :=
  match a, b with
  | [], [] => Eq
  | [], _ :: _ => Lt
  | _ :: _, [] => Gt
  | x :: a, y :: b => match x ?= y with Eq => str_cmp a b | o => o end
  end.

(** crates/tombi-version-sort/src/lib.rs:169-173 *)
Inductive more_leading_zeros := ZLeft | ZRight | ZEqual.

(** crates/tombi-version-sort/src/lib.rs:187-244: [inl o] returns [o], [inr z] continues with [z] *)
Definition cmp_chunk (z : more_leading_zeros) (a b : chunk) : comparison + more_leading_zeros :=
  let by_text ca cb := match str_cmp ca cb with Eq => inr z | o => inl o end in
  match a, b with
  | VersionOp ca, VersionOp cb => by_text ca cb
  | VersionOp _, _ => inl Lt
  | _, VersionOp _ => inl Gt
  | (Underscore | Hyphen), (Underscore | Hyphen) => inr z
  | (Underscore | Hyphen), _ => inl Lt
  | _, (Underscore | Hyphen) => inl Gt
  | Str ca, Str cb => by_text ca cb
  | Str ca, Number _ _ cb => by_text ca cb
  | Number _ _ ca, Str cb => by_text ca cb
  | Number va lza _, Number vb lzb _ =>
      match va ?= vb with
      | Eq =>
          if N.eqb lza lzb then inr z
          else match z with
               | ZEqual => if lzb <? lza then inr ZLeft else if lza <? lzb then inr ZRight else inr z
               | _ => inr z
               end
      | o => inl o
      end
  end.
(** crates/tombi-version-sort/src/lib.rs:183-252 *)
Fixpoint cmp_chunks (z : more_leading_zeros) (a b : list chunk) : comparison :=
  match a, b with
  | [], [] => match z with ZEqual => Eq | ZLeft => Lt | ZRight => Gt end
  | _ :: _, [] => Gt
  | [], _ :: _ => Lt
  | x :: a, y :: b => match cmp_chunk z x y with inl o => o | inr z => cmp_chunks z a b end
  end.
(** crates/tombi-version-sort/src/lib.rs:178-253 *)
Definition version_sort (a b : str) : comparison := cmp_chunks ZEqual (chunks a) (chunks b).
