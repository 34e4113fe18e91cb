(** * The ring of elements below a node: crates/tombi-rg-tree/src/sll.rs *)
From Coq Require Import List Bool Arith.
From Verif Require Import MutModel.
Import ListNotations.
Open Scope list_scope.
Open Scope nat_scope.

(** the three cells of each element (sll.rs:7-14), and the head *)
Record ring := MkRing { prev : nat -> nat; next : nat -> nat; key : nat -> nat; head : option nat }.
Definition set (f : nat -> nat) (x v : nat) : nat -> nat := fun y => if Nat.eqb y x then v else f y.
Definition set_prev x v s := MkRing (set (prev s) x v) (next s) (key s) (head s).
Definition set_next x v s := MkRing (prev s) (set (next s) x v) (key s) (head s).
Definition set_key x v s := MkRing (prev s) (next s) (set (key s) x v) (head s).
Definition set_head v s := MkRing (prev s) (next s) (key s) v.

(** sll.rs:89-113; [Loops] stands for running on after [fuel] elements. [SmallerThanNotHead] is [After] *)
Fixpoint link_loop (fuel : nat) (s : ring) (k curr : nat) : place :=
  match fuel with
  | O => Loops
  | S fuel => match Nat.compare (key s curr) k with Lt => After curr | Eq => Already curr | Gt => link_loop fuel s k (prev s curr) end
  end.
Definition link_ptr (fuel : nat) (s : ring) (e : nat) : place :=
  match head s with
  | None => EmptyHead
  | Some old => if key s e <? key s old then SmallerThanHead else link_loop fuel s (key s e) (prev s old)
  end.
(** sll.rs:25-56 *)
Definition add_ptr (p : place) (e : nat) (s : ring) : ring :=
  let s := set_next e e (set_prev e e s) in
  match p with
  | EmptyHead => set_head (Some e) s
  | SmallerThanHead =>
      match head s with
      | None => s
      | Some old =>
          let pr := prev s old in
          let s := set_prev old e s in
          let s := set_next pr e s in
          let s := set_next e old s in
          let s := set_prev e pr s in
          set_head (Some e) s
      end
  | After curr =>
      let nx := next s curr in
      let s := set_next curr e s in
      let s := set_prev nx e s in
      let s := set_prev e curr s in
      set_next e nx s
  | _ => s
  end.
(** sll.rs:70-86 *)
Definition unlink_ptr (e : nat) (s : ring) : ring :=
  let pr := prev s e in
  let s := set_prev e e s in
  let nx := next s e in
  let s := set_next e e s in
  let s := set_next pr nx s in
  let s := set_prev nx pr s in
  match head s with
  | Some x => if Nat.eqb x e then set_head (if Nat.eqb nx e then None else Some nx) s else s
  | None => s
  end.
(** sll.rs:115-131; [None]: it runs on after [fuel] elements *)
Fixpoint adjust_loop (fuel : nat) (from : nat) (by_ : nat -> nat) (e curr : nat) (s : ring) : option ring :=
  match fuel with
  | O => None
  | S fuel =>
      let s := if from <=? key s curr then set_key curr (by_ (key s curr)) s else s in
      let curr := next s curr in
      if Nat.eqb curr e then Some s else adjust_loop fuel from by_ e curr s
  end.
Definition adjust_ptr (fuel : nat) (from : nat) (by_ : nat -> nat) (e : nat) (s : ring) : option ring := adjust_loop fuel from by_ e e s.
