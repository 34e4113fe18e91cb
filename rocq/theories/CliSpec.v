(** * What formatting some files should do, one file at a time and with nothing in between *)
From Coq Require Import List NArith Bool Arith.
From Verif Require Import Base GlobModel CliModel.
Import ListNotations.
Open Scope N_scope.
Open Scope list_scope.

Section Spec.
Context (inode : path -> option ino) (readable writable : ino -> bool) (disabled : path -> bool) (format : path -> bytes -> formatting) (check : bool).
(** the file at [p] can be opened: it is there and its permissions allow it, writing only if it may be written *)
Definition can_open (p : path) (i : ino) : Prop := inode p = Some i /\ readable i = true /\ (check = false -> writable i = true).
(** With the files as in [d], the file at [p] has to get the text [f]. *)
Definition to_be_written (d : disk) (p : path) (i : ino) (f : bytes) : Prop :=
  check = false /\ disabled p = false /\ can_open p i /\ format p (d i) = Formatted f /\ f <> d i.
(** With the files as in [d], this is how the file at [p] has to be counted. *)
Inductive counted (d : disk) (p : path) : outcome -> Prop :=
| switched_off : disabled p = true -> counted d p NotNeeded
| cannot_open : disabled p = false -> (forall i, ~ can_open p i) -> counted d p Failure
| already : forall i, disabled p = false -> can_open p i -> format p (d i) = Formatted (d i) -> counted d p NotNeeded
| invalid : forall i, disabled p = false -> can_open p i -> (forall f, format p (d i) <> Formatted f) -> counted d p Failure
| not_formatted : forall i f, disabled p = false -> can_open p i -> check = true -> format p (d i) = Formatted f -> f <> d i -> counted d p Failure
| gets_written : forall i f, to_be_written d p i f -> counted d p Success.
(** No file is named twice, by whatever paths. *)
Definition distinct (es : list entry) : Prop :=
  forall m n p q i, nth_error es m = Some (Found p) -> nth_error es n = Some (Found q) -> inode p = Some i -> inode q = Some i -> m = n.
(** No reading or writing for the entry with number [n] failed. *)
Definition no_failure (n : nat) (evs : list (nat * event)) : Prop := forall e, In (n, e) evs -> fails e = false.
End Spec.
