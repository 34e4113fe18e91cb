(** * What is said about edited red trees: paths, the trees that an edit leads to, histories of operations *)
From Coq Require Import List NArith Bool Arith.
From Verif Require Import Base SyntaxKind TextModel ParserModel GreenModel GreenProps MutModel.
Import ListNotations.
Open Scope list_scope.
Open Scope nat_scope.
Implicit Types h : heap.

(** the indices that lead from [y] down to [p] through parents *)
Inductive path (h : heap) : nat -> nat -> list nat -> Prop :=
  | path_here p : path h p p []
  | path_down y z c js p : h z = Some c -> parent c = Some y -> path h z p js -> path h y p (index c :: js).
(** the tree, with the children [ks] in place of those of the node that the indices lead to *)
Fixpoint with_children (seg : str -> list str) (js : list nat) (ks : list green) (g : green) : green :=
  match js with
  | [] => gnew seg (gkind g) ks
  | j :: js => match nth_error (gchildren g) j with Some c => gnew seg (gkind g) (replace_nth (gchildren g) j (with_children seg js ks c)) | None => g end
  end.
(** the elements whose text stands before the one that the indices lead to *)
Fixpoint elements_before (js : list nat) (g : green) : list green :=
  match js with
  | [] => []
  | j :: js => firstn j (gchildren g) ++ match nth_error (gchildren g) j with Some c => elements_before js c | None => [] end
  end.

(** what is seen of an element: its parent, its index and its tree *)
Definition sees (h : heap) (x : nat) (q : option nat) (i : nat) (g : green) : Prop := exists c, h x = Some c /\ parent c = q /\ index c = i /\ cgreen c = g.
Definition children_of (h : heap) (x : nat) : list green := match h x with Some c => gchildren (cgreen c) | None => [] end.
Definition parent_of (h : heap) (x : nat) : option nat := match h x with Some c => parent c | None => None end.

(** ** Histories *)
(** the heap, and the handles that are held, each as often as it is held *)
Definition state := (heap * list nat)%type.
Inductive op := NewRoot (g : green) | Child (p i : nat) | Parent (x : nat) | Clone (x : nat) | Drop (x : nat) | Detach (x : nat) | Splice (p a b : nat) (new : list nat).
Fixpoint remove1 (x : nat) (l : list nat) : list nat := match l with [] => [] | y :: l => if Nat.eqb y x then l else y :: remove1 x l end.
Definition remove_all (new l : list nat) : list nat := fold_left (fun l x => remove1 x l) new l.
(** the result with any fuel that is enough *)
Definition gives {A} (f : nat -> option A) (a : A) : Prop := exists n, forall m, n <= m -> f m = Some a.
Inductive step (seg : str -> list str) (alloc : heap -> nat) : state -> op -> state -> Prop :=
  | step_new h hs g h' x : new_root alloc h g = (h', x) -> step seg alloc (h, hs) (NewRoot g) (h', x :: hs)
  | step_child h hs p i h' x : gives (fun m => child alloc m h p i) (h', x) -> step seg alloc (h, hs) (Child p i) (h', x :: hs)
  | step_parent h hs x h' q : parent_node h x = Some (h', Some q) -> step seg alloc (h, hs) (Parent x) (h', q :: hs)
  | step_clone h hs x h' : inc_rc h x = Some h' -> step seg alloc (h, hs) (Clone x) (h', x :: hs)
  | step_drop h hs x h' : gives (fun m => drop m h x) h' -> step seg alloc (h, hs) (Drop x) (h', remove1 x hs)
  | step_detach h hs x h' : gives (fun m => detach seg m h x) h' -> step seg alloc (h, hs) (Detach x) (h', hs)
  | step_splice h hs p a b new h' : gives (fun m => splice seg alloc m h p a b new) h' -> step seg alloc (h, hs) (Splice p a b new) (h', remove_all new hs).
(** what a caller has to see to: it uses what it holds, asks for children that exist, and inserts distinct elements that do not contain the
    node and are not attached, or are among those that the same call takes out *)
Definition allowed (seg : str -> list str) (s : state) (o : op) : Prop :=
  let (h, hs) := s in
  match o with
  | NewRoot g => built seg g
  | Child p i => In p hs /\ i < List.length (children_of h p)
  | Parent x => In x hs /\ parent_of h x <> None
  | Clone x | Drop x | Detach x => In x hs
  | Splice p a b new =>
      In p hs /\ (exists c, h p = Some c /\ gnode (cgreen c) = true) /\ a <= List.length (children_of h p) /\ NoDup new /\
      forall x, In x new -> In x hs /\ (forall js, ~ path h x p js) /\ (parent_of h x = None \/ exists i g, sees h x (Some p) i g /\ a <= i < b)
  end.
Inductive reachable (seg : str -> list str) (alloc : heap -> nat) : state -> Prop :=
  | reach_start : reachable seg alloc (empty, [])
  | reach_step s o s' : reachable seg alloc s -> allowed seg s o -> step seg alloc s o s' -> reachable seg alloc s'.
(** an allocator gives an address that is not in use *)
Definition fresh (alloc : heap -> nat) : Prop := forall h : heap, h (alloc h) = None.
