(** * Red trees that are edited: crates/tombi-rg-tree/src/cursor.rs with [mutable] nodes *)
From Coq Require Import List NArith Bool Arith Lia.
From Verif Require Import Base SyntaxKind TextModel ParserModel GreenModel.
Import ListNotations.
Open Scope list_scope.

(** [NodeData], crates/tombi-rg-tree/src/cursor.rs:115-135, for a mutable tree: the reference count, the parent, the index, the green
    element and the sorted list of the children that are alive (the ring that [first] points to; the pointers are in [SllModel]).
    Addresses are numbers; a [heap] maps the addresses in use to their cells; all of them are below [top]. *)
Record cell := MkCell { rc : nat; parent : option nat; index : nat; cgreen : green; first : list nat }.
Record heap := MkHeap { mem :> nat -> option cell; top : nat; top_ok : forall x, (top <= x)%nat -> mem x = None }.
Lemma upd_top h x c : forall y, (Nat.max (top h) (S x) <= y)%nat -> (if Nat.eqb y x then Some c else mem h y) = None.
Proof. intros y Hy. destruct (Nat.eqb y x) eqn:E; [apply Nat.eqb_eq in E; lia|apply top_ok; lia]. Qed.
Lemma del_top h x : forall y, (top h <= y)%nat -> (if Nat.eqb y x then None else mem h y) = None.
Proof. intros y Hy. destruct (Nat.eqb y x); [reflexivity|apply top_ok; exact Hy]. Qed.
Definition empty : heap := MkHeap (fun _ => None) 0 (fun _ _ => eq_refl).
Definition upd (h : heap) (x : nat) (c : cell) : heap := MkHeap (fun y => if Nat.eqb y x then Some c else h y) (Nat.max (top h) (S x)) (upd_top h x c).
Definition del (h : heap) (x : nat) : heap := MkHeap (fun y => if Nat.eqb y x then None else h y) (top h) (del_top h x).
Definition set_rc n (c : cell) := MkCell n (parent c) (index c) (cgreen c) (first c).
Definition set_parent p (c : cell) := MkCell (rc c) p (index c) (cgreen c) (first c).
Definition set_index i (c : cell) := MkCell (rc c) (parent c) i (cgreen c) (first c).
Definition set_green g (c : cell) := MkCell (rc c) (parent c) (index c) g (first c).
Definition set_first l (c : cell) := MkCell (rc c) (parent c) (index c) (cgreen c) l.
(** In everything below [None] means that it reads or writes a cell that is not in use, panics, or runs out of fuel. *)
Notation "'get' x <- a ; b" := (match a with Some x => b | None => None end) (at level 200, x pattern, a at level 100, b at level 200).
Definition modify (h : heap) (x : nat) (f : cell -> cell) : option heap := get c <- h x; Some (upd h x (f c)).
Definition gnode (g : green) : bool := match g with GTok _ _ => false | GNode _ _ _ _ => true end.

(** ** The sorted list, crates/tombi-rg-tree/src/sll.rs *)
Inductive place := EmptyHead | SmallerThanHead | After (e : nat) | Already (e : nat) | Loops.
(** sll.rs:88-113 [link]: the elements with their keys, smallest first *)
Definition link (l : list (nat * nat)) (key : nat) : place :=
  match l with
  | [] => EmptyHead
  | (_, k) :: _ =>
      if (key <? k)%nat then SmallerThanHead
      else match find (fun e => (snd e <=? key)%nat) (rev l) with
           | Some (e, k) => if (k <? key)%nat then After e else Already e
           | None => Loops
           end
  end.
Fixpoint insert_after (e x : nat) (l : list nat) : list nat :=
  match l with
  | [] => []
  | y :: l => if Nat.eqb y e then y :: x :: l else y :: insert_after e x l
  end.
(** sll.rs:25-56 [add_to_sll] *)
Definition add_to (p : place) (x : nat) (l : list nat) : list nat :=
  match p with EmptyHead => [x] | SmallerThanHead => x :: l | After e => insert_after e x l | _ => l end.
Fixpoint keys (h : heap) (l : list nat) : option (list (nat * nat)) :=
  match l with
  | [] => Some []
  | x :: l => get c <- h x; get ks <- keys h l; Some ((x, index c) :: ks)
  end.
(** sll.rs:70-86 [unlink] *)
Definition unlink (h : heap) (p x : nat) : option heap := modify h p (fun c => set_first (filter (fun y => negb (Nat.eqb y x)) (first c)) c).
(** sll.rs:115-131 [adjust] *)
Fixpoint adjust (h : heap) (l : list nat) (from : nat) (by_ : nat -> nat) : option heap :=
  match l with
  | [] => Some h
  | x :: l => get h <- modify h x (fun c => if (from <=? index c)%nat then set_index (by_ (index c)) c else c); adjust h l from by_
  end.

(** ** Reference counts *)
(** cursor.rs:296-311 [inc_rc], [dec_rc] *)
Definition inc_rc (h : heap) (x : nat) : option heap := modify h x (fun c => set_rc (S (rc c)) c).
Definition dec_rc (h : heap) (x : nat) : option (heap * bool) :=
  get c <- h x; match rc c with O => None | S n => Some (upd h x (set_rc n c), Nat.eqb n 0) end.
(** cursor.rs:198-231 [free]; the assertions of the debug build are kept *)
Fixpoint free (fuel : nat) (h : heap) (x : nat) : option heap :=
  match fuel with
  | O => None
  | S fuel =>
      get c <- h x;
      match rc c, first c with
      | O, [] =>
          let h := del h x in
          match parent c with
          | None => Some h
          | Some p => get h <- unlink h p x; get (h, z) <- dec_rc h p; if z then free fuel h p else Some h
          end
      | _, _ => None
      end
  end.
(** cursor.rs:163-170, 188-195 [drop] *)
Definition drop (fuel : nat) (h : heap) (x : nat) : option heap := get (h, z) <- dec_rc h x; if z then free fuel h x else Some h.

Section seg.
Context (seg : str -> list str).
(** the allocator *)
Context (alloc : heap -> nat).
(** cursor.rs:625-639 [new_root_mut] *)
Definition new_root (h : heap) (g : green) : heap * nat := let x := alloc h in (upd h x (MkCell 1 None 0 g []), x).
(** [NodeData::new] for a child, cursor.rs:233-294, as it is called for the [i]th child of [p] with a reference to [p] of its own
    (first, last and all children, siblings) *)
Definition child (fuel : nat) (h : heap) (p i : nat) : option (heap * nat) :=
  get h <- inc_rc h p;
  get c <- h p;
  get g <- nth_error (gchildren (cgreen c)) i;
  get ks <- keys h (first c);
  match link ks i with
  | Already e => get h <- drop fuel h p; get h <- inc_rc h e; Some (h, e)
  | Loops => None
  | pl => let x := alloc h in get h <- modify (upd h x (MkCell 1 (Some p) i g [])) p (fun c => set_first (add_to pl x (first c)) c); Some (h, x)
  end.
(** cursor.rs:323-331 [parent_node] *)
Definition parent_node (h : heap) (x : nat) : option (heap * option nat) :=
  get c <- h x; match parent c with None => Some (h, None) | Some p => get h <- inc_rc h p; Some (h, Some p) end.
(** cursor.rs:436-510: the sibling at the index, if there is one *)
Definition sibling (fuel : nat) (h : heap) (x i : nat) : option (heap * option nat) :=
  get c <- h x;
  match parent c with
  | None => Some (h, None)
  | Some p =>
      get cp <- h p;
      if (i <? List.length (gchildren (cgreen cp)))%nat then get (h, y) <- child fuel h p i; Some (h, Some y) else Some (h, None)
  end.

(** ** Edits *)
(** cursor.rs:579-604 [respine] *)
Fixpoint respine (fuel : nat) (h : heap) (x : nat) (g : green) : option heap :=
  match fuel with
  | O => None
  | S fuel =>
      get c <- h x;
      if gnode (cgreen c) then
        let h := upd h x (set_green g c) in
        match parent c with
        | None => Some h
        | Some p => get cp <- h p; if gnode (cgreen cp) then respine fuel h p (replace_child seg (cgreen cp) (index c) g) else None
        end
      else None
  end.
(** cursor.rs:512-545 [detach] *)
Definition detach (fuel : nat) (h : heap) (x : nat) : option heap :=
  get c <- h x;
  match parent c with
  | None => Some h
  | Some p =>
      let h := upd h x (set_parent None c) in
      get cp <- h p;
      get h <- adjust h (first cp) (S (index c)) pred;
      get h <- unlink h p x;
      get cp <- h p;
      get g <- remove_child seg (cgreen cp) (index c);
      get h <- respine fuel h p g;
      drop fuel h p
  end.
(** cursor.rs:546-578 [NodeData::attach_child] *)
Definition attach_data (fuel : nat) (h : heap) (p i x : nat) : option heap :=
  get c <- h x;
  match parent c with
  | Some _ => None
  | None =>
      let h := upd h x (set_parent (Some p) (set_index i c)) in
      get h <- inc_rc h p;
      get cp <- h p;
      get h <- adjust h (first cp) i S;
      get ks <- keys h (first cp);
      match link ks i with
      | Already _ | Loops => None
      | pl =>
          get h <- modify h p (fun c => set_first (add_to pl x (first c)) c);
          get cp <- h p;
          get g <- insert_child seg (cgreen cp) i (cgreen c);
          respine fuel h p g
      end
  end.
(** cursor.rs:1024-1032 [SyntaxNode::attach_child]; the handle of the child is dropped at the end *)
Definition attach (fuel : nat) (h : heap) (p i x : nat) : option heap :=
  get h <- detach fuel h x; get h <- attach_data fuel h p i x; drop fuel h x.
(** cursor.rs:1007-1017 [splice_children]; the iterator (cursor.rs:1380-1400) takes the next child before the current one is detached *)
Fixpoint delete_loop (n fuel : nat) (h : heap) (a b i : nat) (cur : option nat) : option heap :=
  match cur with
  | None => Some h
  | Some x =>
      match n with
      | O => None
      | S n =>
          get c <- h x;
          get (h, next) <- sibling fuel h x (S (index c));
          get h <- (if (a <=? i)%nat && (i <? b)%nat then detach fuel h x else Some h);
          get h <- drop fuel h x;
          delete_loop n fuel h a b (S i) next
      end
  end.
Fixpoint attach_all (fuel : nat) (h : heap) (p i : nat) (new : list nat) : option heap :=
  match new with
  | [] => Some h
  | x :: new => get h <- attach fuel h p i x; attach_all fuel h p (S i) new
  end.
Definition splice (fuel : nat) (h : heap) (p a b : nat) (new : list nat) : option heap :=
  get c <- h p;
  get (h, cur) <- (match gchildren (cgreen c) with [] => Some (h, None) | _ :: _ => get (h, y) <- child fuel h p 0; Some (h, Some y) end);
  get h <- delete_loop fuel fuel h a b 0 cur;
  attach_all fuel h p a new.

(** ** Places *)
(** cursor.rs:366-382 [offset_mut] *)
Fixpoint offset_mut (fuel : nat) (h : heap) (x : nat) (res : N) : option N :=
  match fuel with
  | O => None
  | S fuel =>
      get c <- h x;
      match parent c with
      | None => Some res
      | Some p => get cp <- h p; get r <- nth_error (gchildren_raw (cgreen cp)) (index c); offset_mut fuel h p (res + relative_offset r)%N
      end
  end.
(** cursor.rs:394-416 [position_mut] *)
Fixpoint position_mut (fuel : nat) (h : heap) (x : nat) (res : position) : option position :=
  match fuel with
  | O => None
  | S fuel =>
      get c <- h x;
      match parent c with
      | None => Some res
      | Some p => get cp <- h p; get r <- nth_error (gchildren_raw (cgreen cp)) (index c); position_mut fuel h p (pos_add res (relative_position r))
      end
  end.
End seg.
