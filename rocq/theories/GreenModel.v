(** * Green trees: crates/tombi-rg-tree/src/green *)
From Coq Require Import List NArith Bool Arith.
From Verif Require Import Base SyntaxKind TextModel ParserModel.
Import ListNotations.
Open Scope N_scope.
Open Scope list_scope.

(** crates/tombi-rg-tree/src/green/node.rs:17-37, 44-60 and crates/tombi-rg-tree/src/green/token.rs:15-43: a token, or a node with its
    kind, its length and line/column extent, and each child with its relative offset and position.  Offsets, lines and columns are
    unbounded here ([u32] in the code). *)
Inductive green :=
  | GTok (k : kind) (text : str)
  | GNode (k : kind) (text_len : N) (text_relative_position : rel_position) (children : list (N * rel_position * green)).

(** crates/tombi-rg-tree/src/green/node.rs:127-130, token.rs:89-92, element.rs *)
Definition gkind (g : green) : kind := match g with GTok k _ => k | GNode k _ _ _ => k end.
(** crates/tombi-rg-tree/src/green/node.rs:146-150, 315-321 *)
Definition as_ref (c : N * rel_position * green) : green := snd c.
Definition relative_offset (c : N * rel_position * green) : N := fst (fst c).
Definition relative_position (c : N * rel_position * green) : rel_position := snd (fst c).
Definition gchildren_raw (g : green) : list (N * rel_position * green) := match g with GTok _ _ => [] | GNode _ _ _ cs => cs end.
Definition gchildren (g : green) : list green := map as_ref (gchildren_raw g).
(** [fmt::Display], crates/tombi-rg-tree/src/green/node.rs:109-116, token.rs:82-86 *)
Fixpoint gtext (g : green) : str :=
  match g with
  | GTok _ t => t
  | GNode _ _ _ cs => flat_map (fun c => gtext (snd c)) cs
  end.

Section seg.
(** grapheme segmentation *)
Context (seg : str -> list str).

(** crates/tombi-rg-tree/src/green/node.rs:132-143, token.rs:100-108 *)
Definition gtext_len (g : green) : N := match g with GTok _ t => len_bytes t | GNode _ n _ _ => n end.
Definition gtext_rel (g : green) : rel_position := match g with GTok _ t => rel_of_clusters (seg t) | GNode _ _ r _ => r end.

(** [GreenNode::new], crates/tombi-rg-tree/src/green/node.rs:235-287 *)
Fixpoint place (len : N) (rel : rel_position) (els : list green) : list (N * rel_position * green) * (N * rel_position) :=
  match els with
  | [] => ([], (len, rel))
  | el :: els =>
      let '(cs, e) := place (len + gtext_len el) (rel_add rel (gtext_rel el)) els in
      ((len, rel, el) :: cs, e)
  end.
Definition gnew (k : kind) (els : list green) : green :=
  let '(cs, (len, rel)) := place 0 (Rel 0 0) els in GNode k len rel cs.

(** [Vec::splice]; [None]: it panics *)
Definition vec_splice {A} (l : list A) (a b : nat) (new : list A) : option (list A) :=
  if (a <=? b)%nat && (b <=? List.length l)%nat then Some (firstn a l ++ new ++ skipn b l) else None.
(** crates/tombi-rg-tree/src/green/node.rs:203-212 *)
Definition splice_children (g : green) (a b : nat) (new : list green) : option green :=
  match vec_splice (gchildren g) a b new with Some cs => Some (gnew (gkind g) cs) | None => None end.
(** crates/tombi-rg-tree/src/green/node.rs:193-201; an inclusive range ends one later *)
Definition insert_child (g : green) (i : nat) (c : green) : option green := splice_children g i i [c].
Definition remove_child (g : green) (i : nat) : option green := splice_children g i (S i) [].
(** crates/tombi-rg-tree/src/green/node.rs:180-191 *)
Fixpoint replace_nth {A} (l : list A) (i : nat) (c : A) : list A :=
  match l with
  | [] => []
  | x :: l => match i with O => c :: l | S i => x :: replace_nth l i c end
  end.
Definition replace_child (g : green) (i : nat) (c : green) : green := gnew (gkind g) (replace_nth (gchildren g) i c).

(** crates/tombi-rg-tree/src/green/node.rs:343-347 *)
Definition rel_span (c : N * rel_position * green) : span := MkSpan (relative_offset c) (relative_offset c + gtext_len (as_ref c)).
End seg.

(** ** The node cache and the builder *)
(** Elements with their addresses ([Arc] pointers), and without the lengths and positions that [GreenNode::new] computes. *)
Inductive elem := ETok (a : N) (k : kind) (text : str) | ENode (a : N) (k : kind) (children : list elem).
(** crates/tombi-rg-tree/src/green/node_cache.rs:62-67 *)
Definition element_id (e : elem) : N := match e with ETok a _ _ => a | ENode a _ _ => a end.
Definition ekind (e : elem) : kind := match e with ETok _ k _ => k | ENode _ k _ => k end.
(** [NodeCache], crates/tombi-rg-tree/src/green/node_cache.rs:35-39: the interned nodes and tokens *)
Record node_cache := { nodes : list elem; tokens : list elem }.
(** [GreenNodeBuilder], crates/tombi-rg-tree/src/green/builder.rs:24-30; [children] is latest first *)
Record cbuilder := { cache : node_cache; parents : list (kind * nat); children : list (N * elem) }.
(** all addresses in use *)
Fixpoint addresses (e : elem) : list N :=
  match e with
  | ETok a _ _ => [a]
  | ENode a _ cs => a :: flat_map addresses cs
  end.
Definition live (b : cbuilder) : list N :=
  flat_map addresses (nodes (cache b)) ++ flat_map addresses (tokens (cache b)) ++ flat_map (fun c => addresses (snd c)) (children b).

Section cache.
(** The hash of a token and of a node from its children's hashes; which entries the hash table compares when it looks for a hash; and
    the allocator, which is given the addresses in use. *)
Context (hash_token : kind -> str -> N) (hash_node : kind -> list N -> N).
Context (probe : N -> list elem -> list elem) (alloc : list N -> N).

(** crates/tombi-rg-tree/src/green/node_cache.rs:132-155 *)
Definition cache_token (b : cbuilder) (k : kind) (text : str) : (N * elem) * node_cache :=
  let hash := hash_token k text in
  match find (fun t => match t with ETok _ k' text' => kind_eqb k' k && str_eqb text' text | ENode _ _ _ => false end)
             (probe hash (tokens (cache b))) with
  | Some t => ((hash, t), cache b)
  | None => let t := ETok (alloc (live b)) k text in ((hash, t), {| nodes := nodes (cache b); tokens := t :: tokens (cache b) |})
  end.
Fixpoint ids_eq (l r : list N) : bool :=
  match l, r with
  | [], [] => true
  | x :: l, y :: r => (x =? y) && ids_eq l r
  | _, _ => false
  end.
(** crates/tombi-rg-tree/src/green/node_cache.rs:70-130; [cs] are the children from [first_child] on *)
Definition cache_node (b : cbuilder) (k : kind) (cs : list (N * elem)) : (N * elem) * node_cache :=
  let build := ENode (alloc (live b)) k (map snd cs) in
  if (3 <? List.length cs)%nat || existsb (fun c => fst c =? 0) cs then ((0, build), cache b)
  else
    let hash := hash_node k (map fst cs) in
    match find (fun n => match n with
                         | ENode _ k' cs' => kind_eqb k' k && (List.length cs' =? List.length cs)%nat
                                             && ids_eq (map element_id cs') (map (fun c => element_id (snd c)) cs)
                         | ETok _ _ _ => false
                         end) (probe hash (nodes (cache b))) with
    | Some n => ((hash, n), cache b)
    | None => ((hash, build), {| nodes := build :: nodes (cache b); tokens := tokens (cache b) |})
    end.

(** crates/tombi-rg-tree/src/green/builder.rs:47-68: the steps of the parser's sink *)
Definition c_step (s : sink_step) (b : cbuilder) : res cbuilder :=
  match s with
  | AddToken k w =>
      let '(c, ca) := cache_token b k w in Done {| cache := ca; parents := parents b; children := c :: children b |}
  | StartNode k => Done {| cache := cache b; parents := (k, List.length (children b)) :: parents b; children := children b |}
  | FinishNode =>
      match parents b with
      | [] => Panic
      | (k, first) :: ps =>
          let n := (List.length (children b) - first)%nat in
          let '(c, ca) := cache_node b k (rev (firstn n (children b))) in
          Done {| cache := ca; parents := ps; children := c :: skipn n (children b) |}
      end
  | SinkError _ => Done b
  end.
Fixpoint c_steps (ss : list sink_step) (b : cbuilder) : res cbuilder :=
  match ss with [] => Done b | s :: ss => do b <- c_step s b; c_steps ss b end.
(** crates/tombi-rg-tree/src/green/builder.rs:34-45: a builder on a cache *)
Definition with_cache (c : node_cache) : cbuilder := {| cache := c; parents := []; children := [] |}.
Definition empty_cache : node_cache := {| nodes := []; tokens := [] |}.
End cache.
(** forgetting the addresses *)
Fixpoint erase (e : elem) : tree :=
  match e with
  | ETok _ k t => TToken k t
  | ENode _ k cs => TNode k (map erase cs)
  end.
