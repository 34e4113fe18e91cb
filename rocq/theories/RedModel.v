(** * Red trees that are not edited: crates/tombi-rg-tree/src/cursor.rs *)
From Coq Require Import List NArith Bool Arith.
From Verif Require Import Base SyntaxKind TextModel ParserModel GreenModel.
Import ListNotations.
Open Scope N_scope.
Open Scope list_scope.

(** [NodeData], crates/tombi-rg-tree/src/cursor.rs:115-135, for an immutable tree: parent, index, offset, position and green element.
    A [SyntaxNode] or [SyntaxToken] is a pointer to one; reference counts are left out. *)
Inductive red := Red (parent : option red) (index : nat) (offset : N) (pos : position) (g : green).
Definition rparent (r : red) : option red := let '(Red p _ _ _ _) := r in p.
Definition rindex (r : red) : nat := let '(Red _ i _ _ _) := r in i.
Definition roffset (r : red) : N := let '(Red _ _ o _ _) := r in o.
Definition rposition (r : red) : position := let '(Red _ _ _ p _) := r in p.
Definition rgreen (r : red) : green := let '(Red _ _ _ _ g) := r in g.
Definition rkind (r : red) : kind := gkind (rgreen r).
Definition is_node (r : red) : bool := match rgreen r with GTok _ _ => false | GNode _ _ _ _ => true end.
(** [SyntaxNode::new_root], crates/tombi-rg-tree/src/cursor.rs:608-623 *)
Definition new_root (g : green) : red := Red None 0 0 (Pos 0 0) g.
(** [new_child] as it is called everywhere, e.g. crates/tombi-rg-tree/src/cursor.rs:775-782 *)
Definition rchild (r : red) (i : nat) (c : N * rel_position * green) : red :=
  Red (Some r) i (roffset r + relative_offset c) (pos_add (rposition r) (relative_position c)) (as_ref c).
Definition raw (r : red) : list (N * rel_position * green) := gchildren_raw (rgreen r).
(** crates/tombi-rg-tree/src/cursor.rs:347-356 [green_siblings] *)
Definition green_siblings (r : red) : list (N * rel_position * green) := match rparent r with Some p => raw p | None => [] end.
Fixpoint enumerate_from {A} (i : nat) (l : list A) : list (nat * A) := match l with [] => [] | x :: l => (i, x) :: enumerate_from (S i) l end.
Definition enumerate {A} (l : list A) : list (nat * A) := enumerate_from 0 l.
Definition green_is_node (c : nat * (N * rel_position * green)) : bool := match as_ref (snd c) with GTok _ _ => false | GNode _ _ _ _ => true end.
Definition child_of (p : red) (c : option (nat * (N * rel_position * green))) : option red :=
  match c with Some (i, c) => Some (rchild p i c) | None => None end.
Definition child_of_parent (r : red) (c : option (nat * (N * rel_position * green))) : option red :=
  match rparent r with Some p => child_of p c | None => None end.

(** crates/tombi-rg-tree/src/cursor.rs:436-455 [next_sibling] *)
Definition next_sibling (r : red) : option red := child_of_parent r (find green_is_node (skipn (S (rindex r)) (enumerate (green_siblings r)))).
(** crates/tombi-rg-tree/src/cursor.rs:456-475 [prev_sibling]: [nth] drops the elements up to this one from the end *)
Definition prev_sibling (r : red) : option red :=
  let l := rev (enumerate (green_siblings r)) in
  if (S (rindex r) <=? List.length l)%nat then child_of_parent r (find green_is_node (skipn (S (List.length l - S (rindex r))) l)) else None.
(** crates/tombi-rg-tree/src/cursor.rs:477-510 [next_sibling_or_token], [prev_sibling_or_token] *)
Definition next_sibling_or_token (r : red) : option red := child_of_parent r (nth_error (enumerate (green_siblings r)) (S (rindex r))).
Definition prev_sibling_or_token (r : red) : option red :=
  match rindex r with O => None | S i => child_of_parent r (nth_error (enumerate (green_siblings r)) i) end.
(** crates/tombi-rg-tree/src/cursor.rs:769-833 *)
Definition first_child (r : red) : option red := child_of r (find green_is_node (enumerate (raw r))).
Definition last_child (r : red) : option red := child_of r (find green_is_node (rev (enumerate (raw r)))).
Definition first_child_or_token (r : red) : option red := child_of r (nth_error (enumerate (raw r)) 0).
Definition last_child_or_token (r : red) : option red := child_of r (nth_error (rev (enumerate (raw r))) 0).

(** iterators: the first element and the step to the next; [None]: the fuel ran out before the end *)
Fixpoint collect {A} (next : A -> option A) (fuel : nat) (x : option A) : option (list A) :=
  match fuel with
  | O => None
  | S fuel => match x with None => Some [] | Some x => match collect next fuel (next x) with Some l => Some (x :: l) | None => None end end
  end.
(** crates/tombi-rg-tree/src/cursor.rs:1358-1400 [SyntaxNodeChildren], [SyntaxElementChildren] *)
Definition children (fuel : nat) (r : red) : option (list red) := collect next_sibling fuel (first_child r).
Definition children_with_tokens (fuel : nat) (r : red) : option (list red) := collect next_sibling_or_token fuel (first_child_or_token r).
(** crates/tombi-rg-tree/src/cursor.rs:754-757 [ancestors] *)
Fixpoint ancestors (r : red) : list red := match r with Red p _ _ _ _ => r :: match p with Some p => ancestors p | None => [] end end.

(** crates/tombi-rg-tree/src/cursor.rs:851-857, 1227-1238 [first_token], [last_token] *)
Fixpoint first_token_in (g : green) (r : red) : option red :=
  match g with
  | GTok _ _ => Some r
  | GNode _ _ _ [] => None
  | GNode _ _ _ (c :: _) => first_token_in (snd c) (rchild r 0 c)
  end.
Definition first_token (r : red) : option red := first_token_in (rgreen r) r.
Fixpoint last_token_in (g : green) (r : red) : option red :=
  match g with
  | GTok _ _ => Some r
  | GNode _ _ _ cs =>
      (fix go i cs := match cs with [] => None | c :: cs => match cs with [] => last_token_in (snd c) (rchild r i c) | _ => go (S i) cs end end) 0%nat cs
  end.
Definition last_token (r : red) : option red := last_token_in (rgreen r) r.
(** crates/tombi-rg-tree/src/cursor.rs:1135-1152 [next_token], [prev_token] *)
Fixpoint find_map {A B} (f : A -> option B) (l : list A) : option B := match l with [] => None | x :: l => match f x with Some y => Some y | None => find_map f l end end.
Definition token_ancestors (t : red) : list red := match rparent t with Some p => ancestors p | None => [] end.
Definition next_token (t : red) : option red :=
  match next_sibling_or_token t with
  | Some e => first_token e
  | None => match find_map next_sibling_or_token (token_ancestors t) with Some e => first_token e | None => None end
  end.
Definition prev_token (t : red) : option red :=
  match prev_sibling_or_token t with
  | Some e => last_token e
  | None => match find_map prev_sibling_or_token (token_ancestors t) with Some e => last_token e | None => None end
  end.

(** ** Walks *)
Inductive event := Enter (r : red) | Leave (r : red).
Section walk.
(** [PartialEq]: the same green pointer and offset *)
Context (same : red -> red -> bool).
(** crates/tombi-rg-tree/src/cursor.rs:1432-1459 [Preorder::next] *)
Definition walk_step (start : red) (e : event) : option event :=
  match e with
  | Enter r => match first_child r with Some c => Some (Enter c) | None => Some (Leave r) end
  | Leave r =>
      if same r start then None
      else match next_sibling r with Some s => Some (Enter s) | None => match rparent r with Some p => Some (Leave p) | None => None end end
  end.
(** crates/tombi-rg-tree/src/cursor.rs:1490-1516 [PreorderWithTokens::next] *)
Definition walk_tokens_step (start : red) (e : event) : option event :=
  match e with
  | Enter r => if is_node r then match first_child_or_token r with Some c => Some (Enter c) | None => Some (Leave r) end else Some (Leave r)
  | Leave r =>
      if same r start then None
      else match next_sibling_or_token r with Some s => Some (Enter s) | None => match rparent r with Some p => Some (Leave p) | None => None end end
  end.
Definition preorder (fuel : nat) (r : red) : option (list event) := collect (walk_step r) fuel (Some (Enter r)).
Definition preorder_with_tokens (fuel : nat) (r : red) : option (list event) := collect (walk_tokens_step r) fuel (Some (Enter r)).
Definition entered (l : list event) : list red := flat_map (fun e => match e with Enter r => [r] | Leave _ => [] end) l.
(** crates/tombi-rg-tree/src/cursor.rs:879-893 *)
Definition descendants (fuel : nat) (r : red) : option (list red) := match preorder fuel r with Some l => Some (entered l) | None => None end.
Definition descendants_with_tokens (fuel : nat) (r : red) : option (list red) := match preorder_with_tokens fuel r with Some l => Some (entered l) | None => None end.
(** [fmt::Display], crates/tombi-rg-tree/src/cursor.rs:1306-1315 *)
Definition display (fuel : nat) (r : red) : option str :=
  match descendants_with_tokens fuel r with
  | Some l => Some (flat_map (fun r => match rgreen r with GTok _ t => t | GNode _ _ _ _ => [] end) l)
  | None => None
  end.
End walk.

(** ** The token at a place *)
(** crates/tombi-rg-tree/src/utility_types.rs [TokenAtOffset] *)
Inductive token_at := NoToken | Single (t : red) | Between (a b : red).
(** crates/tombi-rg-tree/src/cursor.rs:905-972, 1253-1267; [None]: it panics.  [empty] and [touches] are [span.is_empty()] and
    [span.start <= offset && offset <= span.end], or the same for ranges. *)
Fixpoint token_at_in (empty touches : red -> bool) (g : green) (r : red) : option token_at :=
  match g with
  | GTok _ _ => Some (Single r)
  | GNode _ _ _ cs =>
      if empty r then Some NoToken
      else
        match (fix go i cs :=
                 match cs with
                 | [] => []
                 | c :: cs =>
                     let e := rchild r i c in
                     if negb (empty e) && touches e then token_at_in empty touches (snd c) e :: go (S i) cs else go (S i) cs
                 end) 0%nat cs with
        | [] => None
        | [x] => x
        | x :: y :: _ => match x, y with Some (Single a), Some (Single b) => Some (Between a b) | _, _ => None end
        end
  end.
(** crates/tombi-rg-tree/src/cursor.rs:418-429 [span], [range] *)
Definition rspan (r : red) : span := MkSpan (roffset r) (roffset r + gtext_len (rgreen r)).
Definition rrange (seg : str -> list str) (r : red) : range := range_new (rposition r) (pos_add (rposition r) (gtext_rel seg (rgreen r))).
Definition token_at_offset (r : red) (o : N) : option token_at :=
  token_at_in (fun r => sstart (rspan r) =? send (rspan r)) (fun r => (sstart (rspan r) <=? o) && (o <=? send (rspan r))) (rgreen r) r.
Definition token_at_position (seg : str -> list str) (r : red) (p : position) : option token_at :=
  token_at_in (fun r => range_is_empty (rrange seg r)) (fun r => pos_leb (rstart (rrange seg r)) p && pos_leb p (rend (rrange seg r))) (rgreen r) r.
