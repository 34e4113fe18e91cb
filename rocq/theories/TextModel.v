(** Positions, ranges and spans of crates/tombi-text. *)
From Coq Require Import List NArith Bool Lia.
From Verif Require Import Base.
Import ListNotations.
Open Scope N_scope.

(** crates/tombi-text/src/position.rs:8-15.  The alignment field is dropped; [u32] is unbounded. *)
Record position := Pos { line : N; column : N }.

(** crates/tombi-text/src/relative_position.rs:10-14 *)
Record rel_position := Rel { rline : N; rcolumn : N }.

(** crates/tombi-text/src/relative_position.rs:54-63 [From<char>] *)
Definition rel_of_char (c : char) : rel_position :=
  if N.eqb c 10 then Rel 1 0 else Rel 0 1.

(** crates/tombi-text/src/relative_position.rs:16-30 [RelativePosition::of].
    The grapheme segmentation of the unicode-segmentation crate is the argument: the text is
    given as the list of its grapheme clusters. *)
Definition is_newline_cluster (g : str) : bool := str_eqb g [10] || str_eqb g [13; 10].

Fixpoint rel_of_clusters_from (l c : N) (gs : list str) : rel_position :=
  match gs with
  | [] => Rel l c
  | g :: gs' =>
      if is_newline_cluster g then rel_of_clusters_from (l + 1) 0 gs'
      else rel_of_clusters_from l (c + 1) gs'
  end.
Definition rel_of_clusters (gs : list str) : rel_position := rel_of_clusters_from 0 0 gs.

(** crates/tombi-text/src/position.rs:83-108 [Add]/[AddAssign<RelativePosition>] *)
Definition pos_add (p : position) (r : rel_position) : position :=
  Pos (line p + rline r) (if N.eqb (rline r) 0 then column p + rcolumn r else rcolumn r).

(** crates/tombi-text/src/relative_position.rs:75-101 [Add]/[AddAssign] *)
Definition rel_add (a b : rel_position) : rel_position :=
  Rel (rline a + rline b) (if N.eqb (rline b) 0 then rcolumn a + rcolumn b else rcolumn b).

(** crates/tombi-text/src/position.rs:61-74 [Ord]: [<=] of the derived comparison. *)
Definition pos_cmp (a b : position) : comparison :=
  match N.compare (line a) (line b) with
  | Eq => N.compare (column a) (column b)
  | o => o
  end.
Definition pos_leb (a b : position) : bool :=
  match pos_cmp a b with Gt => false | _ => true end.

(** crates/tombi-text/src/position.rs:110-131 [Sub] *)
Definition pos_sub (a b : position) : rel_position :=
  if negb (pos_leb b a) then Rel 0 0
  else
    let l := line a - line b in
    Rel l (if N.eqb l 0 then column a - column b else column a).

(** crates/tombi-text/src/range.rs:8-12 *)
Record range := MkRange { rstart : position; rend : position }.

(** crates/tombi-text/src/range.rs:25-40 [Range::new] *)
Definition range_new (s e : position) : range :=
  MkRange s (if pos_leb s e then e else s).

(** crates/tombi-text/src/range.rs:53-60 *)
Definition range_contains (r : range) (p : position) : bool :=
  pos_leb (rstart r) p && pos_leb p (rend r).
Definition range_intersects (r o : range) : bool :=
  pos_leb (rstart r) (rend o) && pos_leb (rstart o) (rend r).

Definition pos_min (a b : position) : position := if pos_leb a b then a else b.
(** [std::cmp::max] returns the second argument when equal, which is the same value. *)
Definition pos_max (a b : position) : position := if pos_leb a b then b else a.

(** crates/tombi-text/src/range.rs:121-131 [Add<Range>] *)
Definition range_add (a b : range) : range :=
  range_new (pos_min (rstart a) (rstart b)) (pos_max (rend a) (rend b)).

(** crates/tombi-text/src/span.rs:12-18 *)
Record span := MkSpan { sstart : N; send : N }.

(** crates/tombi-text/src/span.rs:115-156 *)
Definition span_contains (s : span) (o : N) : bool := (sstart s <=? o) && (o <? send s).
Definition span_contains_inclusive (s : span) (o : N) : bool := (sstart s <=? o) && (o <=? send s).
Definition span_contains_span (s o : span) : bool := (sstart s <=? sstart o) && (send o <=? send s).

(** crates/tombi-text/src/span.rs:174-202 *)
Definition span_intersect (a b : span) : option span :=
  let s := N.max (sstart a) (sstart b) in
  let e := N.min (send a) (send b) in
  if e <? s then None else Some (MkSpan s e).
Definition span_cover (a b : span) : span :=
  MkSpan (N.min (sstart a) (sstart b)) (N.max (send a) (send b)).

(** crates/tombi-text/src/line_ending.rs:1-15 *)
Inductive line_ending := Lf | Crlf.
Definition line_ending_str (l : line_ending) : str :=
  match l with Lf => [10] | Crlf => [13; 10] end.

(** crates/tombi-text/src/position.rs:37-45 [as_u64] on a little-endian machine (for a big-endian one
    swap the fields), and crates/tombi-text/src/position.rs:133-142 [PartialEq] on 64 bit; on 32 bit
    the fields are compared. *)
Definition pos_as_u64 (p : position) : N := N.lor (N.shiftl (column p) 32) (line p).
Definition pos_eqb (a b : position) : bool := N.eqb (pos_as_u64 a) (pos_as_u64 b).
(** crates/tombi-text/src/span.rs:283-291 [as_u64], crates/tombi-text/src/span.rs:335-344 [PartialEq] *)
Definition span_as_u64 (s : span) : N := N.lor (N.shiftl (send s) 32) (sstart s).
Definition span_eqb (a b : span) : bool := N.eqb (span_as_u64 a) (span_as_u64 b).
(** crates/tombi-text/src/range.rs:69-76 [Ord for Range] *)
Definition range_cmp (a b : range) : comparison :=
  match pos_cmp (rstart a) (rstart b) with Eq => pos_cmp (rend a) (rend b) | o => o end.
(** crates/tombi-text/src/range.rs:48-51 *)
Definition range_is_empty (r : range) : bool :=
  N.eqb (line (rstart r)) (line (rend r)) && N.eqb (column (rstart r)) (column (rend r)).
(** crates/tombi-text/src/range.rs:102-107 [AddAssign<RelativePosition>] *)
Definition range_extend (r : range) (d : rel_position) : range := MkRange (rstart r) (pos_add (rend r) d).
(** crates/tombi-text/src/span.rs:218-220 *)
Definition span_cover_offset (s : span) (o : N) : span := span_cover s (MkSpan o o).
(** crates/tombi-text/src/span.rs:230-251: [None] on overflow of [u32] *)
Definition u32_max : N := 4294967295.
Definition offset_checked_add (a b : N) : option N := if a + b <=? u32_max then Some (a + b) else None.
Definition offset_checked_sub (a b : N) : option N := if b <=? a then Some (a - b) else None.
Definition span_shift (f : N -> N -> option N) (s : span) (o : N) : option span :=
  match f (sstart s) o, f (send s) o with Some a, Some b => Some (MkSpan a b) | _, _ => None end.
Definition span_checked_add := span_shift offset_checked_add.
Definition span_checked_sub := span_shift offset_checked_sub.
(** crates/tombi-text/src/span.rs:273-281 *)
Definition span_ordering (a b : span) : comparison :=
  if send a <=? sstart b then Lt else if send b <=? sstart a then Gt else Eq.
