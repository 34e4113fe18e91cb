(** What the theorems about the language server's positions refer to: the laws of grapheme segmentation,
    the places of a text, and the positions and edits of the language server protocol. *)
From Coq Require Import List NArith Bool Arith Lia ZifyBool.
From Verif Require Import Base TextModel LspTextModel.
Import ListNotations.
Open Scope N_scope.
Open Scope list_scope.

(** * Grapheme segmentation *)
Definition ends_with (c : char) (s : str) : Prop := exists a, s = a ++ [c].

(** The laws of extended grapheme clusters (Unicode annex 29) that are used: the clusters of a text are a
    division of the text (GB1, GB2, GB999), the clusters on each side of a boundary are the clusters of
    that side, a carriage return followed by a line feed is one cluster (GB3), and otherwise there are
    boundaries on both sides of a line feed (GB4, GB5). *)
Record segmentation (seg : str -> list str) : Prop := {
  seg_concat : forall s, concat (seg s) = s;
  seg_nonempty : forall s, ~ In [] (seg s);
  seg_split : forall s ga gb, seg s = ga ++ gb -> seg (concat ga) = ga /\ seg (concat gb) = gb;
  seg_crlf : forall a b, seg (a ++ 13 :: 10 :: b) = seg a ++ [13; 10] :: seg b;
  seg_lf : forall a b, ~ ends_with 13 a -> seg (a ++ 10 :: b) = seg a ++ [10] :: seg b
}.

(** Between [a] and [b] there is a boundary of the text [a ++ b]. *)
Definition boundary (seg : str -> list str) (a b : str) : Prop := seg (a ++ b) = seg a ++ seg b.

(** A segmentation: [joins x] says that there is no boundary before [x], unless it follows a line break.
    With the combining marks for [joins] this is the segmentation of annex 29 for texts without Hangul,
    emoji and the other special classes. *)
Definition sticks (joins : char -> bool) (c d : char) : bool :=
  (N.eqb c 13 && N.eqb d 10) || (joins d && negb (N.eqb c 13) && negb (N.eqb c 10) && negb (N.eqb d 13) && negb (N.eqb d 10)).
Fixpoint seg_by (joins : char -> bool) (s : str) : list str :=
  match s with
  | [] => []
  | c :: s' =>
      match seg_by joins s' with
      | [] => [[c]]
      | g :: gs => if sticks joins c (hd 0 s') then (c :: g) :: gs else [c] :: g :: gs
      end
  end.
Definition is_combining (c : char) : bool := in_range 0x300 0x36F c.

(** * Places *)
Definition count_lf (s : str) : N := N.of_nat (length (filter (N.eqb 10) s)).
(** The text after the last line feed. *)
Fixpoint last_line (s : str) : str :=
  match s with
  | [] => []
  | c :: s' => if existsb (N.eqb 10) s then last_line s' else s
  end.
(** The position of the place after the text [a], in an encoding: the number of line feeds in [a] and the
    units of the text after the last one. *)
Definition place (seg : str -> list str) (a : str) : position := Pos (count_lf a) (measure seg GraphemeCluster (last_line a)).
Definition lsp_place (seg : str -> list str) (e : encoding) (a : str) : lsp_position := LspPos (count_lf a) (measure seg e (last_line a)).

(** * Positions and edits of the protocol *)
(** "Line ending characters are \n, \r\n and \r": the first line, its end and the rest. *)
Fixpoint split_line (s : str) : str * str * str :=
  match s with
  | [] => ([], [], [])
  | c :: s' =>
      if N.eqb c 10 then ([], [c], s')
      else if N.eqb c 13 then
        match s' with
        | d :: s'' => if N.eqb d 10 then ([], [c; d], s'') else ([], [c], s')
        | [] => ([], [c], [])
        end
      else let '(x, e, r) := split_line s' in (c :: x, e, r)
  end.
(** Code units of a character. *)
Definition width (e : encoding) (c : char) : N :=
  match e with Utf8 => len_utf8 c | Utf16 => len_utf16 c | _ => 1 end.
(** "If the character value is greater than the line length it defaults back to the line length." *)
Fixpoint units_prefix (e : encoding) (n : N) (s : str) : str :=
  match s with
  | [] => []
  | c :: s' => if N.eqb n 0 then [] else c :: units_prefix e (n - width e c) s'
  end.
(** The text before a position. *)
Fixpoint before_position (e : encoding) (s : str) (l : nat) (n : N) : str :=
  let '(x, eol, r) := split_line s in
  match l with
  | O => units_prefix e n x
  | S l' => x ++ eol ++ (match eol with [] => [] | _ => before_position e r l' n end)
  end.
Definition text_before (e : encoding) (s : str) (p : lsp_position) : str := before_position e s (N.to_nat (lline p)) (lchar p).

Definition apply_edit (e : encoding) (s : str) (ed : text_edit) : str :=
  text_before e s (lstart (edit_range ed)) ++ edit_text ed ++ skipn (length (text_before e s (lend (edit_range ed)))) s.

(** Every carriage return is followed by a line feed (a document TOML allows has no other one). *)
Definition no_lone_cr (s : str) : Prop := forall a b, s = a ++ 13 :: b -> exists b', b = 10 :: b'.

(** The protocol's decoding of a list of semantic tokens: absolute line and start, length and type. *)
Fixpoint decode_tokens (l s : N) (ts : list semantic_token) : list (lsp_position * N * N) :=
  match ts with
  | [] => []
  | t :: ts' =>
      let l' := l + delta_line t in
      let s' := if N.eqb (delta_line t) 0 then s + delta_start t else delta_start t in
      (LspPos l' s', sem_length t, sem_type t) :: decode_tokens l' s' ts'
  end.
