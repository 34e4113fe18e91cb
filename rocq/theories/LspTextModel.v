(** Model of the language server's text positions (crates/tombi-text/src/features/lsp), of the edit it
    computes for a formatted document (crates/tombi-lsp/src/handler/formatting.rs) and of its semantic
    tokens (crates/tombi-lsp/src/semantic_tokens/builder.rs).  Definitions only.

    Everywhere [seg] is the grapheme segmentation of the unicode-segmentation crate.  Texts are shorter
    than 4 GiB, so that the casts to [u32] lose nothing. *)
From Coq Require Import List NArith Bool.
From Verif Require Import Base TextModel LexerModel LexerSpec ParserModel.
Import ListNotations.
Open Scope N_scope.
Open Scope list_scope.

(** * Encodings *)
(** crates/tombi-text/src/features/lsp/encoding_kind.rs:8-22 *)
Inductive encoding := Utf8 | Utf16 | Utf32 | GraphemeCluster.

(** [char::len_utf16] *)
Definition len_utf16 (c : char) : N := if c <? 0x10000 then 1 else 2.
Definition sum_by (f : char -> N) (s : str) : N := fold_right (fun c n => f c + n) 0 s.

(** crates/tombi-text/src/features/lsp/encoding_kind.rs:26-33 *)
Definition measure (seg : str -> list str) (e : encoding) (text : str) : N :=
  match e with
  | Utf8 => len_bytes text
  | Utf16 => sum_by len_utf16 text
  | Utf32 => N.of_nat (length text)
  | GraphemeCluster => N.of_nat (length (seg text))
  end.

(** * Lines *)
(** crates/tombi-text/src/features/lsp/line_index.rs:9-14 *)
Record line_index := MkIndex { li_text : str; li_lines : list span; li_encoding : encoding }.

(** crates/tombi-text/src/features/lsp/line_index.rs:26-57.  [idx] is the offset of the first character
    of [cs], [prev] the character before it ([bytes.get(idx - 1)] is only compared with the ASCII
    carriage return). *)
Fixpoint line_spans (cs : str) (idx start : N) (prev : option char) : list span :=
  match cs with
  | [] => [MkSpan start idx]
  | c :: cs' =>
      if N.eqb c 10 then
        let line_end := if (start <? idx) && (match prev with Some 13 => true | _ => false end) then idx - 1 else idx in
        MkSpan start line_end :: line_spans cs' (idx + len_utf8 c) (idx + len_utf8 c) (Some c)
      else line_spans cs' (idx + len_utf8 c) start (Some c)
  end.
Definition line_index_new (text : str) (e : encoding) : line_index := MkIndex text (line_spans text 0 0 None) e.

(** crates/tombi-text/src/features/lsp/line_index.rs:70-74; the outer [None] is the panic of the slice. *)
Definition line_text (li : line_index) (l : N) : option (option str) :=
  match nth_error (li_lines li) (N.to_nat l) with
  | None => Some None
  | Some sp => option_map Some (text_slice (li_text li) (sstart sp) (send sp))
  end.

(** * Conversions *)
(** tower_lsp::lsp_types::Position *)
Record lsp_position := LspPos { lline : N; lchar : N }.
Record lsp_range := LspRange { lstart : lsp_position; lend : lsp_position }.

Definition sum_measures (seg : str -> list str) (e : encoding) (gs : list str) : N :=
  fold_left (fun acc g => acc + measure seg e g) gs 0.

(** crates/tombi-text/src/features/lsp/from_lsp.rs:29-49 *)
Definition to_lsp (seg : str -> list str) (li : line_index) (p : position) : option lsp_position :=
  match line_text li (line p) with
  | None => None
  | Some None => Some (LspPos (line p) 0)
  | Some (Some t) => Some (LspPos (line p) (sum_measures seg (li_encoding li) (firstn (N.to_nat (column p)) (seg t))))
  end.

(** crates/tombi-text/src/features/lsp/from_lsp.rs:75-101 [take_column_text].  [done] holds the clusters
    passed so far: the text before [offset]. *)
Fixpoint take_clusters (seg : str -> list str) (e : encoding) (target consumed : N) (done : str) (gs : list str) (whole : str) : str :=
  match gs with
  | [] => whole
  | g :: gs' =>
      let next := consumed + measure seg e g in
      if target <? next then done
      else if N.eqb next target then done ++ g
      else take_clusters seg e target next (done ++ g) gs' whole
  end.
Definition take_column_text (seg : str -> list str) (e : encoding) (text : str) (target : N) : str :=
  if N.eqb target 0 then [] else take_clusters seg e target 0 [] (seg text) text.

(** crates/tombi-text/src/features/lsp/from_lsp.rs:9-26 *)
Definition of_lsp (seg : str -> list str) (li : line_index) (p : lsp_position) : option position :=
  match line_text li (lline p) with
  | None => None
  | Some None => Some (Pos (lline p) 0)
  | Some (Some t) =>
      Some (Pos (lline p) (measure seg GraphemeCluster (take_column_text seg (li_encoding li) t (lchar p))))
  end.

(** crates/tombi-text/src/features/lsp/from_lsp.rs:63-73 *)
Definition range_to_lsp (seg : str -> list str) (li : line_index) (r : range) : option lsp_range :=
  match to_lsp seg li (rstart r), to_lsp seg li (rend r) with
  | Some s, Some e => Some (LspRange s e)
  | _, _ => None
  end.
(** crates/tombi-text/src/features/lsp/from_lsp.rs:51-61 *)
Definition range_of_lsp (seg : str -> list str) (li : line_index) (r : lsp_range) : option range :=
  match of_lsp seg li (lstart r), of_lsp seg li (lend r) with
  | Some s, Some e => Some (range_new s e)
  | _, _ => None
  end.

(** * The formatting edit *)
(** The [zip], [take_while], [map], [sum] of crates/tombi-lsp/src/handler/formatting.rs:193-198 *)
Fixpoint common_bytes (a b : list str) : N :=
  match a, b with
  | x :: a', y :: b' => if str_eqb x y then len_bytes x + common_bytes a' b' else 0
  | _, _ => 0
  end.

(** crates/tombi-lsp/src/handler/formatting.rs:242-273: the loop over the lines, [last] is the last line
    seen. *)
Fixpoint position_loop (seg : str -> list str) (li : line_index) (offset : N) (l : N) (sps : list span) (last : N * str) : option position :=
  match sps with
  | [] => Some (Pos (fst last) (N.of_nat (length (seg (snd last)))))
  | sp :: sps' =>
      match line_text li l with
      | None => None
      | Some o =>
          let t := match o with Some t => t | None => [] end in
          if offset <=? send sp then
            let slice_end := N.min (offset - sstart sp) (len_bytes t) in
            match text_slice t 0 slice_end with
            | None => None
            | Some s => Some (Pos l (N.of_nat (length (seg s))))
            end
          else position_loop seg li offset (l + 1) sps' (l, t)
      end
  end.
Definition position_at_offset (seg : str -> list str) (li : line_index) (offset : N) : option position :=
  match li_lines li with
  | [] => Some (Pos 0 0)
  | sps => position_loop seg li offset 0 sps (0, [])
  end.

(** tower_lsp::lsp_types::TextEdit *)
Record text_edit := MkEdit { edit_range : lsp_range; edit_text : str }.

(** crates/tombi-lsp/src/handler/formatting.rs:182-240; [None] when a slice panics. *)
Definition compute_text_edits (seg : str -> list str) (old new : str) (li : line_index) : option (list text_edit) :=
  if str_eqb old new then Some []
  else
    let prefix := common_bytes (seg old) (seg new) in
    match drop_bytes prefix old, drop_bytes prefix new with
    | Some old_suffix, Some new_suffix =>
        let suffix := N.min (N.min (common_bytes (rev (seg old_suffix)) (rev (seg new_suffix))) (len_bytes old_suffix)) (len_bytes new_suffix) in
        let old_end := N.max (len_bytes old - suffix) prefix in
        let new_end := N.max (len_bytes new - suffix) prefix in
        if N.eqb prefix old_end && N.eqb prefix new_end then Some []
        else
          match position_at_offset seg li prefix, position_at_offset seg li old_end, text_slice new prefix new_end with
          | Some s, Some e, Some replacement =>
              match range_to_lsp seg li (range_new s e) with
              | Some r => Some [MkEdit r replacement]
              | None => None
              end
          | _, _, _ => None
          end
    | _, _ => None
    end.

(** * Semantic tokens *)
(** tower_lsp::lsp_types::SemanticToken; the modifiers are always 0 *)
Record semantic_token := MkSem { delta_line : N; delta_start : N; sem_length : N; sem_type : N }.

(** [u32] subtraction: [None] when it overflows *)
Definition sub32 (a b : N) : option N := if b <=? a then Some (a - b) else None.

(** crates/tombi-lsp/src/semantic_tokens/builder.rs:93-107 *)
Definition delta_line_and_start (seg : str -> list str) (li : line_index) (s e : position) : option (N * N) :=
  match to_lsp seg li s, to_lsp seg li e with
  | Some ds, Some de =>
      match sub32 (lline de) (lline ds) with
      | None => None
      | Some l =>
          match (if N.eqb l 0 then sub32 (lchar de) (lchar ds) else Some (lchar de)) with
          | None => None
          | Some st => Some (l, st)
          end
      end
  | _, _ => None
  end.

(** The clusters [skip .. skip + take] of a line; crates/tombi-lsp/src/semantic_tokens/builder.rs:117-121 *)
Definition units_between (seg : str -> list str) (e : encoding) (t : str) (skip take : nat) : N :=
  sum_measures seg e (firstn take (skipn skip (seg t))).

(** The lines [l .. l + n] of crates/tombi-lsp/src/semantic_tokens/builder.rs:123-147.  The upper bound
    of [size_hint] is the length in bytes, so all clusters are taken. *)
Fixpoint length_lines (seg : str -> list str) (li : line_index) (r : range) (l : N) (n : nat) : option N :=
  match line_text li l with
  | None => None
  | Some o =>
      let here := match o with
        | None => 0
        | Some t =>
            let skip := if N.eqb l (line (rstart r)) then N.to_nat (column (rstart r)) else 0%nat in
            let take := if N.eqb l (line (rend r)) then N.to_nat (column (rend r)) else N.to_nat (len_bytes t) in
            units_between seg (li_encoding li) t skip take
        end in
      match n with
      | O => Some here
      | S n' => option_map (fun m => here + m) (length_lines seg li r (l + 1) n')
      end
  end.

(** crates/tombi-lsp/src/semantic_tokens/builder.rs:109-149 *)
Definition token_length (seg : str -> list str) (li : line_index) (r : range) : option N :=
  if N.eqb (line (rstart r)) (line (rend r)) then
    match line_text li (line (rstart r)) with
    | None => None
    | Some None => Some 0
    | Some (Some t) =>
        match sub32 (column (rend r)) (column (rstart r)) with
        | None => None
        | Some n => Some (units_between seg (li_encoding li) t (N.to_nat (column (rstart r))) (N.to_nat n))
        end
    end
  else length_lines seg li r (line (rstart r)) (N.to_nat (line (rend r) - line (rstart r))).

(** crates/tombi-lsp/src/semantic_tokens/builder.rs:8-13 *)
Record sem_builder := MkSb { sb_tokens : list semantic_token; sb_last : range }.
Definition sb_new : sem_builder := MkSb [] (MkRange (Pos 0 0) (Pos 0 0)).

(** crates/tombi-lsp/src/semantic_tokens/builder.rs:25-41; [r] is the range of the element. *)
Definition add_token (seg : str -> list str) (li : line_index) (ty : N) (r : range) (b : sem_builder) : option sem_builder :=
  match delta_line_and_start seg li (rstart (sb_last b)) (rstart r), token_length seg li r with
  | Some (dl, ds), Some n => Some (MkSb (sb_tokens b ++ [MkSem dl ds n ty]) r)
  | _, _ => None
  end.

(** crates/tombi-lsp/src/semantic_tokens/token_type.rs: the numbers of [COMMENT] and [KEYWORD] are
    arguments. *)
(** crates/tombi-lsp/src/semantic_tokens/builder.rs:43-86 *)
Definition add_comment_directive (seg : str -> list str) (li : line_index) (ty_comment ty_keyword : N) (comment directive : range) (b : sem_builder) : option sem_builder :=
  match range_to_lsp seg li directive, delta_line_and_start seg li (rstart (sb_last b)) (rstart comment), range_to_lsp seg li comment with
  | Some d, Some (dl, ds), Some c =>
      match sub32 (lchar (lstart d)) (lchar (lstart c)), sub32 (lchar (lend d)) (lchar (lstart d)), sub32 (lchar (lend c)) (lchar (lend d)) with
      | Some prefix_len, Some directive_len, Some content_len =>
          Some (MkSb (sb_tokens b ++ [MkSem dl ds prefix_len ty_comment; MkSem 0 prefix_len directive_len ty_keyword; MkSem 0 directive_len content_len ty_comment]) comment)
      | _, _, _ => None
      end
  | _, _, _ => None
  end.
