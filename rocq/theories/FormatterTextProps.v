(** Final theorems about formatting a text, from its characters to the written ones (C31), and about the lines of a text
    without errors (C50). *)
From Coq Require Import String Ascii List NArith Bool Arith Lia.
From Verif Require Import Base SyntaxKind TextModel LexerModel LexerSpec LexSound ParserModel ParserBuild AstModel
  FormatPieces FormatPiecesProps FormatterModel FormatterLayout FormatterSpec FormatterProofs FormatterEdit
  ParserYield ParserShape ParserTree ViewShape ViewContent FormatterProps OneLine.
Import ListNotations.
Open Scope N_scope.
Open Scope list_scope.

(** * C31 *)
(** A text without errors has a document to format: the reader does not panic on the tree. *)
Theorem C31_readable : forall seg stack source t, seg [] = [] -> parse seg stack source = Done (t, []) ->
  exists d, read seg stack source = Done (Some (has_crlf t, d)).
Proof.
  intros seg stack source t Hs HP. destruct (parse_shape seg stack source t Hs HP) as (l & c & ws & d & _ & _ & -> & HG & HC & HD & _).
  destruct (root_view c ws d HC HG HD) as (d' & HV & _). exists d'. unfold read. rewrite HP, HV. reflexivity.
Qed.
Print Assumptions C31_readable.

Lemma read_inv seg stack source crlf d : seg [] = [] -> read seg stack source = Done (Some (crlf, d)) ->
  wf_doc d = true /\ good_tokens (doc_content d) /\ reading (source_content seg source) (doc_content d).
Proof.
  intros Hs ER. unfold read in ER. destruct (parse seg stack source) as [[t es]| | |] eqn:EP; try discriminate. destruct es; [|discriminate].
  destruct (view_root (height t) (El [] t)) as [d0|] eqn:EV; [|discriminate]. injection ER as _ ->. exact (read_content seg stack source t d Hs EP EV).
Qed.
(** Whatever the options and the text: what is written is, but for blanks, line breaks and commas, the tokens and comments of
    the text in their order, each as a token or comment that says the same; and a line break follows every comment. *)
Theorem C31_text_kept : forall cfg le gr seg stack edited source out, seg [] = [] ->
  format_source cfg le gr seg stack edited source = Done (Some out) ->
  exists content ps, reading (source_content seg source) content /\ Forall2 same_token content (filter is_content ps) /\
    comments_end_lines ps /\ out = ptext ps.
Proof.
  intros cfg le gr seg stack edited source out Hs E. unfold format_source in E. destruct (read seg stack source) as [[[crlf d]|]| | |] eqn:ER; try discriminate.
  destruct (read_inv _ _ _ _ _ Hs ER) as (HW & HG & HR). destruct (format_pieces _ _ _ _ d) as [ps|] eqn:EP; [|discriminate]. injection E as <-.
  exists (doc_content d), ps. split; [exact HR|]. split; [|split; [eapply C31_comments_end_lines; eauto|reflexivity]].
  eapply C31_content_kept; eauto. apply directive_one_line. exact Hs.
Qed.
Print Assumptions C31_text_kept.

(** And where no comma stands after a key/value outside of braces, the tokens spell the document that was read: its keys,
    values and headers in their order and nesting, with one comma between two items. *)
Theorem C31_text_spelled : forall cfg le gr seg stack edited source out, seg [] = [] ->
  format_source cfg le gr seg stack edited source = Done (Some out) ->
  exists crlf d ps, read seg stack source = Done (Some (crlf, d)) /\ out = ptext ps /\
    ((if edited then no_line_commas d else plain_lines d) = true -> spell_doc same_token d (filter is_token ps)).
Proof.
  intros cfg le gr seg stack edited source out Hs E. unfold format_source in E. destruct (read seg stack source) as [[[crlf d]|]| | |] eqn:ER; try discriminate.
  destruct (read_inv _ _ _ _ _ Hs ER) as (HW & HG & HR). destruct (format_pieces _ _ _ _ d) as [ps|] eqn:EP; [|discriminate]. injection E as <-.
  exists crlf, d, ps. split; [reflexivity|]. split; [reflexivity|]. intros HC. eapply C31_spelled; eauto.
Qed.
Print Assumptions C31_text_spelled.

(** The content of a directive stays on its line. *)
Theorem C31_directives_one_line : forall cfg gr seg stack n s t, seg [] = [] -> no_break s -> directive n cfg gr seg stack s = Some t -> no_break t.
Proof. intros cfg gr seg stack n s t Hs. apply directive_one_line. exact Hs. Qed.
Print Assumptions C31_directives_one_line.

Example C31_text_example : chars [] = [] /\ format_source default_defs LEAuto width chars 200 true example_source = Done (Some example_text) /\
  length (source_content chars example_source) = 39%nat.
Proof. vm_compute. repeat split; reflexivity. Qed.
(** The number of the key is read as two keys. *)
Example C31_reading_example : exists crlf d, read chars 200 (lit "1.2 = 3") = Done (Some (crlf, d)) /\
  source_content chars (lit "1.2 = 3") = [(FLOAT, lit "1.2"); (EQUAL, lit "="); (INTEGER_DEC, lit "3")] /\
  doc_content d = [(BARE_KEY, lit "1"); (DOT, lit "."); (BARE_KEY, lit "2"); (EQUAL, lit "="); (INTEGER_DEC, lit "3")].
Proof. eexists. eexists. vm_compute. repeat split; reflexivity. Qed.
Example C31_directive_example : directive 9 default_defs width chars 200 (lit "a=[1,2]") = Some (lit "a = [1, 2]") /\ no_break (lit "a=[1,2]").
Proof. split; [vm_compute; reflexivity|]. repeat constructor; discriminate. Qed.

(** * C50 *)
(** Without white space, the children of the root stand on lines of their own, those of a table after its header, and the
    key/values of a group: a line break is the last leaf before, or the first after, the place where two of them meet. *)
Definition own_lines (t : tree) : Prop := exists cs, strip t = [TNode ROOT cs] /\ lined cs /\ Forall line_tree cs.
Theorem C50_own_lines : forall seg stack source t, seg [] = [] -> parse seg stack source = Done (t, []) -> own_lines t.
Proof.
  intros seg stack source t Hs HP. destruct (parse_shape seg stack source t Hs HP) as (l & c & ws & d & _ & _ & -> & HG & HC & HD & HL & HT & _).
  exists (strips c). split; [|auto]. cbn [strip]. do 2 f_equal. change (flat_map strip (c ++ ws)) with (strips (c ++ ws)). rewrite strips_app. rewrite <- app_nil_r. f_equal.
  destruct HG as [-> |(w & ->)]; reflexivity.
Qed.
Print Assumptions C50_own_lines.
(** So there is a line break between (or at the edge of) any two of them that are not empty. *)
Theorem C50_line_break_between : forall seg stack source t cs a x b y c, seg [] = [] -> parse seg stack source = Done (t, []) ->
  strip t = [TNode ROOT cs] -> cs = a ++ x :: b ++ y :: c -> tkinds x <> [] -> tkinds y <> [] ->
  In LINE_BREAK (tkinds x ++ lkinds b ++ tkinds y).
Proof.
  intros seg stack source t cs a x b y c Hs HP HC HE HX HY. destruct (C50_own_lines seg stack source t Hs HP) as (cs' & HC' & HL & _). assert (cs' = cs) by congruence. subst cs' cs.
  assert (EX : lkinds [x] = tkinds x) by apply app_nil_r.
  specialize (HL (a ++ [x]) (b ++ y :: c)). rewrite <- app_assoc in HL. specialize (HL eq_refl). change (y :: c) with ([y] ++ c) in HL.
  assert (EY : lkinds [y] = tkinds y) by apply app_nil_r. unfold junction in HL. rewrite !lkinds_app, EX, EY in HL.
  destruct HL as [H|[H|[(z & H)|(z & H)]]].
  - apply app_eq_nil in H as [_ H]. contradiction.
  - apply app_eq_nil in H as [_ H]. apply app_eq_nil in H as [H _]. contradiction.
  - destruct (exists_last HX) as (u & k & E). rewrite E in *. rewrite app_assoc in H. apply app_inj_tail in H as [_ ->]. apply in_or_app. left. apply in_or_app. right. left. reflexivity.
  - apply in_or_app. right. rewrite app_assoc in H. destruct (lkinds b ++ tkinds y) as [|k l] eqn:E; [apply app_eq_nil in E as [_ E]; contradiction|]. injection H as -> _. left. reflexivity.
Qed.
Print Assumptions C50_line_break_between.
Example C50_example : exists t a b c, parse chars 200 (lines "a=1|[b]|c=2|d=3") = Done (t, []) /\ strip t = [TNode ROOT [a; b; c]] /\
  map tkinds [a; b; c] = [[BARE_KEY; EQUAL; INTEGER_DEC]; [LINE_BREAK]; [BRACKET_START; BARE_KEY; BRACKET_END; LINE_BREAK; BARE_KEY; EQUAL; INTEGER_DEC; LINE_BREAK; BARE_KEY; EQUAL; INTEGER_DEC]].
Proof. eexists. eexists. eexists. eexists. vm_compute. repeat split; reflexivity. Qed.
(** Two on a line are an error. *)
Example C50_errors : match parse chars 200 (lit "a=1 b=2"), parse chars 200 (lit "[a] b=2"), parse chars 200 (lit "[a] [b]") with
  | Done (_, _ :: _), Done (_, _ :: _), Done (_, _ :: _) => True | _, _, _ => False end.
Proof. vm_compute. exact I. Qed.
