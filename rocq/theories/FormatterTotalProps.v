(** Formatting does not panic: C57. *)
From Coq Require Import String Ascii List NArith Bool Arith Lia.
From Verif Require Import Base SyntaxKind TextModel LexerModel LexerSpec LexerProofs LexSound TomlTextModel ParserModel ParserProps
  FormatPieces FormatPiecesProofs FormatPiecesProps DateTimeModel DateTimeTokens FormatterModel FormatterLayout FormatterSpec FormatterEdit FormatterProps FormatterTextProps OneLine FormatterProofs ParseBack ParseBackProofs FormatterTotal.
Import ListNotations.
Open Scope N_scope.
Open Scope list_scope.

(** * When the indentation fits *)
(** levels of indentation: brackets and braces inside each other, one for the lines of a table and one for each table above it,
    where the options say so *)
Definition levels (cfg : defs) (d : fdoc) : nat :=
  ((if f_indent_sub_tables cfg then length (d_tables d) else 0) + (if f_indent_table_key_values cfg then 1 else 0) + dnest d)%nat.
(** levels and columns are bytes *)
Definition indentation_fits (cfg : defs) (d : fdoc) : Prop :=
  (levels cfg d <= 255)%nat /\ (f_indent_tab cfg = true \/ f_indent_width cfg * N.of_nat (levels cfg d) < 256).
(** the content of a directive in a comment *)
Inductive directive_of : str -> str -> Prop :=
| directive_document content : directive_of (lit "#:tombi " ++ content) content
| directive_value ws content : forallb is_unicode_whitespace ws = true -> directive_of ([35] ++ ws ++ lit "tombi:" ++ content) content.
(** A text with errors is left alone.  Otherwise the parser answers, the indentation fits, and the same is true of the contents
    of its directives, which are formatted as texts. *)
Inductive formattable (cfg : defs) (seg : str -> list str) (stack : nat) : str -> Prop :=
| formattable_errors s : read seg stack s = Done None -> formattable cfg seg stack s
| formattable_document s crlf d : read seg stack s = Done (Some (crlf, d)) -> indentation_fits cfg d ->
    (forall c content, In (COMMENT, c) (doc_content d) -> directive_of c content -> formattable cfg seg stack content) -> formattable cfg seg stack s.

(** * Tokens *)
Section Tokens.
Context (cfg : defs) (dir : str -> option str).
Lemma string_written k s q : (k = BASIC_STRING \/ k = LITERAL_STRING) -> text_ok k s -> exists p, option_map (fun t => (string_kind t, t)) (write_string k s q) = Some p.
Proof. intros HK HT. destruct (write_token k s q HK HT) as (k' & out & -> & _). cbn. eauto. Qed.
Lemma key_written k : key_kind (fst k) = true -> good_token k -> exists p, key_piece cfg k = Some p.
Proof.
  destruct k as [k s]. unfold key_kind, key_piece, good_token. cbn [fst snd]. intros HK HT. destruct k; try discriminate; [| |eauto].
  - destruct HT as [HT|HT]; [discriminate|]. apply (string_written BASIC_STRING); auto.
  - destruct HT as [HT|HT]; [discriminate|]. apply (string_written LITERAL_STRING); auto.
Qed.
Lemma literal_written k s : literal_kind k = true -> good_token (k, s) -> exists p, literal_piece cfg k s = Some p.
Proof.
  intros HK HG. assert (HT : text_ok k s) by (destruct HG as [HG|HG]; [cbn in HG; subst k; discriminate|exact HG]). unfold literal_piece. destruct k; try discriminate; eauto.
  - apply (string_written BASIC_STRING); auto.
  - apply (string_written LITERAL_STRING); auto.
  - destruct (formatted_shape OFFSET_DATE_TIME s (f_date_time_delimiter cfg) (or_introl eq_refl) HT) as (a & c & c' & b & _ & -> & _). cbn. eauto.
  - destruct (formatted_shape LOCAL_DATE_TIME s (f_date_time_delimiter cfg) (or_intror eq_refl) HT) as (a & c & c' & b & _ & -> & _). cbn. eauto.
Qed.
Lemma directive_content_of c content : is_comment c -> directive_content c = Some content -> directive_of c content.
Proof.
  intros (b & Eb & _). unfold directive_content. destruct (strip_prefix (lit "#:schema ") c); [discriminate|]. destruct (strip_prefix (lit "#:tombi ") c) as [u|] eqn:E.
  - intros H. injection H as ->. apply strip_prefix_inv in E. rewrite E. constructor.
  - unfold value_directive. intros H. apply strip_prefix_inv in H. subst c. cbn [tl app] in H. destruct (drop_while_suffix is_unicode_whitespace b) as (ws & EB & HW). fold (trim_start b) in EB. rewrite H in EB. rewrite EB. apply directive_value. exact HW.
Qed.
Lemma comment_written c : is_comment c -> (forall content, directive_of c content -> exists t, dir content = Some t) -> forall strip, exists t, comment_text cfg dir strip c = Some t.
Proof.
  intros HC HD strip. unfold comment_text. destruct (f_comment_style cfg); [|eauto]. destruct (directive_content c) as [content|] eqn:E.
  - destruct (HD content (directive_content_of c content HC E)) as [t ->]. unfold format_comment. unfold directive_content in E. destruct (strip_prefix (lit "#:schema ") c); [discriminate|]. destruct (strip_prefix (lit "#:tombi ") c); [eauto|]. rewrite E. eauto.
  - destruct (C14_is_one_comment (fun s => s) Normalize strip c [] (fun s H => H) HC) as (out & -> & _); [exact I|]. eauto.
Qed.
Lemma pieces_written ps : good_tokens ps -> (forall c content, In (COMMENT, c) ps -> directive_of c content -> exists t, dir content = Some t) -> Forall (written_piece cfg dir) ps.
Proof.
  intros HG HD. unfold good_tokens in HG. rewrite Forall_forall in HG |- *. intros p Hp. specialize (HG p Hp). split; [|split].
  - intros HC. destruct p as [k c]. cbn [fst snd] in *. subst k. apply comment_written; [|intros content; apply HD; exact Hp]. apply text_comment_iff. destruct HG as [HG|HG]; [discriminate|exact HG].
  - intros HK. exact (key_written p HK HG).
  - intros HL. destruct p as [k s]. exact (literal_written k s HL HG).
Qed.
End Tokens.

(** * Lengths *)
Lemma drop_length s : forall n w, drop_bytes n s = Some w -> (length w <= length s)%nat.
Proof.
  induction s as [|c s IH]; intros n w; cbn [drop_bytes].
  - destruct (N.eqb n 0); [|discriminate]. intros E. injection E as <-. apply le_n.
  - destruct (N.eqb n 0); [intros E; injection E as <-; apply le_n|]. destruct (n <? len_utf8 c); [discriminate|]. intros E. specialize (IH _ _ E). cbn [length]. lia.
Qed.
Lemma take_length s : forall n w, take_bytes n s = Some w -> (length w <= length s)%nat.
Proof.
  induction s as [|c s IH]; intros n w; cbn [take_bytes].
  - destruct (N.eqb n 0); [|discriminate]. intros E. injection E as <-. apply le_n.
  - destruct (N.eqb n 0); [intros E; injection E as <-; apply Nat.le_0_l|]. destruct (n <? len_utf8 c); [discriminate|].
    destruct (take_bytes _ s) as [u|] eqn:EU; [|discriminate]. intros E. injection E as <-. specialize (IH _ _ EU). cbn [length]. lia.
Qed.
Lemma comment_length seg source ps c : reading (source_content seg source) ps -> In (COMMENT, c) ps -> (length c <= length source)%nat.
Proof.
  intros HR HC. assert (HI : In (COMMENT, c) (source_content seg source)).
  { induction HR as [|p ps qs H IH|k w ps qs HK HD H IH|u w ps qs HU HV H IH]; [destruct HC| | |].
    - destruct HC as [-> |HC]; [left; reflexivity|right; exact (IH HC)].
    - destruct HC as [E|HC]; [discriminate E|right; exact (IH HC)].
    - destruct HC as [E|[E|[E|HC]]]; try discriminate E. right. exact (IH HC). }
  apply filter_In in HI as [HI _]. unfold source_pieces in HI. destruct (lex seg source) as [l|]; [|destruct HI]. apply in_map_iff in HI as (t & E & _). destruct (slice source (tspan t)) as [w|] eqn:ES; injection E as _ <-; [|apply Nat.le_0_l].
  unfold slice in ES. destruct (drop_bytes _ source) as [r|] eqn:ED; [|discriminate]. exact (Nat.le_trans _ _ _ (take_length _ _ _ ES) (drop_length _ _ _ ED)).
Qed.
Lemma directive_length c content : directive_of c content -> (length content < length c)%nat.
Proof. intros [u|ws u _]; rewrite !app_length; cbn; lia. Qed.

(** * C57 *)
Lemma with_levels cfg s d : levels (with_line_ending cfg s) d = levels cfg d.
Proof. reflexivity. Qed.
Lemma document_total cfg gr dir d f : f_key_value_equal_alignment cfg = false -> wf_doc d = true -> good_tokens (doc_content d) -> indentation_fits cfg d ->
  (forall c content, In (COMMENT, c) (doc_content d) -> directive_of c content -> exists t, dir content = Some t) -> exists f', fmt_root cfg gr dir d f = Some f'.
Proof.
  intros HA HW HG [HF1 HF2] HD. apply (root_total cfg gr dir (N.of_nat (levels cfg d)) HA); [lia|exact HF2|exact HW| |apply N.le_refl]. apply pieces_written; assumption.
Qed.
Lemma directive_total cfg gr seg stack : seg [] = [] -> f_key_value_equal_alignment cfg = false -> forall s, formattable cfg seg stack s -> forall fuel, (length s < fuel)%nat -> exists t, directive fuel cfg gr seg stack s = Some t.
Proof.
  intros Hs HA s H. induction H as [s ER|s crlf d ER HF HC IH]; intros fuel HL; (destruct fuel as [|n]; [lia|]); cbn [directive].
  - rewrite ER. eauto.
  - rewrite ER. destruct (read_inv _ _ _ _ _ Hs ER) as (HW & HG & HR).
    destruct (document_total cfg gr (directive n cfg gr seg stack) d (initial true) HA HW HG HF) as [f' ->]; [|cbn; eauto].
    intros c content Hc Hd. apply (IH c content Hc Hd). pose proof (comment_length _ _ _ _ HR Hc). pose proof (directive_length _ _ Hd). lia.
Qed.
Lemma formattable_ending cfg e seg stack : forall s, formattable cfg seg stack s -> formattable (with_line_ending cfg e) seg stack s.
Proof. intros s H. induction H as [s ER|s crlf d ER HF HC IH]; [apply formattable_errors; exact ER|]. exact (formattable_document (with_line_ending cfg e) seg stack s crlf d ER HF IH). Qed.
(** Formatting a text returns: the text with errors is left alone ([None]), any other is formatted.  FULL STATEMENT: for every text
    and all options.  Missing: the options that align the equals signs; texts the parser panics on (C06), as a whole or in a
    directive; and indentation of more than 255 columns, for which the property is false (below). *)
Theorem C57_no_panic_partial : forall cfg le gr seg stack edited source, seg [] = [] -> f_key_value_equal_alignment cfg = false -> formattable cfg seg stack source ->
  exists out, format_source cfg le gr seg stack edited source = Done out /\ (out = None <-> read seg stack source = Done None).
Proof.
  intros cfg le gr seg stack edited source Hs HA HF. unfold format_source. destruct HF as [source ER|source crlf d ER HI HC]; rewrite ER; [exists None; tauto|].
  set (cfg' := with_line_ending cfg (line_ending_text le crlf)). destruct (read_inv _ _ _ _ _ Hs ER) as (HW & HG & HR). unfold format_pieces. set (d' := if edited then edit_root d else d).
  assert (HW' : wf_doc d' = true) by (subst d'; destruct edited; [apply edit_wf|]; exact HW). assert (EC : doc_content d' = doc_content d) by (subst d'; destruct edited; [apply edit_content|reflexivity]).
  assert (HI' : indentation_fits cfg' d').
  { assert (EL : levels cfg' d' = levels cfg d).
    { unfold levels. subst d'. destruct edited; [|reflexivity]. rewrite edit_nest. replace (length (d_tables (edit_root d))) with (length (d_tables d)); [reflexivity|]. unfold edit_root, move_directives. cbn [d_groups d_tables].
      set (ts := map _ (d_tables d)). assert (ET : length ts = length (d_tables d)) by apply map_length. rewrite <- ET. destruct (starts_dangling _); [reflexivity|]. destruct (map edit_group (d_groups d)) as [|[b cs|b [|[l ks r v c] its]] gs]; cbn [d_tables]; try reflexivity.
      - destruct ts as [|[a l ks tc gs b] ts']; [reflexivity|]. destruct (existsb _ _); reflexivity.
      - destruct (existsb _ _); reflexivity. }
    unfold indentation_fits. rewrite EL. exact HI. }
  destruct (document_total cfg' gr (directive (S (length source)) cfg' gr seg stack) d' (initial false)) as [f ->]; auto.
  - rewrite EC. exact HG.
  - intros c content Hc Hd. rewrite EC in Hc. apply (directive_total cfg' gr seg stack Hs HA content (formattable_ending _ _ _ _ _ (HC c content Hc Hd))). pose proof (comment_length _ _ _ _ HR Hc). pose proof (directive_length _ _ Hd). lia.
  - eexists. split; [reflexivity|]. split; discriminate.
Qed.
Print Assumptions C57_no_panic_partial.

(** the default options, a directive, comments, nested arrays on several lines *)
Definition calm_source : str := lines "#:tombi format.disabled=false|a=[ [1,2,], # x|]||[b.c]|k={x=1} # tombi: lint.rules.key-empty=""off""|".
Lemma directive_found c content : directive_of c content -> directive_content c = Some content.
Proof.
  intros [u|ws u HW]; unfold directive_content.
  - cbn [lit app]. reflexivity.
  - assert (ET : trim_start (ws ++ lit "tombi:" ++ u) = lit "tombi:" ++ u) by (unfold trim_start; induction ws as [|w ws IH]; [reflexivity|]; cbn [forallb] in HW; apply andb_prop in HW as [H1 H2]; cbn [app drop_while]; rewrite H1; exact (IH H2)).
    assert (EV : value_directive ([35] ++ ws ++ lit "tombi:" ++ u) = Some u) by (unfold value_directive; cbn [app tl]; rewrite ET; apply strip_prefix_app).
    assert (EN : forall p q, strip_prefix (35 :: 58 :: p :: q) ([35] ++ ws ++ lit "tombi:" ++ u) = None).
    { intros p q. destruct (strip_prefix (35 :: 58 :: p :: q) ([35] ++ ws ++ lit "tombi:" ++ u)) as [t|] eqn:E; [|reflexivity]. exfalso. apply strip_prefix_inv in E. destruct ws as [|w ws]; [discriminate E|]. cbn [forallb] in HW. apply andb_prop in HW as [H1 _]. cbn [app] in E. injection E as -> _. discriminate H1. }
    rewrite EV. change (lit "#:schema ") with (35 :: 58 :: 115 :: lit "chema "). change (lit "#:tombi ") with (35 :: 58 :: 116 :: lit "ombi "). rewrite !EN. reflexivity.
Qed.
(** a text of which this can be computed *)
Definition fits_b (cfg : defs) (d : fdoc) : bool := (levels cfg d <=? 255)%nat && (f_indent_tab cfg || (f_indent_width cfg * N.of_nat (levels cfg d) <? 256)).
Definition contents (d : fdoc) : list str := flat_map (fun p => match directive_content (snd p) with Some u => [u] | None => [] end) (filter (fun p => kind_eqb (fst p) COMMENT) (doc_content d)).
Fixpoint formattable_b (n : nat) (cfg : defs) (seg : str -> list str) (stack : nat) (s : str) : bool :=
  match n with
  | O => false
  | S n => match read seg stack s with Done None => true | Done (Some (_, d)) => fits_b cfg d && forallb (formattable_b n cfg seg stack) (contents d) | _ => false end
  end.
Lemma formattable_b_ok n cfg seg stack : forall s, formattable_b n cfg seg stack s = true -> formattable cfg seg stack s.
Proof.
  induction n as [|n IH]; intros s H; [discriminate H|]. cbn [formattable_b] in H. destruct (read seg stack s) as [[[crlf d]|]| | |] eqn:ER; try discriminate H; [|apply formattable_errors; exact ER].
  apply andb_prop in H as [H1 H2]. rewrite forallb_forall in H2. apply (formattable_document cfg seg stack s crlf d ER).
  - unfold fits_b in H1. apply andb_prop in H1 as [H1 H3]. split; [apply Nat.leb_le; exact H1|]. apply orb_prop in H3 as [H3|H3]; [left; exact H3|right; apply N.ltb_lt; exact H3].
  - intros c content Hc Hd. apply IH. apply H2. unfold contents. apply in_flat_map. exists (COMMENT, c). split; [apply filter_In; split; [exact Hc|reflexivity]|]. cbn [snd]. rewrite (directive_found c content Hd). left. reflexivity.
Qed.
Example C57_example : formattable default_defs chars 200 calm_source /\
  format_source default_defs LEAuto width chars 200 true calm_source =
    Done (Some (lines "#:tombi format.disabled = false||a = [|  [|    1,|    2,|  ],  # x|]||[b.c]|k = { x = 1 }  # tombi: lint.rules.key-empty = ""off""|")).
Proof. split; [apply (formattable_b_ok 3); vm_compute; reflexivity|vm_compute; reflexivity]. Qed.
(** 128 arrays inside each other, as many as the parser takes, on lines of their own and with the default options: the
    indentation is 256 columns. *)
Definition nested (n : nat) : str := lit "a=" ++ repeat 91 n ++ lit "1," ++ flat_map (fun _ => [93; 44]) (repeat tt (pred n)) ++ [93].
Theorem C57_indentation_refuted : exists source crlf d, read chars 200 source = Done (Some (crlf, d)) /\ format_source default_defs LEAuto width chars 200 true source = Panic.
Proof. exists (nested 128). eexists _, _. split; vm_compute; reflexivity. Qed.
Print Assumptions C57_indentation_refuted.
(** Directives are read as texts of their own, with the blank before them, and the parser panics on some (C06). *)
Theorem C57_directive_refuted : exists source crlf d, read chars 200 source = Done (Some (crlf, d)) /\ format_source default_defs LEAuto width chars 200 true source = Panic.
Proof. exists (lines "# tombi: 1.2=3|a=1|"). eexists _, _. split; vm_compute; reflexivity. Qed.
Print Assumptions C57_directive_refuted.
