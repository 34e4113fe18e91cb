(** Final theorems about the formatting of a whole document (C30, C31, C49). *)
From Coq Require Import String Ascii List NArith Bool Arith Lia.
From Verif Require Import Base SyntaxKind TextModel Regex LexerModel LexerSpec LexSound TomlTextModel TomlStringGrammar TomlTextProofs TomlTextProps ParserModel ParserBuild AstModel
  FormatPieces FormatPiecesProofs FormatPiecesProps DateTimeModel DateTimeSpec DateTimeTokens FormatterModel FormatterLayout FormatterSpec FormatterProofs FormatterEdit.
Import ListNotations.
Open Scope N_scope.
Open Scope list_scope.

(** * What is written for a token *)
Lemma string_kind_of k s : (k = BASIC_STRING \/ k = LITERAL_STRING) -> text_ok k s -> string_kind s = k.
Proof. intros [-> | ->] (b & -> & _); reflexivity. Qed.
Lemma same_string k s q p : (k = BASIC_STRING \/ k = LITERAL_STRING) -> text_ok k s ->
  option_map (fun t => (string_kind t, t)) (write_string k s q) = Some p -> same_token (k, s) p /\ (fst p = BASIC_STRING \/ fst p = LITERAL_STRING).
Proof.
  intros HK HT E. destruct (write_token k s q HK HT) as (k' & out & H1 & H2 & H3 & H4 & _). rewrite H1 in E. cbn in E. injection E as <-.
  rewrite (string_kind_of k' out H2 H3). cbn [fst]. split; [|exact H2].
  destruct HK as [-> | ->]; unfold same_token; cbn [fst snd]; auto.
Qed.
Lemma same_date_time k s d p : dt_kind k -> text_ok k s -> option_map (fun t => (k, t)) (format_date_time d s) = Some p -> same_token (k, s) p.
Proof.
  intros HK HT E. destruct (formatted_shape k s d HK HT) as (a & c & c' & b & E1 & E2 & L & _ & D & D' & _). rewrite E2 in E. cbn in E. injection E as <-.
  assert (HD : forall x, delim x -> date_time_delimiter x) by (unfold delim, date_time_delimiter; intros; lia).
  destruct HK as [-> | ->]; unfold same_token; cbn [fst snd]; (split; [reflexivity|]); exists a, c, c', b; auto 7.
Qed.
Section Tokens.
Context (cfg : defs) (dir : str -> option str).
Lemma key_same k p : key_kind (fst k) = true -> good_token k -> rkey cfg k p -> same_token k p /\ (fst p = BARE_KEY \/ fst p = BASIC_STRING \/ fst p = LITERAL_STRING).
Proof.
  destruct k as [k s]. unfold key_kind, rkey, key_piece, good_token. cbn [fst snd]. intros HK HT E.
  destruct k; try discriminate; cycle 2.
  - injection E as <-. split; [reflexivity|auto].
  - destruct HT as [HT|HT]; [discriminate|]. destruct (same_string BASIC_STRING s (f_key_quote_style cfg) p); auto.
  - destruct HT as [HT|HT]; [discriminate|]. destruct (same_string LITERAL_STRING s (f_key_quote_style cfg) p); auto.
Qed.
Lemma literal_same k s p : literal_kind k = true -> good_token (k, s) -> rliteral cfg k s p -> same_token (k, s) p /\ literal_kind (fst p) = true.
Proof.
  intros HK HG E. assert (HT : text_ok k s) by (destruct HG as [HG|HG]; [cbn in HG; subst k; discriminate|exact HG]). assert (HL : forall p : piece, fst p = BASIC_STRING \/ fst p = LITERAL_STRING -> literal_kind (fst p) = true) by (intros q [-> | ->]; reflexivity).
  unfold rliteral, literal_piece in E. destruct k; try discriminate; try (injection E as <-; split; reflexivity).
  - destruct (same_string BASIC_STRING s (f_string_quote_style cfg) p); auto.
  - destruct (same_string LITERAL_STRING s (f_string_quote_style cfg) p); auto.
  - split; [apply (same_date_time OFFSET_DATE_TIME s (f_date_time_delimiter cfg)); auto; left; reflexivity|].
    destruct (format_date_time (f_date_time_delimiter cfg) s); [|discriminate]. injection E as <-. reflexivity.
  - split; [apply (same_date_time LOCAL_DATE_TIME s (f_date_time_delimiter cfg)); auto; right; reflexivity|].
    destruct (format_date_time (f_date_time_delimiter cfg) s); [|discriminate]. injection E as <-. reflexivity.
Qed.
(** The formatter of the content of a directive writes no line break for a content without one. *)
Definition one_line : Prop := forall s t, no_break s -> dir s = Some t -> no_break t.
Lemma squeeze_app a b : squeeze (a ++ b) = squeeze a ++ squeeze b. Proof. apply filter_app. Qed.
Lemma squeeze_blank s : Forall (fun c => is_unicode_whitespace c = true) s -> squeeze s = [].
Proof. induction 1 as [|c s H _ IH]; [reflexivity|]. unfold squeeze. cbn [filter]. rewrite H. exact IH. Qed.
Lemma squeeze_trim s : squeeze (trim s) = squeeze s.
Proof.
  unfold trim. destruct (drop_while_suffix is_unicode_whitespace s) as (ws & E & Hw). fold (trim_start s) in E.
  destruct (trim_end_split is_unicode_whitespace (trim_start s)) as (post & E5 & Hp).
  rewrite E at 2. rewrite E5 at 2. rewrite !squeeze_app, (squeeze_blank ws), (squeeze_blank post), app_nil_r; [reflexivity| |]; apply Forall_forall; apply forallb_forall; assumption.
Qed.
Lemma comment_same c c' : one_line -> good_token (COMMENT, c) -> rcomment cfg dir c c' -> same_token (COMMENT, c) (COMMENT, c').
Proof.
  intros HD HG (strip & E). assert (HT : is_comment c) by (apply text_comment_iff; destruct HG as [HG|HG]; [discriminate|exact HG]). unfold same_token. cbn [fst snd]. split; [reflexivity|]. unfold comment_text in E.
  destruct (f_comment_style cfg); [|injection E as <-; auto].
  assert (HB : no_break c) by (destruct HT as (b & -> & Hb); constructor; [split; discriminate|exact Hb]).
  destruct (directive_content c) as [content|] eqn:EC.
  - assert (HT' : tombi_directive c).
    { unfold directive_content in EC. destruct (strip_prefix (lit "#:schema ") c) eqn:E1; [discriminate|].
      destruct (strip_prefix (lit "#:tombi ") c) as [u|] eqn:E2; [left; exists u; apply strip_prefix_inv; exact E2|].
      right. unfold value_directive in EC. apply strip_prefix_inv in EC. destruct HT as (b & -> & Hbb). cbn [tl] in EC.
      destruct (drop_while_suffix is_unicode_whitespace b) as (ws & Ew & Hw). fold (trim_start b) in Ew. rewrite EC in Ew. exists ws, content. split; [rewrite Ew; reflexivity|exact Hw]. }
    split; [|contradiction]. destruct (dir content) as [text|] eqn:ED; [|discriminate].
    assert (HN : no_break content).
    { destruct HT' as [(u & ->)|(ws & u & -> & Hw)].
      - change (Some u = Some content) in EC. injection EC as <-. apply no_break_app in HB. apply HB.
      - rewrite !no_break_app in HB. destruct HB as (_ & HB & _ & HU). unfold directive_content in EC.
        destruct (strip_prefix (lit "#:schema ") ([35] ++ ws ++ lit "tombi:" ++ u)) eqn:E1; [discriminate|].
        destruct (strip_prefix (lit "#:tombi ") ([35] ++ ws ++ lit "tombi:" ++ u)) as [x|] eqn:E2.
        + exfalso. apply strip_prefix_inv in E2. cbn [app] in E2. injection E2 as E2. destruct ws as [|w ws]; [discriminate|]. injection E2 as -> _. discriminate.
        + unfold value_directive in EC. cbn [app tl] in EC. rewrite trim_start_ws in EC by exact Hw.
          change (trim_start (lit "tombi:" ++ u)) with (lit "tombi:" ++ u) in EC. rewrite strip_prefix_app in EC. injection EC as <-. exact HU. }
    destruct (comment_kept (fun _ => text) Normalize strip c) as (out & H1 & H2); [intros; apply (HD _ _ HN ED)|exact HT|]. congruence.
  - destruct (comment_kept (fun s => s) Normalize strip c) as (out & H1 & H2); [auto|exact HT|]. assert (out = c') by congruence. subst out. split; [exact H2|].
    intros HN. destruct (strip_prefix (lit "#:schema ") c) as [u|] eqn:E1.
    + unfold format_comment in E. rewrite E1 in E. injection E as <-. apply strip_prefix_inv in E1. rewrite E1. rewrite squeeze_app, <- (squeeze_trim u), <- squeeze_app. reflexivity.
    + assert (N1 : ~ schema_directive c) by (intros (u & ->); rewrite strip_prefix_app in E1; discriminate).
      destruct (plain_text (fun s => s) strip c HT HN N1) as (m & pre & core & post & _ & E2 & P1 & P2 & _ & _ & E3). rewrite E3 in E. injection E as <-.
      rewrite E2, !squeeze_app, (squeeze_blank pre), (squeeze_blank post), app_nil_r.
      * destruct core; [symmetry; apply app_nil_r|]. rewrite squeeze_app. reflexivity.
      * apply Forall_forall. intros x Hx. unfold ascii_spaces in P2. rewrite Forall_forall in P2. destruct (P2 x Hx) as [-> |[-> |[-> |[-> | ->]]]]; reflexivity.
      * apply Forall_forall. intros x Hx. unfold FormatPiecesProps.blanks in P1. rewrite Forall_forall in P1. destruct (P1 x Hx) as [-> | ->]; reflexivity.
Qed.
End Tokens.
Lemma literal_content p : literal_kind (fst p) = true -> is_content p = true /\ is_token p = true /\ fst p <> COMMENT.
Proof. destruct p as [k s]. cbn [fst]. destruct k; try discriminate; intros _; repeat split; discriminate. Qed.
Lemma key_content p : fst p = BARE_KEY \/ fst p = BASIC_STRING \/ fst p = LITERAL_STRING -> is_content p = true /\ is_token p = true /\ fst p <> COMMENT.
Proof. destruct p as [k s]. cbn [fst]. intros [-> |[-> | ->]]; repeat split; discriminate. Qed.

(** * C31 *)
Lemma pieces_layout cfg gr dir edited d ps : wf_doc d = true -> format_pieces cfg gr dir edited d = Some ps ->
  exists d' qs, d' = (if edited then edit_root d else d) /\ wf_doc d' = true /\
    lay_root (f_line_ending cfg) (f_group_blank_lines_limit cfg) (rcomment cfg dir) (rkey cfg) (rliteral cfg) (gap cfg) (rgap cfg) d' qs /\
    ps = (if nonempty qs then qs ++ [(LINE_BREAK, f_line_ending cfg)] else []).
Proof.
  intros HW E. unfold format_pieces in E. set (d' := if edited then edit_root d else d) in *.
  assert (HW' : wf_doc d' = true) by (subst d'; destruct edited; [apply edit_wf|]; exact HW).
  destruct (fmt_root cfg gr dir d' (initial false)) as [f|] eqn:EF; [|discriminate]. injection E as <-.
  destruct (wr_root cfg gr dir d' HW' (initial false) f) as (qs & (_ & HB) & HL); [split; reflexivity|exact EF|].
  exists d', qs. cbn [initial f_buf app] in HB. rewrite HB. auto.
Qed.
Lemma content_proof cfg gr dir edited d ps : one_line dir -> wf_doc d = true -> good_tokens (doc_content d) ->
  format_pieces cfg gr dir edited d = Some ps -> Forall2 same_token (doc_content d) (filter is_content ps).
Proof.
  intros HD HW HG E. destruct (pieces_layout _ _ _ _ _ _ HW E) as (d' & qs & Ed & HW' & HL & ->).
  assert (EC : doc_content d' = doc_content d) by (subst d'; destruct edited; [apply edit_content|reflexivity]).
  replace (filter is_content (if nonempty qs then qs ++ [(LINE_BREAK, f_line_ending cfg)] else [])) with (filter is_content qs)
    by (destruct qs; [reflexivity|]; cbn [nonempty]; rewrite filter_app; cbn; rewrite app_nil_r; reflexivity).
  rewrite <- EC in HG |- *. eapply root_content; [| | | |exact HL|exact HW'|exact HG].
  - intros c c' HT HR. eapply comment_same; eauto.
  - intros k p HK HT HR. destruct (key_same cfg k p HK HT HR) as [H1 H2]. split; [exact H1|apply key_content; exact H2].
  - intros k s p HK HT HR. destruct (literal_same cfg k s p HK HT HR) as [H1 H2]. split; [exact H1|apply literal_content; exact H2].
  - cbn [In]. intros p H. repeat (destruct H as [<- |H]; [reflexivity|]). destruct H.
Qed.
(** Whatever the options: the tokens and comments of the document, in their order, are what is written, but for
    commas; each is written as a token or comment that says the same. *)
Theorem C31_content_kept : forall cfg gr dir edited d ps, one_line dir -> wf_doc d = true -> good_tokens (doc_content d) ->
  format_pieces cfg gr dir edited d = Some ps -> Forall2 same_token (doc_content d) (filter is_content ps).
Proof. exact content_proof. Qed.
Print Assumptions C31_content_kept.

Lemma comments_proof cfg gr dir edited d ps : wf_doc d = true -> format_pieces cfg gr dir edited d = Some ps -> comments_end_lines ps.
Proof.
  intros HW E. destruct (pieces_layout _ _ _ _ _ _ HW E) as (d' & qs & _ & HW' & HL & ->). apply csafe_spec.
  destruct (nonempty qs); [|exact I]. eapply root_comments; [| |exact HL|exact HW'|apply csafe_cons; [discriminate|exact I]|reflexivity].
  - intros k p HR. destruct (key_piece_kind _ _ _ HR) as [-> |[-> | ->]]; discriminate.
  - intros k s p HK HR. destruct (literal_piece_kind _ _ _ _ HR) as [-> |[_ [-> | ->]]]; try discriminate. intros ->. discriminate.
Qed.
(** Nothing is swallowed by a comment: a line break follows every one that is written. *)
Theorem C31_comments_end_lines : forall cfg gr dir edited d ps, wf_doc d = true ->
  format_pieces cfg gr dir edited d = Some ps -> comments_end_lines ps.
Proof. exact comments_proof. Qed.
Print Assumptions C31_comments_end_lines.

Lemma spelling_proof cfg gr dir (edited : bool) d ps : wf_doc d = true -> good_tokens (doc_content d) ->
  (if edited then no_line_commas d else plain_lines d) = true ->
  format_pieces cfg gr dir edited d = Some ps -> spell_doc same_token d (filter is_token ps).
Proof.
  intros HW HG HC E. destruct (pieces_layout _ _ _ _ _ _ HW E) as (d' & qs & Ed & HW' & HL & ->).
  assert (EC : doc_content d' = doc_content d) by (subst d'; destruct edited; [apply edit_content|reflexivity]).
  replace (filter is_token (if nonempty qs then qs ++ [(LINE_BREAK, f_line_ending cfg)] else [])) with (filter is_token qs)
    by (destruct qs; [reflexivity|]; cbn [nonempty]; rewrite filter_app; cbn; rewrite app_nil_r; reflexivity).
  assert (HS : spell_doc same_token d' (filter is_token qs)).
  { eapply root_spell; [| |exact HL|exact HW'| |rewrite EC; exact HG].
    - intros k p HK HT HR. destruct (key_same cfg k p HK HT HR) as [H1 H2]. split; [exact H1|apply key_content; exact H2].
    - intros k s p HK HT HR. destruct (literal_same cfg k s p HK HT HR) as [H1 H2]. split; [exact H1|apply literal_content; exact H2].
    - subst d'. destruct edited; [apply edit_plain|]; exact HC. }
  subst d'. destruct edited; [apply spell_edit|]; exact HS.
Qed.
(** The tokens that are written spell the document: its keys, values and headers in their order and nesting, with
    one comma between two items, and none after the last but where the document had one. *)
Theorem C31_spelled : forall cfg gr dir (edited : bool) d ps, wf_doc d = true -> good_tokens (doc_content d) ->
  (if edited then no_line_commas d else plain_lines d) = true ->
  format_pieces cfg gr dir edited d = Some ps -> spell_doc same_token d (filter is_token ps).
Proof. exact spelling_proof. Qed.
Print Assumptions C31_spelled.

(** The hypotheses are met: a document with comments in every place, read from its text. *)
Definition chars (s : str) : list str := map (fun c => [c]) s.
Definition width (s : str) : N := N.of_nat (length s).
Definition lines (s : string) : str := map (fun c => if N.eqb c 124 then 10 else c) (lit s).
Definition example_source : str := lines "# top|a.'b'= ""x"" # one|c =[ # open|1 2, # two|{d=1979-05-27 07:32:00Z,e='''q'''}|# last|]||# alone||[t] # head|k=true|[[u.v]]|".
Definition example_text : str := lines "# top|a.""b"" = ""x""  # one|c = [  # open|  1,|  2,  # two|  { d = 1979-05-27T07:32:00Z, e = '''q''' }|  # last|]||# alone||[t]  # head|k = true||[[u.v]]|".
Definition example_doc : fdoc := match read chars 200 example_source with Done (Some (_, d)) => d | _ => FDoc [] [] end.


Example C31_example : format_source default_defs LEAuto width chars 200 true example_source = Done (Some example_text).
Proof. vm_compute. reflexivity. Qed.
Example C31_example_wf : wf_doc example_doc = true /\ no_line_commas example_doc = true /\ length (doc_content example_doc) = 39%nat.
Proof. vm_compute. repeat split; reflexivity. Qed.

(** * C30 *)
(** The statement, for a setting of the options. *)
Definition idempotent (cfg : defs) : Prop := forall le gr seg stack edited source out,
  format_source cfg le gr seg stack edited source = Done (Some out) ->
  format_source cfg le gr seg stack edited out = Done (Some out).
(** With equals signs aligned, the width of the keys is taken from the source: blanks around the dot count. *)
Definition aligned : defs :=
  Defs None [10] 1 1 false false false 2 Double Double false 2 true 1 DelimT 0 1 Normalize 1 1 V1_0_0.
Theorem C30_alignment_refuted : ~ idempotent aligned.
Proof.
  intros H. specialize (H LEAuto width chars 200%nat true (lines "a . b=1") (lines "a.b   = 1|")).
  assert (E : format_source aligned LEAuto width chars 200 true (lines "a . b=1") = Done (Some (lines "a.b   = 1|"))) by (vm_compute; reflexivity).
  specialize (H E). assert (E2 : format_source aligned LEAuto width chars 200 true (lines "a.b   = 1|") = Done (Some (lines "a.b = 1|"))) by (vm_compute; reflexivity).
  rewrite E2 in H. revert H. vm_compute. discriminate.
Qed.
Print Assumptions C30_alignment_refuted.
(** With no blank line between tables, a comment that stood alone becomes the comment of the next table. *)
Definition no_table_gap : defs :=
  Defs None [10] 1 0 false false false 2 Double Double false 2 false 1 DelimT 0 1 Normalize 1 1 V1_0_0.
Theorem C30_blank_lines_refuted : ~ idempotent no_table_gap.
Proof.
  intros H. specialize (H LEAuto width chars 200%nat true (lines "a=1||#c||[b]") (lines "a = 1||# c|[b]|")).
  assert (E : format_source no_table_gap LEAuto width chars 200 true (lines "a=1||#c||[b]") = Done (Some (lines "a = 1||# c|[b]|"))) by (vm_compute; reflexivity).
  specialize (H E). assert (E2 : format_source no_table_gap LEAuto width chars 200 true (lines "a = 1||# c|[b]|") = Done (Some (lines "a = 1|# c|[b]|"))) by (vm_compute; reflexivity).
  rewrite E2 in H. revert H. vm_compute. discriminate.
Qed.
Print Assumptions C30_blank_lines_refuted.
(** With the default options, the example is left alone the second time. *)
Example C30_example : format_source default_defs LEAuto width chars 200 true example_text = Done (Some example_text).
Proof. vm_compute. reflexivity. Qed.

(** * C49 *)
(** The number of times a value is formatted when [fmt_value] is called on [v], counting the calls made by
    [exceeds_line_width] to measure the items (crates/tombi-formatter/src/format/value/array.rs:16-79, 133-200,
    inline_table.rs:17-82).  The guards are the model's.  Simplified: the items are formatted from the state [f] at the
    start of the value, where the position on the line may be a later one; it matters only with a line width. *)
Section Calls.
Context (cfg : defs) (gr : str -> N) (dir : str -> option str).
Definition calls_items (cv ce : fval -> N) (its : list (item fval)) : N :=
  fold_right (fun i n => match i with Item _ _ _ v _ => cv v + ce v end + n) 0 its.
Definition calls_groups (cv ce : fval -> N) (gs : list (group (item fval))) : N :=
  fold_right (fun g n => match g with GD _ _ => n | GI _ its => calls_items cv ce its + n end) 0 gs.
Fixpoint calls_value (f : fmt) (v : fval) {struct v} : N :=
  match v with
  | FLit _ _ _ _ => 1
  | FBox table _ _ gs _ =>
      1 + (if f_single_line f then 0
           else if should_be_multiline (f_toml_version cfg) v then 0
           else if table && is_v1_0_0 (f_toml_version cfg) then 0
           else calls_groups (calls_value f) (calls_exceeds f) gs)
        + calls_groups (calls_value f) (fun _ => 0) gs
  end
with calls_exceeds (f : fmt) (v : fval) {struct v} : N :=
  match v with
  | FLit _ _ _ _ => 0
  | FBox table _ _ gs _ =>
      if table && is_v1_0_0 (f_toml_version cfg) then 0
      else if should_be_multiline (f_toml_version cfg) v then 0
      else calls_groups (calls_value f) (calls_exceeds f) gs
  end.
End Calls.

(** An integer in [n] arrays, one in the other. *)
Fixpoint nested (n : nat) : fval :=
  match n with
  | O => FLit [] INTEGER_DEC [49] None
  | S m => FBox false [] None [GI 0 [Item [] [] [] (nested m) None]] None
  end.
Fixpoint nested_text (n : nat) : str := match n with O => [49] | S m => [91] ++ nested_text m ++ [93] end.
Lemma nested_comments : forall n, has_comments (nested n) = false.
Proof. induction n as [|n IH]; [reflexivity|]. cbn. rewrite IH. reflexivity. Qed.
Lemma nested_flat : forall cfg n, value_multiline (f_toml_version cfg) (nested n) = false.
Proof.
  intros cfg n. induction n as [|n IH]; [reflexivity|].
  cbn [nested value_multiline andb has_last_comma items_of]. cbn. rewrite IH, nested_comments. reflexivity.
Qed.
Lemma nested_calls : forall cfg f n, f_single_line f = false ->
  2 ^ N.of_nat n <= calls_value cfg f (nested n) /\ 2 ^ N.of_nat n <= 1 + calls_exceeds cfg f (nested n).
Proof.
  intros cfg f n Hf. induction n as [|n [IH1 IH2]]; [cbn; lia|].
  pose proof (nested_flat cfg (S n)) as Hm.
  assert (E : calls_value cfg f (nested (S n)) = 1 + (calls_value cfg f (nested n) + calls_exceeds cfg f (nested n) + 0 + 0) + (calls_value cfg f (nested n) + 0 + 0 + 0)).
  { change (calls_value cfg f (nested (S n))) with
      (1 + (if f_single_line f then 0 else if value_multiline (f_toml_version cfg) (nested (S n)) then 0
            else calls_groups (calls_value cfg f) (calls_exceeds cfg f) [GI 0 [Item [] [] [] (nested n) None]])
         + calls_groups (calls_value cfg f) (fun _ => 0) [GI 0 [Item [] [] [] (nested n) None]]).
    rewrite Hf, Hm. reflexivity. }
  assert (E' : calls_exceeds cfg f (nested (S n)) = calls_value cfg f (nested n) + calls_exceeds cfg f (nested n) + 0 + 0).
  { change (calls_exceeds cfg f (nested (S n))) with
      (if value_multiline (f_toml_version cfg) (nested (S n)) then 0
            else calls_groups (calls_value cfg f) (calls_exceeds cfg f) [GI 0 [Item [] [] [] (nested n) None]]).
    rewrite Hm. reflexivity. }
  rewrite E, E', Nat2N.inj_succ, N.pow_succ_r'. lia.
Qed.
Lemma nested_text_length : forall n, length (nested_text n) = (2 * n + 1)%nat.
Proof. induction n as [|n IH]; [reflexivity|]. cbn [nested_text]. rewrite !app_length, IH. cbn. lia. Qed.
(** The work is not bounded by a polynomial in the length of the text: it doubles for every two characters. *)
Theorem C49_work_refuted : forall cfg f n, f_single_line f = false ->
  2 ^ N.of_nat (Nat.div2 (length (nested_text n))) <= calls_value cfg f (nested n).
Proof.
  intros cfg f n Hf. rewrite nested_text_length, Nat.add_1_r, Nat.div2_succ_double.
  exact (proj1 (nested_calls cfg f n Hf)).
Qed.
Print Assumptions C49_work_refuted.
(** The value is the one read from the text, and it is formatted in the state the root starts from. *)
Definition value_of (d : fdoc) : option fval :=
  match d with FDoc [GI _ [Item _ _ _ v _]] [] => Some v | _ => None end.
Example C49_example :
  (match read chars 200 (lit "a=" ++ nested_text 12) with Done (Some (_, d)) => value_of d | _ => None end) = Some (nested 12)
  /\ calls_value default_defs (initial false) (nested 12) = 121393.
Proof. vm_compute. repeat split; reflexivity. Qed.
