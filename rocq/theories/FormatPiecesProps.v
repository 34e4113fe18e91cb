(** Final theorems about the rewriting of strings (C13) and comments (C14) by the formatter. *)
From Coq Require Import String Ascii List NArith Bool Arith Lia ZifyBool.
From Verif Require Import Base SyntaxKind TextModel Regex LexerModel LexerSpec LexerProofs TomlGrammar LexScalars LexSound LexNumbers LexerProps
  TomlTextModel TomlStringGrammar TomlTextProofs TomlTextProps FormatPieces FormatPiecesProofs.
Import ListNotations.
Open Scope N_scope.
Open Scope list_scope.

(** * C13 *)
(** The value of a one-line string token, and what the formatter writes for it. *)
Definition string_value (k : kind) (w : str) (v : toml_version) : decoded :=
  match k with BASIC_STRING => try_from_basic_string w v | _ => try_from_literal_string w end.
Definition write_string (k : kind) (w : str) (q : quote_style) : option str :=
  match k with BASIC_STRING => format_basic_string_quote_style w q | _ => format_literal_string_quote_style w q end.

Lemma swap_basic v b : ~ In 92 b -> try_from_basic_string ([34] ++ b ++ [34]) v = try_from_literal_string ([39] ++ b ++ [39]).
Proof.
  intros H. unfold try_from_basic_string, try_from_literal_string, on_strip.
  rewrite (strip_delims [34]), (strip_delims [39]). apply parse_same; auto.
Qed.

Lemma requote_basic w : text_ok BASIC_STRING w ->
  exists k out, requote_string w 39 = Some out /\ (k = BASIC_STRING \/ k = LITERAL_STRING) /\ text_ok k out /\
  (forall v, string_value k out v = string_value BASIC_STRING w v) /\
  (k = BASIC_STRING -> out = w).
Proof.
  intros HT. pose proof HT as (b & E & Hb). destruct (requote_shape w 39 b 34) as [H|(H1 & H2 & H3)]; [lia|exact E| |].
  - exists BASIC_STRING, w. repeat split; auto.
  - exists LITERAL_STRING, ([39] ++ b ++ [39]). split; [exact H3|]. split; [auto|].
    rewrite E in H1, H2. apply not_in_inside in H1, H2.
    split; [exists b; split; auto; apply inner_plain; auto|]. split; [|discriminate].
    intros v. cbn [string_value]. rewrite E, swap_basic by auto. reflexivity.
Qed.
Lemma requote_literal w : text_ok LITERAL_STRING w ->
  exists k out, requote_string w 34 = Some out /\ (k = BASIC_STRING \/ k = LITERAL_STRING) /\ text_ok k out /\
  (forall v, string_value k out v = string_value LITERAL_STRING w v) /\
  (k = LITERAL_STRING -> out = w).
Proof.
  intros HT. pose proof HT as (b & E & Hb). destruct (requote_shape w 34 b 39) as [H|(H1 & H2 & H3)]; [lia|exact E| |].
  - exists LITERAL_STRING, w. repeat split; auto.
  - exists BASIC_STRING, ([34] ++ b ++ [34]). split; [exact H3|]. split; [auto|].
    rewrite E in H1, H2. apply not_in_inside in H1, H2.
    split; [exists b; split; auto; apply plain_inner; auto|]. split; [|discriminate].
    intros v. cbn [string_value]. rewrite E, <- (swap_basic v) by auto. reflexivity.
Qed.
Lemma requote_again w q : requote_string w q = Some w -> forall w', requote_string w q = Some w' -> w' = w.
Proof. intros H w' H'. congruence. Qed.

Lemma write_token k w q : (k = BASIC_STRING \/ k = LITERAL_STRING) -> text_ok k w ->
  exists k' out, write_string k w q = Some out /\ (k' = BASIC_STRING \/ k' = LITERAL_STRING) /\ text_ok k' out /\
  (forall v, string_value k' out v = string_value k w v) /\ write_string k' out q = Some out.
Proof.
  intros Hk HT. destruct Hk as [-> | ->]; destruct q; cbn [write_string format_basic_string_quote_style format_literal_string_quote_style].
  - exists BASIC_STRING, w. repeat split; auto.
  - destruct (requote_basic w HT) as (k & out & H1 & H2 & H3 & H4 & H5). exists k, out. repeat split; auto.
    destruct H2 as [-> | ->]; [|reflexivity]. rewrite H5 in * by auto. exact H1.
  - exists BASIC_STRING, w. repeat split; auto.
  - destruct (requote_literal w HT) as (k & out & H1 & H2 & H3 & H4 & H5). exists k, out. repeat split; auto.
    destruct H2 as [-> | ->]; [reflexivity|]. rewrite H5 in * by auto. exact H1.
  - exists LITERAL_STRING, w. repeat split; auto.
  - exists LITERAL_STRING, w. repeat split; auto.
Qed.

Lemma relexed k w s : (k = BASIC_STRING \/ k = LITERAL_STRING) -> text_ok k w -> ends_value s ->
  one_token k w s /\ one_token_anywhere k w s.
Proof.
  intros [-> | ->] HT HE; apply always_one.
  - apply relex_basic; auto. apply ends_not_quote; auto.
  - apply relex_literal; auto. apply ends_not_quote; auto.
Qed.

Lemma C13_proof seg source l t w q after :
  lex seg source = Some l -> In t (tokens l) -> (tkind t = BASIC_STRING \/ tkind t = LITERAL_STRING) ->
  slice source (tspan t) = Some w -> ends_value after ->
  exists k out, write_string (tkind t) w q = Some out /\
    (k = BASIC_STRING \/ k = LITERAL_STRING) /\
    one_token k out after /\ one_token_anywhere k out after /\
    (forall v, string_value k out v = string_value (tkind t) w v) /\
    write_string k out q = Some out.
Proof.
  intros HL Ht Hk Hw HE.
  destruct (lex_token_text _ _ _ _ HL Ht) as (w' & E & HT); [destruct Hk as [K|K]; rewrite K; discriminate|destruct Hk as [K|K]; rewrite K; discriminate|].
  rewrite Hw in E. inversion E; subst w'.
  destruct (write_token (tkind t) w q Hk HT) as (k & out & H1 & H2 & H3 & H4 & H5).
  destruct (relexed k out after H2 H3 HE) as [K1 K2].
  exists k, out. repeat (split; [assumption|]). assumption.
Qed.
(** For every source and every one-line string token of it, whatever the quote style: writing does not
    panic, what is written is lexed as one string token, that token has the same value (or the same
    error), and writing it again changes nothing. *)
Theorem C13_requoting : forall seg source l t w q after,
  lex seg source = Some l -> In t (tokens l) -> (tkind t = BASIC_STRING \/ tkind t = LITERAL_STRING) ->
  slice source (tspan t) = Some w -> ends_value after ->
  exists k out, write_string (tkind t) w q = Some out /\
    (k = BASIC_STRING \/ k = LITERAL_STRING) /\
    one_token k out after /\ one_token_anywhere k out after /\
    (forall v, string_value k out v = string_value (tkind t) w v) /\
    write_string k out q = Some out.
Proof. exact C13_proof. Qed.
Print Assumptions C13_requoting.

(** The style is applied where it can be: a string without backslash and without the preferred quote
    is written with the preferred quote. *)
Lemma C13_applied_proof b : ~ In 92 b ->
  (~ In 39 b -> format_basic_string_quote_style ([34] ++ b ++ [34]) Single = Some ([39] ++ b ++ [39])) /\
  (~ In 34 b -> format_literal_string_quote_style ([39] ++ b ++ [39]) Double = Some ([34] ++ b ++ [34])).
Proof.
  intros H. split; intros H'; cbn [format_basic_string_quote_style format_literal_string_quote_style].
  - unfold requote_string. rewrite (strip_delims [34]).
    replace (contains 92 ([34] ++ b ++ [34])) with false; [replace (contains 39 ([34] ++ b ++ [34])) with false; [reflexivity|]|].
    + symmetry. apply contains_false. intros K. apply in_app_or in K as [[K|[]]|K]; [discriminate|]. apply in_app_or in K as [K|[K|[]]]; [auto|discriminate].
    + symmetry. apply contains_false. intros K. apply in_app_or in K as [[K|[]]|K]; [discriminate|]. apply in_app_or in K as [K|[K|[]]]; [auto|discriminate].
  - unfold requote_string. rewrite (strip_delims [39]).
    replace (contains 92 ([39] ++ b ++ [39])) with false; [replace (contains 34 ([39] ++ b ++ [39])) with false; [reflexivity|]|].
    + symmetry. apply contains_false. intros K. apply in_app_or in K as [[K|[]]|K]; [discriminate|]. apply in_app_or in K as [K|[K|[]]]; [auto|discriminate].
    + symmetry. apply contains_false. intros K. apply in_app_or in K as [[K|[]]|K]; [discriminate|]. apply in_app_or in K as [K|[K|[]]]; [auto|discriminate].
Qed.
Theorem C13_style_applied : forall b, ~ In 92 b ->
  (~ In 39 b -> format_basic_string_quote_style ([34] ++ b ++ [34]) Single = Some ([39] ++ b ++ [39])) /\
  (~ In 34 b -> format_literal_string_quote_style ([39] ++ b ++ [39]) Double = Some ([34] ++ b ++ [34])).
Proof. exact C13_applied_proof. Qed.
Print Assumptions C13_style_applied.

Example C13_example :
  option_map (fun l => map tkind (tokens l)) (lex seg1 (lit "'C:\x' ""a""")) = Some [LITERAL_STRING; WHITESPACE; BASIC_STRING; EOF] /\
  write_string LITERAL_STRING (lit "'C:\x'") Double = Some (lit "'C:\x'") /\
  write_string BASIC_STRING (lit """a""") Single = Some (lit "'a'") /\ ends_value (lit "]").
Proof. repeat split; try (vm_compute; reflexivity). simpl; auto 10. Qed.

(** * C14 *)
(** A comment: a number sign and no line break. *)
Definition no_break (s : str) : Prop := Forall (fun c => c <> 10 /\ c <> 13) s.
Definition is_comment (c : str) : Prop := exists b, c = 35 :: b /\ no_break b.
(** What may follow a comment in a document. *)
Definition ends_line (s : str) : Prop := match s with [] => True | c :: _ => c = 10 \/ c = 13 end.
(** Directives of tombi: [#:tombi content] and [# tombi: content]. *)
Definition tombi_directive (c : str) : Prop :=
  (exists u, c = lit "#:tombi " ++ u) \/
  (exists ws u, c = [35] ++ ws ++ lit "tombi:" ++ u /\ forallb is_unicode_whitespace ws = true).
Definition schema_directive (c : str) : Prop := exists u, c = lit "#:schema " ++ u.
Definition blanks (s : str) : Prop := Forall (fun c => c = 32 \/ c = 9) s.
Definition ascii_spaces (s : str) : Prop := Forall (fun c => c = 32 \/ c = 9 \/ c = 10 \/ c = 12 \/ c = 13) s.
Definition starts_blank (s : str) : Prop := exists c r, s = c :: r /\ (c = 32 \/ c = 9).
Definition ends_space (s : str) : Prop := exists r c, s = r ++ [c] /\ (c = 32 \/ c = 9 \/ c = 10 \/ c = 12 \/ c = 13).

Lemma blanks_iff s : forallb is_blank s = true -> blanks s.
Proof. rewrite forallb_forall. intros H. apply Forall_forall. intros x Hx. specialize (H x Hx). unfold is_blank in H. lia. Qed.
Lemma spaces_iff s : forallb is_ascii_whitespace s = true -> ascii_spaces s.
Proof. rewrite forallb_forall. intros H. apply Forall_forall. intros x Hx. specialize (H x Hx). unfold is_ascii_whitespace in H. lia. Qed.

Lemma not_directive dir sl c : is_comment c -> ~ tombi_directive c -> ~ schema_directive c ->
  format_comment dir Normalize sl c = format_plain_comment sl c /\ value_directive c = None.
Proof.
  intros (b & Eb & _) H1 H2. unfold format_comment.
  destruct (strip_prefix (lit "#:schema ") c) eqn:E1; [exfalso; apply H2; eexists; eapply strip_prefix_inv; eauto|].
  destruct (strip_prefix (lit "#:tombi ") c) eqn:E2; [exfalso; apply H1; left; eexists; eapply strip_prefix_inv; eauto|].
  destruct (value_directive c) eqn:E3; [|auto].
  exfalso. apply H1. right. unfold value_directive in E3. apply strip_prefix_inv in E3. subst c. cbn [tl] in E3.
  destruct (drop_while_suffix is_unicode_whitespace b) as (ws & Ew & Hw). fold (trim_start b) in Ew. rewrite E3 in Ew.
  exists ws. eexists. split; [|exact Hw]. cbn [app]. rewrite Ew at 1. reflexivity.
Qed.

Lemma plain_text dir (sl : bool) c : is_comment c -> ~ tombi_directive c -> ~ schema_directive c ->
  exists m pre core post, marker m /\ c = m ++ pre ++ core ++ post /\ blanks pre /\ ascii_spaces post /\ ~ ends_space (m ++ core) /\
    (if sl then ~ starts_blank core else (length pre <= 1)%nat) /\
    format_comment dir Normalize sl c = Some (match core with [] => m | _ => m ++ 32 :: core end).
Proof.
  intros HC H1 H2. destruct (not_directive dir sl c HC H1 H2) as [-> _]. destruct HC as (b & Eb & Hb).
  rewrite plain_trims. destruct (trim_end_split is_ascii_whitespace c) as (post & E5 & Hpost). fold (trim_ascii_end c) in E5.
  apply spaces_iff in Hpost.
  assert (HE : forall s, ends_clean is_ascii_whitespace s -> ~ ends_space s).
  { intros s Hs (r & x & -> & Hx). pose proof (Hs r x eq_refl) as K. unfold is_ascii_whitespace in K. lia. }
  destruct (plain_cases sl (trim_ascii_end c)) as (m & Hm & [[E1 E2]|(x & r & E1 & Hc & E2 & K1 & K2)]).
  - apply trim_end_clean.
  - eapply trim_comment; eauto.
  - exists m, [], [], post. split; auto. split; [rewrite E5, E1 at 1; reflexivity|]. split; [constructor|]. split; auto.
    split; [rewrite app_nil_r, <- E1; apply HE; apply trim_end_clean|].
    split; [destruct sl; [intros (z & r & E & _); discriminate|simpl; lia]|]. rewrite E2. reflexivity.
  - destruct (body_of_spec sl x r Hc) as (B1 & B2 & pre & B3 & B4 & B5).
    exists m, pre, (body_of sl x r), post. split; auto. split; [rewrite E5, E1 at 1; rewrite B3, <- !app_assoc; reflexivity|].
    split; [apply blanks_iff; auto|]. split; auto. split; [apply HE; apply clean_app; auto|].
    split.
    + destruct sl; auto. intros (z & l & E & Hz). rewrite E in B5. unfold is_blank in B5. lia.
    + rewrite E2. destruct (body_of sl x r); [contradiction|reflexivity].
Qed.
(** For every comment that is no directive: what is written is its marker ([#], [#!] or [##...]), a space and
    the rest of its text; only blanks after the marker (the first one only, for a comment that continues
    a group) and white space at the end are dropped. *)
Theorem C14_text_kept : forall dir (sl : bool) c, is_comment c -> ~ tombi_directive c -> ~ schema_directive c ->
  exists m pre core post, marker m /\ c = m ++ pre ++ core ++ post /\ blanks pre /\ ascii_spaces post /\ ~ ends_space (m ++ core) /\
    (if sl then ~ starts_blank core else (length pre <= 1)%nat) /\
    format_comment dir Normalize sl c = Some (match core with [] => m | _ => m ++ 32 :: core end).
Proof. exact plain_text. Qed.
Print Assumptions C14_text_kept.

Lemma no_break_app a b : no_break (a ++ b) <-> no_break a /\ no_break b.
Proof. apply Forall_app. Qed.

Lemma comment_kept dir st sl c : (forall s, no_break s -> no_break (dir s)) -> is_comment c ->
  exists out, format_comment dir st sl c = Some out /\ is_comment out.
Proof.
  intros HD HC. destruct st; [|exists c; auto].
  assert (Hb : no_break c). { destruct HC as (b & -> & Hb). constructor; [split; discriminate|exact Hb]. }
  assert (mk : forall p s, (exists b, p = 35 :: b /\ no_break b) -> no_break s -> is_comment (p ++ s)).
  { intros p s (b0 & -> & H0) Hs. exists (b0 ++ s). split; auto. apply no_break_app. auto. }
  unfold format_comment.
  destruct (strip_prefix (lit "#:schema ") c) eqn:E1.
  { apply strip_prefix_inv in E1. subst c. apply no_break_app in Hb as [_ Hl]. eexists. split; [reflexivity|]. apply mk.
    - eexists. split; [reflexivity|]. repeat constructor; discriminate.
    - apply Forall_forall. intros x Hx. apply trim_incl in Hx. unfold no_break in Hl. rewrite Forall_forall in Hl. auto. }
  destruct (strip_prefix (lit "#:tombi ") c) eqn:E2.
  { apply strip_prefix_inv in E2. subst c. apply no_break_app in Hb as [_ Hl]. eexists. split; [reflexivity|]. apply mk; auto.
    eexists. split; [reflexivity|]. repeat constructor; discriminate. }
  destruct (value_directive c) eqn:E3.
  { unfold value_directive in E3. apply strip_prefix_inv in E3. destruct HC as (b & -> & Hbb). cbn [tl] in E3.
    destruct (drop_while_suffix is_unicode_whitespace b) as (ws & Ew & Hw). fold (trim_start b) in Ew. rewrite E3 in Ew. rewrite Ew in Hbb.
    apply no_break_app in Hbb as [_ Hbb]. apply no_break_app in Hbb as [_ Hbb].
    eexists. split; [reflexivity|]. apply mk; auto. eexists. split; [reflexivity|]. repeat constructor; discriminate. }
  assert (N1 : ~ schema_directive c). { intros (u & ->). rewrite strip_prefix_app in E1. discriminate. }
  assert (N2 : ~ tombi_directive c).
  { intros [(u & ->)|(ws & u & -> & Hw)]; [rewrite strip_prefix_app in E2; discriminate|].
    unfold value_directive in E3. cbn [app tl] in E3. rewrite trim_start_ws in E3 by auto.
    change (trim_start (lit "tombi:" ++ u)) with (lit "tombi:" ++ u) in E3. rewrite strip_prefix_app in E3. discriminate. }
  destruct (plain_text dir sl c HC N2 N1) as (m & pre & core & post & H1 & H2 & H3 & H4 & H5 & H6 & H7).
  destruct (not_directive dir sl c HC N2 N1) as [E4 _]. rewrite E4 in H7. eexists. split; [exact H7|].
  rewrite H2 in Hb. rewrite !no_break_app in Hb. destruct Hb as (Hm & _ & Hcore & _).
  destruct (marker_35 m H1) as (m' & ->). inversion Hm; subst.
  destruct core as [|x core]; [exists m'; auto|]. exists (m' ++ 32 :: x :: core). split; [reflexivity|].
  apply no_break_app. split; auto. constructor; [split; discriminate|exact Hcore].
Qed.
Lemma comment_lexed c s : is_comment c -> ends_line s -> always_lexed COMMENT c s.
Proof.
  intros (b & -> & Hb) Hs cu HR. cbn [app] in HR. destruct (adv_bump_cons cu _ _ HR) as (_ & HR1 & HC).
  assert (E : advance_token cu = Some (line_comment (bump cu))).
  { unfold advance_token. rewrite HR. cbv zeta. rewrite HC. reflexivity. }
  eapply yields_lexed; [exact E|]. apply (yields_ok _ _ _ cu). rewrite eat_while_rest, HR1.
  clear - Hb Hs. induction Hb as [|x b [N1 N2] Hb IH].
  - cbn [app]. destruct s as [|x s]; [reflexivity|]. cbn [drop_while]. unfold c_nl, c_cr.
    replace (negb (N.eqb x 10 || N.eqb x 13)) with false by (simpl in Hs; lia). reflexivity.
  - cbn [app drop_while]. unfold c_nl, c_cr. replace (negb (N.eqb x 10 || N.eqb x 13)) with true by lia. exact IH.
Qed.
Lemma C14_comment_proof dir st sl c after : (forall s, no_break s -> no_break (dir s)) -> is_comment c -> ends_line after ->
  exists out, format_comment dir st sl c = Some out /\ is_comment out /\ one_token COMMENT out after /\ one_token_anywhere COMMENT out after.
Proof.
  intros HD HC HE. destruct (comment_kept dir st sl c HD HC) as (out & H1 & H2). exists out. split; auto. split; auto.
  apply always_one. apply comment_lexed; auto.
Qed.
(** Whatever the style, a comment is written as one comment, provided the formatter of directive
    contents writes no line break. *)
Theorem C14_is_one_comment : forall dir st sl c after, (forall s, no_break s -> no_break (dir s)) -> is_comment c -> ends_line after ->
  exists out, format_comment dir st sl c = Some out /\ is_comment out /\ one_token COMMENT out after /\ one_token_anywhere COMMENT out after.
Proof. exact C14_comment_proof. Qed.
Print Assumptions C14_is_one_comment.

Lemma some_inj {A} (a b : A) : Some a = Some b -> b = a.
Proof. congruence. Qed.
Lemma C14_idempotent_proof dir dir' st sl c out : is_comment c -> ~ tombi_directive c ->
  format_comment dir st sl c = Some out -> format_comment dir' st sl out = Some out.
Proof.
  intros HC HN H. destruct st; [|exact eq_refl].
  destruct (strip_prefix (lit "#:schema ") c) eqn:E1.
  { unfold format_comment in H |- *. rewrite E1 in H. apply some_inj in H; subst out. rewrite strip_prefix_app, trim_idem. reflexivity. }
  assert (N1 : ~ schema_directive c). { intros (u & ->). rewrite strip_prefix_app in E1. discriminate. }
  destruct (not_directive dir sl c HC HN N1) as [E4 EV]. rewrite E4 in H.
  assert (HB : exists b, c = 35 :: b) by (destruct HC as (b & -> & _); eauto).
  destruct (plain_stays_plain sl c out HB H EV) as (K1 & K2 & K3).
  unfold format_comment. rewrite K1, K2, K3. eapply plain_idempotent; eauto.
Qed.
(** Formatting twice is formatting once, for every comment that is no directive of tombi. *)
Theorem C14_idempotent : forall dir dir' st sl c out, is_comment c -> ~ tombi_directive c ->
  format_comment dir st sl c = Some out -> format_comment dir' st sl out = Some out.
Proof. exact C14_idempotent_proof. Qed.
Print Assumptions C14_idempotent.

(** FULL STATEMENT: without the hypotheses on [dir].  Missing: that formatting the content of a directive
    as a document is idempotent (property C30 for one-line documents). *)
Lemma C14_directive_proof dir st sl c out : (forall s, dir (dir s) = dir s) -> (forall s, dir (32 :: dir s) = dir s) ->
  is_comment c -> tombi_directive c ->
  format_comment dir st sl c = Some out -> format_comment dir st sl out = Some out.
Proof.
  intros D1 D2 HC HT H. destruct st; [|exact eq_refl].
  unfold format_comment in H |- *.
  destruct (strip_prefix (lit "#:schema ") c) eqn:E1.
  { apply some_inj in H; subst out. rewrite strip_prefix_app, trim_idem. reflexivity. }
  destruct (strip_prefix (lit "#:tombi ") c) as [s|] eqn:E2.
  { apply some_inj in H; subst out. rewrite strip_prefix_app. change (strip_prefix (lit "#:schema ") (lit "#:tombi " ++ dir s)) with (@None str).
    rewrite D1. reflexivity. }
  destruct HT as [(u & ->)|(ws & u & -> & Hw)]; [rewrite strip_prefix_app in E2; discriminate|].
  assert (EV : value_directive ([35] ++ ws ++ lit "tombi:" ++ u) = Some u).
  { unfold value_directive. cbn [app tl]. rewrite trim_start_ws by auto.
    change (trim_start (lit "tombi:" ++ u)) with (lit "tombi:" ++ u). apply strip_prefix_app. }
  rewrite EV in H. apply some_inj in H; subst out.
  change (strip_prefix (lit "#:schema ") (lit "# tombi: " ++ dir u)) with (@None str).
  change (strip_prefix (lit "#:tombi ") (lit "# tombi: " ++ dir u)) with (@None str).
  change (value_directive (lit "# tombi: " ++ dir u)) with (strip_prefix (lit "tombi:") (lit "tombi:" ++ 32 :: dir u)).
  rewrite strip_prefix_app, D2. reflexivity.
Qed.
Theorem C14_directives_partial : forall dir st sl c out, (forall s, dir (dir s) = dir s) -> (forall s, dir (32 :: dir s) = dir s) ->
  is_comment c -> tombi_directive c ->
  format_comment dir st sl c = Some out -> format_comment dir st sl out = Some out.
Proof. exact C14_directive_proof. Qed.
Print Assumptions C14_directives_partial.

Example C14_example :
  format_comment trim Normalize true (lit "##    comment 2 ###  ") = Some (lit "## comment 2 ###") /\
  format_comment trim Normalize false (lit "#    comment") = Some (lit "#    comment") /\
  format_comment trim Normalize true (lit "#!!  hello") = Some (lit "#! !  hello") /\
  format_comment trim Normalize true (lit "#tombi: format.disabled = true ") = Some (lit "# tombi: format.disabled = true") /\
  is_comment (lit "#!!  hello") /\ ~ tombi_directive (lit "#!!  hello") /\ ~ schema_directive (lit "#!!  hello") /\
  (forall s, trim (trim s) = trim s) /\ (forall s, trim (32 :: trim s) = trim s) /\ (forall s, no_break s -> no_break (trim s)).
Proof.
  split; [vm_compute; reflexivity|]. split; [vm_compute; reflexivity|]. split; [vm_compute; reflexivity|]. split; [vm_compute; reflexivity|].
  split; [eexists; split; [reflexivity|]; repeat constructor; discriminate|].
  split. { intros [(u & E)|(ws & u & E & Hw)]; [discriminate|]. destruct ws as [|x ws]; [discriminate|]. inversion E; subst x; discriminate. }
  split; [intros (u & E); discriminate|]. split; [exact trim_idem|].
  split. { intros s. transitivity (trim (trim s)); [|apply trim_idem]. unfold trim at 1 3. reflexivity. }
  intros s H. apply Forall_forall. intros x Hx. apply trim_incl in Hx. unfold no_break in H. rewrite Forall_forall in H. auto.
Qed.
