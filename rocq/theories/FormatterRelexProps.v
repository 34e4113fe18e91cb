(** Final theorems about the tokens of a formatted text (C31). *)
From Coq Require Import String Ascii List NArith Bool Arith Lia.
From Verif Require Import Base SyntaxKind TextModel LexerModel LexerSpec LexSound ParserModel ParserBuild AstModel
  FormatPieces FormatPiecesProps FormatterModel FormatterLayout FormatterSpec FormatterProofs FormatterEdit
  FormatterProps OneLine FormatterTextProps LexLocal FormatterRelex.
Import ListNotations.
Open Scope N_scope.
Open Scope list_scope.

(** * C31 *)
(** The characters of a bare key in TOML: A-Z a-z 0-9 _ - *)
Definition toml_bare_key (w : str) : Prop :=
  w <> [] /\ Forall (fun c => 65 <= c <= 90 \/ 97 <= c <= 122 \/ 48 <= c <= 57 \/ c = 95 \/ c = 45) w.
Lemma toml_bare_key_key w : toml_bare_key w -> toml_key w.
Proof.
  intros [HN HF]. split; [exact HN|]. apply forallb_forall. rewrite Forall_forall in HF. intros c Hc. specialize (HF c Hc). unfold bare_char, in_range.
  destruct HF as [H|[H|[H|[-> | ->]]]]; try reflexivity; rewrite ?orb_true_iff, ?andb_true_iff, ?N.leb_le; lia.
Qed.
Lemma le_text le crlf : break_text (line_ending_text le crlf).
Proof. destruct le; [destruct crlf| |]; [right|left|left|right]; reflexivity. Qed.
Lemma solid_content ps : filter is_content (filter solid ps) = filter is_content ps.
Proof. induction ps as [|[k w] ps IH]; [reflexivity|]. destruct k; cbn; rewrite ?IH; reflexivity. Qed.
Lemma csafe_intro ps : comments_end_lines ps -> csafe ps.
Proof.
  induction ps as [|[k w] ps IH]; intros H; [exact I|]. split.
  - intros ->. destruct (H [] w ps eq_refl) as [-> |(s & b & ->)]; [exact I|reflexivity].
  - apply IH. intros a c b ->. exact (H ((k, w) :: a) c b eq_refl).
Qed.
Lemma relex_proof cfg le gr seg stack edited source out crlf d : seg [] = [] -> read seg stack source = Done (Some (crlf, d)) ->
  (forall w, In (BARE_KEY, w) (doc_content d) -> toml_bare_key w) -> format_source cfg le gr seg stack edited source = Done (Some out) ->
  exists ps ts l, format_pieces (with_line_ending cfg (line_ending_text le crlf)) gr (directive (S (length source)) (with_line_ending cfg (line_ending_text le crlf)) gr seg stack) edited d = Some ps /\
    out = ptext ps /\ Forall2 same_token (doc_content d) (filter is_content ps) /\
    source_pieces seg out = ts ++ [(EOF, [])] /\ respaced ts ps /\ lex seg out = Some l /\ errors l = [] /\ Forall (fun p : piece => fst p <> EOF) ts.
Proof.
  intros Hs ER HK E. unfold format_source in E. rewrite ER in E. destruct (read_inv _ _ _ _ _ Hs ER) as (HW & HG & HR).
  destruct (format_pieces _ _ _ _ d) as [ps|] eqn:EP; [|discriminate]. injection E as <-.
  assert (HO : one_line (directive (S (length source)) (with_line_ending cfg (line_ending_text le crlf)) gr seg stack)) by (apply directive_one_line; exact Hs).
  pose proof (pieces_neat _ _ _ _ _ _ HW EP) as HN. change (f_line_ending (with_line_ending cfg (line_ending_text le crlf))) with (line_ending_text le crlf) in HN.
  assert (HC : contents_ok ps).
  { eapply contents_written; eauto; [|intros w Hw; apply toml_bare_key_key, HK, Hw]. eapply reading_tokens; [exact HR|apply source_from_text]. }
  destruct (relexed _ (le_text le crlf) (length ps) ps (le_n _) HN (csafe_intro _ (C31_comments_end_lines _ _ _ _ _ _ HW EP)) HC (cursor_new (ptext ps)) eq_refl) as (ts & HT & HRD).
  destruct (toks_lex seg (ptext ps) ts Hs HT) as (HS & l & HL & HE).
  exists ps, ts, l. split; [reflexivity|]. split; [reflexivity|]. split; [eapply C31_content_kept; eauto|]. split; [exact HS|]. split; [exact HRD|]. split; [exact HL|]. split; [exact HE|]. exact (toks_no_eof _ _ HT).
Qed.
(** Where every bare key of the text is one of TOML, the text that is written is lexed without errors, and its tokens and
    comments are those of the text that was formatted, in their order: each is one that says the same, and nothing has
    melted with what stands beside it. *)
Theorem C31_lexed_back : forall cfg le gr seg stack edited source out crlf d, seg [] = [] ->
  read seg stack source = Done (Some (crlf, d)) -> (forall w, In (BARE_KEY, w) (doc_content d) -> toml_bare_key w) ->
  format_source cfg le gr seg stack edited source = Done (Some out) ->
  exists content content', reading (source_content seg source) content /\ Forall2 same_token content content' /\ reading (source_content seg out) content' /\
    exists l, lex seg out = Some l /\ errors l = [].
Proof.
  intros cfg le gr seg stack edited source out crlf d Hs ER HK E. destruct (relex_proof _ _ _ _ _ _ _ _ _ _ Hs ER HK E) as (ps & ts & l & _ & -> & HF & HS & HR & HL & HE & HN). apply respaced_reading in HR.
  destruct (read_inv _ _ _ _ _ Hs ER) as (_ & _ & HRD). exists (doc_content d), (filter is_content ps). split; [exact HRD|]. split; [exact HF|]. split; [|eauto].
  replace (source_content seg (ptext ps)) with (filter is_content ts).
  - rewrite <- (solid_content ts), <- (solid_content ps).
    apply (reading_filter (fun k => is_content (k, []))); [|reflexivity|reflexivity|exact HR]. intros k Hk. cbn in Hk. repeat (destruct Hk as [<- |Hk]; [reflexivity|]). destruct Hk.
  - unfold source_content. rewrite HS, filter_app. cbn [filter is_content fst kind_eqb]. rewrite app_nil_r. apply filter_ext_in. intros [k w] Hp. rewrite Forall_forall in HN. specialize (HN _ Hp). cbn [fst] in *.
    rewrite (proj2 (kind_eqb_neq k EOF) HN), andb_true_r. reflexivity.
Qed.
Print Assumptions C31_lexed_back.
(** A key that is a number with a sign, or with the colons that the lexer takes, is written next to the dot and lost. *)
Theorem C31_lexed_back_refuted : ~ (forall cfg le gr seg stack edited source out, seg [] = [] ->
  format_source cfg le gr seg stack edited source = Done (Some out) -> exists l, lex seg out = Some l /\ errors l = []).
Proof.
  intros H. destruct (H default_defs LELf width chars 200%nat true (lit "+1 . a = 3") (lines "+1.a = 3|") eq_refl) as (l & HL & HE); [vm_compute; reflexivity|].
  revert HE. assert (E : option_map (fun l => length (errors l)) (lex chars (lines "+1.a = 3|")) = Some 1%nat) by (vm_compute; reflexivity). rewrite HL in E. cbn in E. intros E'. rewrite E' in E. discriminate.
Qed.
Print Assumptions C31_lexed_back_refuted.
Definition numbers_source : str := lines "1 . 2 = 3|1979-05-27 . x = 1979-05-27t07:32:00 # day|-1.5e-3='a'|[ true . inf ]|a = [ +1 , 0x1F,-inf, 07:32:00 , 1979-05-27]".
Definition numbers_text : str := lines "1.2 = 3|1979-05-27.x = 1979-05-27T07:32:00  # day|-1.5e-3 = ""a""||[true.inf]|a = [+1, 0x1F, -inf, 07:32:00, 1979-05-27]|".
Example C31_lexed_back_example : exists crlf d, chars [] = [] /\ read chars 200 numbers_source = Done (Some (crlf, d)) /\
  (forall w, In (BARE_KEY, w) (doc_content d) -> toml_bare_key w) /\ format_source default_defs LELf width chars 200 true numbers_source = Done (Some numbers_text) /\
  map snd (source_content chars numbers_text) = map lit ["1.2"; "="; "3"; "1979-05-27"; "."; "x"; "="; "1979-05-27T07:32:00"; "# day"; "-1.5e-3"; "="; """a"""; "["; "true"; "."; "inf"; "]";
    "a"; "="; "["; "+1"; "0x1F"; "-inf"; "07:32:00"; "1979-05-27"; "]"]%string.
Proof.
  assert (HX : match read chars 200 numbers_source with
    | Done (Some (_, d)) => forallb (fun p : piece => negb (kind_eqb (fst p) BARE_KEY) || (negb (match snd p with [] => true | _ => false end) && forallb bare_char (snd p))) (doc_content d)
    | _ => false end = true) by (vm_compute; reflexivity).
  destruct (read chars 200 numbers_source) as [[[crlf d]|]| | |] eqn:ER; try discriminate HX. exists crlf, d. split; [reflexivity|]. split; [reflexivity|]. split; [|split; vm_compute; reflexivity].
  intros w Hw. rewrite forallb_forall in HX. specialize (HX _ Hw). cbn [fst snd kind_eqb negb orb] in HX. apply andb_true_iff in HX as [H1 H2]. split; [intros ->; discriminate|].
  apply Forall_forall. intros c Hc. rewrite forallb_forall in H2. specialize (H2 _ Hc). unfold bare_char, in_range in H2.
  rewrite !orb_true_iff, !andb_true_iff, !N.leb_le, !N.eqb_eq in H2. tauto.
Qed.
