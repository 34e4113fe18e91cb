(** Final theorem about reading a formatted text again (C31). *)
From Coq Require Import String Ascii List NArith Bool Arith Lia.
From Verif Require Import Base SyntaxKind TextModel LexerModel LexerSpec ParserModel ParserProps AstModel FormatPieces FormatterModel FormatterLayout FormatterSpec FormatterProps FormatterTextProps
  FormatterRelex FormatterRelexProps ParseBackProofs ReadBack.
Import ListNotations.
Open Scope N_scope.
Open Scope list_scope.

(** * C31 *)
(** A text that is read without errors, whose bare keys are those of TOML and where no float with a point stands where a
    key may stand (the parser panics on some of those): whatever the options, when it is formatted, the text that is
    written is again read without errors, and the document that is read then has the same data, each key and each value
    in its place. *)
Theorem C31_parsed_back : forall cfg le gr seg stack edited source out l crlf d, seg [] = [] -> (128 < stack)%nat ->
  lex seg source = Some l -> ~ float_after_blanks source (tokens l) -> read seg stack source = Done (Some (crlf, d)) ->
  (forall w, In (BARE_KEY, w) (doc_content d) -> toml_bare_key w) -> format_source cfg le gr seg stack edited source = Done (Some out) ->
  exists crlf' d', read seg stack out = Done (Some (crlf', d')) /\ same_data d d'.
Proof.
  intros cfg le gr seg stack edited source out l crlf d Hs Hst HL HN ER HK E. destruct (formatted_read _ _ _ _ _ _ _ _ _ _ _ Hs Hst HL HN ER HK E) as (crlf' & d' & ER'). exists crlf', d'. split; [exact ER'|].
  destruct (read_inv _ _ _ _ _ Hs ER) as (HW & _). destruct (read_inv _ _ _ _ _ Hs ER') as (HW' & _ & HR').
  destruct (relex_proof _ _ _ _ _ _ _ _ _ _ Hs ER HK E) as (ps & ts & l' & _ & -> & HF & HS & HR & _ & _ & HE). apply respaced_reading in HR.
  apply (doc_unique d d' (filter is_content ps) (source_content seg (ptext ps)) HW HW' HF); [|exact HR'].
  replace (source_content seg (ptext ps)) with (filter is_content ts).
  - rewrite <- (solid_content ts), <- (solid_content ps).
    apply (reading_filter (fun k => is_content (k, []))); [|reflexivity|reflexivity|exact HR]. intros k Hk. cbn in Hk. repeat (destruct Hk as [<- |Hk]; [reflexivity|]). destruct Hk.
  - unfold source_content. rewrite HS, filter_app. cbn [filter is_content fst kind_eqb]. rewrite app_nil_r. apply filter_ext_in. intros [k w] Hp. rewrite Forall_forall in HE. specialize (HE _ Hp). cbn [fst] in *.
    rewrite (proj2 (kind_eqb_neq k EOF) HE), andb_true_r. reflexivity.
Qed.
Print Assumptions C31_parsed_back.
Example C31_parsed_back_example : exists l crlf d, chars [] = [] /\ (128 < 200)%nat /\ lex chars numbers_source = Some l /\ ~ float_after_blanks numbers_source (tokens l) /\
  read chars 200 numbers_source = Done (Some (crlf, d)) /\ (forall w, In (BARE_KEY, w) (doc_content d) -> toml_bare_key w) /\
  format_source default_defs LELf width chars 200 true numbers_source = Done (Some numbers_text) /\ length (items_of (d_groups d)) = 3%nat /\ length (d_tables d) = 1%nat.
Proof.
  destruct C31_lexed_back_example as (crlf & d & H1 & H2 & H3 & H4 & _).
  destruct (lex chars numbers_source) as [l|] eqn:EL; [|exfalso; revert EL; vm_compute; discriminate]. exists l, crlf, d. split; [exact H1|]. split; [lia|]. split; [reflexivity|]. split.
  - intros HF. apply hazard_iff in HF. assert (HZ : match lex chars numbers_source with Some l => ParserInv.hazard numbers_source true false (tokens l) | None => true end = false) by (vm_compute; reflexivity). rewrite EL in HZ. congruence.
  - split; [exact H2|]. split; [exact H3|]. split; [exact H4|].
    assert (HX : match read chars 200 numbers_source with Done (Some (_, d)) => (length (items_of (d_groups d)), length (d_tables d)) | _ => (0, 0)%nat end = (3, 1)%nat) by (vm_compute; reflexivity). rewrite H2 in HX. injection HX as -> ->. auto.
Qed.
