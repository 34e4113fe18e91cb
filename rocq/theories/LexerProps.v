(** Final theorems about the TOML lexer (C01 - C05). *)
From Coq Require Import String Ascii List NArith Bool Arith Lia.
From Verif Require Import Base SyntaxKind TextModel Regex LexerModel LexerSpec LexerProofs TomlGrammar LexScalars LexSound LexNumbers.
Import ListNotations.
Open Scope N_scope.
Open Scope list_scope.

(** A grapheme segmentation for the examples: one cluster per character. *)
Definition seg1 (s : str) : list str := map (fun c => [c]) s.

(** * C01 *)
Lemma covers_slices b s ts : covers b s ts ->
  exists ws, Forall2 (fun t w => slice (b ++ s) (tspan t) = Some w /\ (tkind t <> EOF -> w <> [])) ts ws /\ concat ws = s.
Proof.
  induction 1 as [b|b w s t ts H1 H2 H3 H4 (ws & IH1 & IH2)].
  - exists []. split; constructor.
  - exists (w :: ws). split; [|simpl; congruence]. constructor.
    + split; auto. rewrite H1. apply slice_app.
    + rewrite app_assoc. exact IH1.
Qed.

Lemma covers_in b s ts t : covers b s ts -> In t ts ->
  exists p w q, b ++ s = p ++ w ++ q /\ tspan t = MkSpan (len_bytes p) (len_bytes (p ++ w)) /\
                trange t = MkRange (position_after p) (position_after (p ++ w)).
Proof.
  induction 1 as [b|b w s t0 ts H1 H2 H3 H4 IH]; intros Hin; [contradiction|].
  destruct Hin as [<-|Hin].
  - exists b, w, s. auto.
  - destruct (IH Hin) as (p & u & q & E & ? & ?). exists p, u, q. rewrite <- E, app_assoc. auto.
Qed.

(** Consecutive spans. *)
Fixpoint contiguous (from : N) (ts : list token) (to : N) : Prop :=
  match ts with
  | [] => from = to
  | t :: ts => sstart (tspan t) = from /\ contiguous (send (tspan t)) ts to
  end.
Lemma covers_contiguous b s ts : covers b s ts -> contiguous (len_bytes b) ts (len_bytes (b ++ s)).
Proof.
  induction 1 as [b|b w s t ts H1 H2 H3 H4 IH]; simpl; [rewrite app_nil_r; reflexivity|].
  rewrite H1. simpl. split; auto. rewrite app_assoc. exact IH.
Qed.

Lemma lex_lossless_proof seg source : seg [] = [] ->
  exists l ts eof, lex seg source = Some l /\ tokens l = ts ++ [eof] /\
    tkind eof = EOF /\ Forall (fun t => tkind t <> EOF) ts /\
    contiguous 0 (tokens l) (len_bytes source) /\
    exists ws, Forall2 (fun t w => slice source (tspan t) = Some w /\ (tkind t <> EOF -> w <> [])) (tokens l) ws /\
               concat ws = source.
Proof.
  intros Hs. destruct (lex_correct seg source Hs) as (l & HL & ts & eof & H1 & H2 & H3 & H4 & H5).
  exists l, ts, eof. repeat (split; [assumption|]). split.
  - apply (covers_contiguous [] source). exact H4.
  - apply (covers_slices [] source). exact H4.
Qed.

Theorem C01_lex_lossless : forall seg source, seg [] = [] ->
  exists l ts eof, lex seg source = Some l /\ tokens l = ts ++ [eof] /\
    tkind eof = EOF /\ Forall (fun t => tkind t <> EOF) ts /\
    contiguous 0 (tokens l) (len_bytes source) /\
    exists ws, Forall2 (fun t w => slice source (tspan t) = Some w /\ (tkind t <> EOF -> w <> [])) (tokens l) ws /\
               concat ws = source.
Proof. exact lex_lossless_proof. Qed.
Print Assumptions C01_lex_lossless.

Example C01_segmentation : seg1 [] = [].
Proof. reflexivity. Qed.
(** Unterminated string, unusual characters, two-line input: still tiled. *)
Example C01_example :
  option_map (fun l => (map tkind (tokens l), length (errors l))) (lex seg1 (lit "a = [1, ""x" ++ [10; 0x1F600; 35]))
  = Some ([BARE_KEY; WHITESPACE; EQUAL; WHITESPACE; BRACKET_START; INTEGER_DEC; COMMA; WHITESPACE; INVALID_TOKEN;
           LINE_BREAK; BARE_KEY; COMMENT; EOF], 1%nat).
Proof. vm_compute. reflexivity. Qed.

(** * C02 *)
Lemma lex_errors_proof seg source l : seg [] = [] -> lex seg source = Some l ->
  Forall2 same_place (filter is_invalid (tokens l)) (errors l).
Proof.
  intros Hs HL. destruct (lex_correct seg source Hs) as (l' & HL' & ts & eof & H1 & H2 & H3 & H4 & H5). congruence.
Qed.
Theorem C02_lex_errors_are_invalid_tokens : forall seg source l, seg [] = [] -> lex seg source = Some l ->
  Forall2 same_place (filter is_invalid (tokens l)) (errors l).
Proof. exact lex_errors_proof. Qed.
Print Assumptions C02_lex_errors_are_invalid_tokens.

(** * C03 *)
Lemma lex_positions_proof seg source l t : seg [] = [] -> lex seg source = Some l -> In t (tokens l) ->
  exists before text after, source = before ++ text ++ after /\
    tspan t = MkSpan (len_bytes before) (len_bytes (before ++ text)) /\
    trange t = MkRange (position_after before) (position_after (before ++ text)).
Proof.
  intros Hs HL Hin. destruct (lex_correct seg source Hs) as (l' & HL' & ts & eof & H1 & H2 & H3 & H4 & H5).
  assert (l' = l) by congruence. subst. apply (covers_in [] source (tokens l)); auto.
Qed.
Theorem C03_lex_positions : forall seg source l t, seg [] = [] -> lex seg source = Some l -> In t (tokens l) ->
  exists before text after, source = before ++ text ++ after /\
    tspan t = MkSpan (len_bytes before) (len_bytes (before ++ text)) /\
    trange t = MkRange (position_after before) (position_after (before ++ text)).
Proof. exact lex_positions_proof. Qed.
Print Assumptions C03_lex_positions.

(** * C04 *)
Theorem C04_scalar_lexed : forall seg k w s l,
  scalar k w -> ends_value s -> not_continued k s -> lex seg (w ++ s) = Some l ->
  exists t ts, tokens l = t :: ts /\ tkind t = k /\ tspan t = MkSpan 0 (len_bytes w).
Proof. exact lex_scalar_first. Qed.
Print Assumptions C04_scalar_lexed.

(** The same at any place of a document where a token starts. *)
Theorem C04_scalar_lexed_anywhere : forall seg p k w s l t,
  scalar k w -> ends_value s -> not_continued k s ->
  lex seg (p ++ w ++ s) = Some l -> In t (tokens l) -> tkind t <> EOF -> sstart (tspan t) = len_bytes p ->
  tkind t = k /\ tspan t = MkSpan (len_bytes p) (len_bytes (p ++ w)).
Proof. exact lex_scalar_at. Qed.
Print Assumptions C04_scalar_lexed_anywhere.

Definition lex_kinds (s : string) : option (list (kind * N * N)) :=
  option_map (fun l => map (fun t => (tkind t, sstart (tspan t), send (tspan t))) (tokens l)) (lex seg1 (lit s)).

(** Witnesses of the hypotheses: a scalar of every kind. *)
Example C04_scalars :
  scalar INTEGER_DEC (lit "-1_000") /\ scalar INTEGER_HEX (lit "0xdead_BEEF") /\ scalar INTEGER_OCT (lit "0o7_55") /\
  scalar INTEGER_BIN (lit "0b1101_0") /\ scalar FLOAT (lit "+6.02_2e-1_0") /\ scalar FLOAT (lit "-inf") /\
  scalar BOOLEAN (lit "false") /\ scalar OFFSET_DATE_TIME (lit "1979-05-27 07:32:00.999-07:00") /\
  scalar LOCAL_DATE_TIME (lit "1979-05-27t07:32") /\ scalar LOCAL_DATE (lit "1979-05-27") /\
  scalar LOCAL_TIME (lit "23:59:59.5").
Proof.
  repeat match goal with |- _ /\ _ => split end;
  match goal with
  | |- scalar FLOAT (lit "-inf") => apply S_special
  | |- scalar INTEGER_DEC _ => apply S_dec
  | |- scalar INTEGER_HEX _ => apply S_hex
  | |- scalar INTEGER_OCT _ => apply S_oct
  | |- scalar INTEGER_BIN _ => apply S_bin
  | |- scalar FLOAT _ => apply S_float
  | |- scalar BOOLEAN _ => apply S_bool
  | |- scalar OFFSET_DATE_TIME _ => apply S_odt
  | |- scalar LOCAL_DATE_TIME _ => apply S_ldt
  | |- scalar LOCAL_DATE _ => apply S_ld
  | |- scalar LOCAL_TIME _ => apply S_lt
  end; apply full_match_spec; vm_compute; reflexivity.
Qed.
Example C04_separators : ends_value (lit "]") /\ ends_value (lit ", 1") /\ not_continued LOCAL_DATE (lit " # c") /\ ends_value [].
Proof. repeat split; simpl; auto 10. Qed.

(** * C05 *)
(** A number token whose text TOML does not derive, lexed without an error. *)
Definition bad_number_token (source : str) : Prop :=
  exists l t w, lex seg1 source = Some l /\ errors l = [] /\ In t (tokens l) /\ number_token_kind (tkind t) = true /\
    slice source (tspan t) = Some w /\ ~ scalar (tkind t) w.

Ltac not_scalar := let H := fresh in intros H; inversion H; subst;
  match goal with K : lang _ _ |- _ => apply full_match_spec in K; vm_compute in K; discriminate end.
Ltac bad_first := eexists; eexists; eexists; split; [vm_compute; reflexivity|]; split; [reflexivity|]; split; [left; reflexivity|];
  split; [reflexivity|]; split; [vm_compute; reflexivity|]; not_scalar.

Theorem C05_number_tokens_refuted :
  bad_number_token (lit "0b|") /\ bad_number_token (lit "1:2") /\ bad_number_token (lit "1:e5") /\
  bad_number_token (lit "1__0.5") /\ bad_number_token (lit "00.5") /\ bad_number_token (lit "+0x1F").
Proof. repeat match goal with |- _ /\ _ => split end; bad_first. Qed.
Print Assumptions C05_number_tokens_refuted.

(** All that is missing is excluded by [clean_number]: no colon or bar, no sign before a prefixed
    integer, and for floats underscores between digits only and no leading zero. *)
Lemma number_tokens_proof seg source l t w :
  lex seg source = Some l -> In t (tokens l) -> number_token_kind (tkind t) = true ->
  slice source (tspan t) = Some w -> clean_number (tkind t) w -> scalar (tkind t) w.
Proof.
  intros HL Hin HK HS HC. destruct (lex_token_text seg source l t HL Hin) as (w' & E & HT).
  - intros E; rewrite E in HK; discriminate.
  - intros E; rewrite E in HK; discriminate.
  - assert (w' = w) by congruence. subst. apply number_text_toml; auto.
Qed.
Theorem C05_number_tokens_partial : forall seg source l t w,
  lex seg source = Some l -> In t (tokens l) -> number_token_kind (tkind t) = true ->
  slice source (tspan t) = Some w -> clean_number (tkind t) w -> scalar (tkind t) w.
Proof. exact number_tokens_proof. Qed.
Print Assumptions C05_number_tokens_partial.

(** The exact set of texts a token of each kind can have. *)
Theorem C05_token_texts : forall seg source l t,
  lex seg source = Some l -> In t (tokens l) -> tkind t <> EOF -> tkind t <> INVALID_TOKEN ->
  exists w, slice source (tspan t) = Some w /\ text_ok (tkind t) w.
Proof. exact lex_token_text. Qed.
Print Assumptions C05_token_texts.

(** Booleans and local dates are exactly those of the grammar. *)
Theorem C05_booleans_and_dates : forall seg source l t w,
  lex seg source = Some l -> In t (tokens l) -> tkind t = BOOLEAN \/ tkind t = LOCAL_DATE ->
  slice source (tspan t) = Some w -> scalar (tkind t) w.
Proof.
  intros seg source l t w HL Hin HK HS. destruct (lex_token_text seg source l t HL Hin) as (w' & E & HT).
  - intros K; rewrite K in HK; destruct HK; discriminate.
  - intros K; rewrite K in HK; destruct HK; discriminate.
  - assert (w' = w) by congruence. subst. destruct HK as [K|K]; rewrite K in *; simpl in HT.
    + apply S_bool. apply lang_alt_inv. destruct HT as [->| ->]; [left|right]; apply g_str_inv; reflexivity.
    + apply S_ld. exact HT.
Qed.
Print Assumptions C05_booleans_and_dates.
