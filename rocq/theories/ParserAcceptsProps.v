(** The parser accepts the texts of the grammar of ParserAccepts.v. *)
From Coq Require Import String Ascii List NArith Bool Arith Lia.
From Verif Require Import Base SyntaxKind TextModel LexerModel LexerSpec LexerProofs ParserModel ParserInv ParserPrims ParserBuild ParserProps
  ParserTree ParserYield AstModel FormatPieces FormatterModel FormatterLayout FormatterProps ParserShape ParserAccepts.
Import ListNotations.
Open Scope N_scope.
Open Scope list_scope.

Lemma quiet_errs es : filter is_err es = [] -> serrs (process es) = [].
Proof.
  unfold process, serrs. induction es as [|e es IH]; [reflexivity|]. cbn [flat_map filter]. rewrite flat_map_app. destruct e as [k| | |]; cbn [is_err]; intros H; try discriminate; rewrite (IH H); try reflexivity.
  destruct (kind_eqb k TOMBSTONE); reflexivity.
Qed.
Lemma take_text n : forall s w, text_take n s = Some w -> take_bytes n s = Some w.
Proof. intros s w H. exact H. Qed.
Lemma slice_text source sp w : text_slice source (sstart sp) (send sp) = Some w -> slice source sp = Some w.
Proof. unfold text_slice, slice. destruct (_ <? _); [discriminate|]. destruct (drop_bytes _ _); [|discriminate]. apply take_text. Qed.
Lemma start_clean source l : ~ float_after_blanks source (tokens l) -> clean (parser_new source (tokens l)).
Proof.
  intros HN. unfold clean. cbn [parser_new p_rest p_src]. destruct (tokens l) as [|t ts] eqn:E; [left; exact I|]. destruct (triv t) eqn:ET; [right|left; reflexivity].
  intros w HK HW. destruct (existsb (N.eqb 46) w) eqn:EX; [|reflexivity]. exfalso. apply HN.
  unfold nth_kind, nth_token in *. cbn [p_rest] in *.
  assert (HS : forall ts, exists ws, ts = ws ++ snd (nth_split 0 ts) /\ Forall (fun t => tkind t = WHITESPACE) ws).
  { intros us. exists (fst (nth_split 0 us)). split; [symmetry; apply nth_split_app|]. induction us as [|u us IH]; [constructor|]. cbn [nth_split]. destruct (triv u) eqn:EU; [|constructor].
    destruct (nth_split 0 us) as [x y]. cbn [fst] in *. constructor; [|exact IH]. unfold triv, is_trivia in EU. apply kind_eqb_eq. exact EU. }
  destruct (HS (t :: ts)) as (ws & EW & HF). unfold parser_new in HK, HW. cbn [p_rest p_src] in HK, HW. destruct (snd (nth_split 0 (t :: ts))) as [|u r] eqn:ES; [discriminate HK|].
  exists [], ws, u, r. split; [exact EW|]. split.
  - intros ->. cbn [app] in EW. injection EW as <- <-. unfold triv in ET. rewrite HK in ET. discriminate.
  - split; [exact HF|]. split; [|left; reflexivity]. split; [exact HK|]. exists w. split; [apply slice_text; exact HW|]. apply existsb_exists in EX as (x & HI & HX). apply N.eqb_eq in HX. subst x. exact HI.
Qed.
Theorem parse_accepts last seg stack source l B S j : seg [] = [] -> (128 < stack)%nat -> lex seg source = Some l -> errors l = [] -> ~ float_after_blanks source (tokens l) ->
  sig (tokens l) = B ++ S ++ [(EOF, j)] -> alines_to last B -> (last = true -> S = []) -> asections S -> exists t, parse seg stack source = Done (t, []) /\ ttext t = source.
Proof.
  intros Hs Hst HL HE HN HK HB HLS HS. destruct (parse_proof seg source l stack Hs HL HN Hst) as (tr & cs & EP & _ & HT & _). exists (TNode ROOT cs). split; [|exact HT].
  pose proof EP as EP2. unfold parse in EP2. rewrite HL in EP2. destruct (root (value stack) _) as [p| | |] eqn:ER; cbn [bind] in EP2; try discriminate. cbn [finish] in EP2.
  destruct (build_green_tree _ _ _) as [[t' es]| | |] eqn:EB; cbn [bind] in EP2; try discriminate.
  pose proof (accepted last stack B S j (parser_new source (tokens l)) p HB HLS HS HK eq_refl (start_clean source l HN) ER) as HQ.
  pose proof (build_errs _ _ _ _ _ EB) as HX. rewrite quiet_errs in HX; [|unfold nerr in HQ; cbn in HQ; apply length_zero_iff_nil; exact HQ]. subst es.
  rewrite HE in EP, EP2. cbn [map app] in EP, EP2. injection EP2 as _ HZ. rewrite EP, <- HZ. reflexivity.
Qed.

(** * C51 *)
(** A text of the grammar: its tokens are lines of key/values and comments, and then tables.  The last line may end with the text
    instead of a line break. *)
Definition grammatical (seg : str -> list str) (source : str) : Prop :=
  exists l B S j, lex seg source = Some l /\ errors l = [] /\ sig (tokens l) = B ++ S ++ [(EOF, j)] /\ (alines B /\ asections S \/ alines_to true B /\ S = []).
(** Every text of the grammar is read without an error.  Missing: a float with a point that stands behind a blank where a key may stand,
    on which the parser panics. *)
Theorem C51_accepted_partial : forall seg stack source l, seg [] = [] -> (128 < stack)%nat -> lex seg source = Some l -> ~ float_after_blanks source (tokens l) ->
  grammatical seg source -> exists t, parse seg stack source = Done (t, []) /\ ttext t = source.
Proof.
  intros seg stack source l Hs Hst HL HN (l' & B & S & j & HL' & HE & HK & HS). assert (l' = l) by congruence. subst l'. destruct HS as [[HB HS]|[HB ->]].
  - apply (parse_accepts false seg stack source l B S j); auto. discriminate.
  - apply (parse_accepts true seg stack source l B [] j); auto. constructor.
Qed.
Print Assumptions C51_accepted_partial.
Definition accepted_source : str := lines "# a|b.1 = [ # c|  2,|  '3' ]  # d||[[ e ]] # f|g = { h = true, i = [] }".
Example C51_accepted_example : chars [] = [] /\ (128 < 200)%nat /\ (exists l, lex chars accepted_source = Some l /\ ~ float_after_blanks accepted_source (tokens l)) /\ grammatical chars accepted_source.
Proof.
  split; [reflexivity|]. split; [lia|]. split.
  - assert (H : match lex chars accepted_source with Some l => forallb (fun t => negb (kind_eqb (tkind t) FLOAT)) (tokens l) | None => false end = true) by (vm_compute; reflexivity).
    destruct (lex chars accepted_source) as [l|]; [|discriminate]. exists l. split; [reflexivity|]. intros (a & ws & t & b & E & _ & _ & (HF & _) & _). rewrite forallb_forall in H.
    specialize (H t). rewrite HF in H. discriminate H. rewrite E. apply in_or_app. right. apply in_or_app. right. left. reflexivity.
  - assert (H : match lex chars accepted_source with Some l => (errors l, sig (tokens l)) | None => ([], []) end = ([],
      [(COMMENT, true); (LINE_BREAK, true); (BARE_KEY, true); (DOT, true); (INTEGER_DEC, false); (EQUAL, false); (BRACKET_START, false); (COMMENT, true); (LINE_BREAK, false); (INTEGER_DEC, true); (COMMA, true);
       (LINE_BREAK, false); (LITERAL_STRING, false); (BRACKET_END, false); (COMMENT, true); (LINE_BREAK, true); (LINE_BREAK, true); (BRACKET_START, true); (BRACKET_START, false); (BARE_KEY, false);
       (BRACKET_END, true); (BRACKET_END, false); (COMMENT, true); (LINE_BREAK, true); (BARE_KEY, false); (EQUAL, false); (BRACE_START, false); (BARE_KEY, false); (EQUAL, false); (BOOLEAN, true); (COMMA, false);
       (BARE_KEY, false); (EQUAL, false); (BRACKET_START, true); (BRACKET_END, false); (BRACE_END, true); (EOF, false)])) by (vm_compute; reflexivity).
    destruct (lex chars accepted_source) as [l|] eqn:E; [|discriminate]. injection H as H1 H2. exists l,
      ([(COMMENT, true); (LINE_BREAK, true)] ++ ([(BARE_KEY, true); (DOT, true); (INTEGER_DEC, false)] ++ (EQUAL, false) :: (BRACKET_START, false) :: [(COMMENT, true)] ++
        ([(LINE_BREAK, false)] ++ [(INTEGER_DEC, true)] ++ [] ++ ([] ++ (COMMA, true) :: []) ++ ([(LINE_BREAK, false)] ++ [(LITERAL_STRING, false)] ++ [] ++ [] ++ [])) ++ [(BRACKET_END, false)]) ++ [(COMMENT, true)] ++ [] ++ [(LINE_BREAK, true); (LINE_BREAK, true)]),
      (aopen true false ++ [(BARE_KEY, false)] ++ aclose true false ++ [(COMMENT, true)] ++
        ([(LINE_BREAK, true)] ++ ([(BARE_KEY, false)] ++ (EQUAL, false) :: (BRACE_START, false) :: [] ++
          ([] ++ ([(BARE_KEY, false)] ++ (EQUAL, false) :: [(BOOLEAN, true)]) ++ [] ++ ([] ++ (COMMA, false) :: []) ++
            ([] ++ ([(BARE_KEY, false)] ++ (EQUAL, false) :: (BRACKET_START, true) :: [] ++ [] ++ [(BRACKET_END, false)]) ++ [] ++ [] ++ [])) ++ [(BRACE_END, true)]) ++ [] ++ [] ++ [])), false.
    split; [exact E|]. split; [exact H1|]. split; [rewrite H2; reflexivity|]. left. split.
    + apply al_item; [repeat constructor| |constructor|constructor|discriminate|left; reflexivity|apply al_gaps; repeat constructor].
      apply ai_key; [repeat constructor|]. apply (ac_box _ false); [constructor|discriminate|].
      apply ab_item; [repeat constructor|apply ai_value, ac_lit; reflexivity|constructor|apply cm_some; constructor|discriminate|discriminate|].
      apply ab_item; [repeat constructor|apply ai_value, ac_lit; reflexivity|constructor|constructor|discriminate|discriminate|apply ab_gaps; constructor].
    + apply as_last; [repeat constructor|constructor|left; reflexivity|].
      apply al_item; [repeat constructor| |constructor|constructor|discriminate|right; split; reflexivity|apply al_gaps; repeat constructor].
      apply ai_key; [repeat constructor|]. apply (ac_box _ true); [constructor|discriminate|].
      apply ab_item; [constructor|apply ai_key; [repeat constructor|apply ac_lit; reflexivity]|constructor|apply cm_some; constructor|discriminate|discriminate|].
      apply ab_item; [constructor|apply ai_key; [repeat constructor|]|constructor|constructor|discriminate|discriminate|apply ab_gaps; constructor].
      apply (ac_box _ false); [constructor|discriminate|apply ab_gaps; constructor].
Qed.
