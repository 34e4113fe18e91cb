(** The text that is written, lexed again: its tokens are the pieces that were written (C31). *)
From Coq Require Import String Ascii List NArith Bool Arith Lia ZifyBool.
From Verif Require Import Base SyntaxKind TextModel Regex LexerModel LexerSpec LexerProofs TomlGrammar LexScalars LexSound LexNumbers TomlTextModel
  DateTimeModel NumberSpec DateTimeSpec DateTimeTokens TomlTextProofs FormatPieces FormatPiecesProofs FormatPiecesProps ParserModel ParserBuild AstModel
  FormatterModel FormatterLayout FormatterSpec FormatterProofs FormatterEdit FormatterProps OneLine FormatterTextProps LexLocal.
Import ListNotations.
Open Scope N_scope.
Open Scope list_scope.

(** * What stands next to what *)
(** What may follow a value, and what may follow a key *)
Fixpoint after_value (r : list piece) : Prop :=
  match r with
  | [] => True
  | (k, _) :: r' => match k with COMMENT | LINE_BREAK | COMMA | BRACE_END | BRACKET_END => True | WHITESPACE => after_value r' | _ => False end
  end.
Fixpoint after_key (r : list piece) : Prop :=
  match r with
  | [] => False
  | (k, _) :: r' => match k with DOT | EQUAL | BRACKET_END => True | WHITESPACE => after_key r' | _ => False end
  end.
Definition next_key (r : list piece) : Prop := match r with [] => False | (k, _) :: _ => key_kind k = true end.
Definition neat1 (le : str) (k : kind) (w : str) (r : list piece) : Prop :=
  match k with
  | WHITESPACE => blank_text w
  | LINE_BREAK => w = le
  | COMMA => w = [44]
  | BARE_KEY => after_key r
  | BASIC_STRING | LITERAL_STRING => after_key r \/ after_value r
  | DOT => next_key r
  | _ => if literal_kind k then after_value r else True
  end.
Fixpoint neat (le : str) (ps : list piece) : Prop :=
  match ps with [] => True | (k, w) :: r => neat1 le k w r /\ neat le r end.

Section Neat.
Context (le : str) (limit : N) (rc : str -> str -> Prop) (rk : fkey -> piece -> Prop) (rl : kind -> str -> piece -> Prop).
Context (Hrk : forall k p, rk k p -> key_kind (fst p) = true) (Hrl : forall k s p, literal_kind k = true -> rl k s p -> literal_kind (fst p) = true).
Notation NT := (neat le).
Notation AV := after_value.
Lemma nt_blanks b qs : FormatterLayout.blanks b -> NT qs -> NT (b ++ qs).
Proof. induction 1 as [|[k s] b [Hk Hs] H IH]; intros HQ; [exact HQ|]. cbn in Hk, Hs. subst k. split; [exact Hs|exact (IH HQ)]. Qed.
Lemma av_blanks b qs : FormatterLayout.blanks b -> AV qs -> AV (b ++ qs).
Proof. induction 1 as [|[k s] b [Hk Hs] H IH]; intros HQ; [exact HQ|]. cbn in Hk. subst k. exact (IH HQ). Qed.
Lemma ak_blanks b qs : FormatterLayout.blanks b -> after_key qs -> after_key (b ++ qs).
Proof. induction 1 as [|[k s] b [Hk Hs] H IH]; intros HQ; [exact HQ|]. cbn in Hk. subst k. exact (IH HQ). Qed.
Lemma nt_nl qs : NT qs -> NT (nl le :: qs).
Proof. intros H. split; [reflexivity|exact H]. Qed.
Lemma nt_nls n qs : NT qs -> NT (repeat (nl le) n ++ qs).
Proof. intros H. induction n; [exact H|]. apply nt_nl. exact IHn. Qed.
Lemma nt_comment c qs : NT qs -> NT ((COMMENT, c) :: qs).
Proof. intros H. split; [exact I|exact H]. Qed.
Lemma nt_lines cs ps qs : comment_lines le rc cs ps -> NT qs -> NT (ps ++ qs).
Proof.
  intros H HQ. induction H as [|c cs c' b ps Hb Hc H IH]; [exact HQ|]. rewrite <- app_assoc. apply nt_blanks; [exact Hb|]. cbn [app]. apply nt_comment, nt_nl. exact IH.
Qed.
Lemma nt_dangling cs ps qs : dangling le rc cs ps -> NT qs -> NT (ps ++ qs).
Proof.
  intros H HQ. induction H as [c c' b Hb Hc|c cs c' b ps Hb Hc H IH]; rewrite <- app_assoc; (apply nt_blanks; [exact Hb|]); cbn [app]; apply nt_comment; [exact HQ|]. apply nt_nl. exact IH.
Qed.
Lemma nt_tail tc ps qs : tail rc tc ps -> NT qs -> NT (ps ++ qs).
Proof. intros H HQ. destruct H as [|c c' b Hb Hc]; [exact HQ|]. rewrite <- app_assoc. apply nt_blanks; [exact Hb|]. cbn [app]. apply nt_comment. exact HQ. Qed.
Lemma av_tail tc ps qs : tail rc tc ps -> AV qs -> AV (ps ++ qs).
Proof. intros H HQ. destruct H as [|c c' b Hb Hc]; [exact HQ|]. rewrite <- app_assoc. apply av_blanks; [exact Hb|]. exact I. Qed.
Lemma nt_key p qs : key_kind (fst p) = true -> after_key qs -> NT qs -> NT (p :: qs).
Proof. destruct p as [k w]. cbn [fst]. intros HK HA HQ. split; [|exact HQ]. destruct k; try discriminate; cbn; auto. Qed.
Lemma nt_keys ks ps qs : lay_keys rk ks ps -> after_key qs -> NT qs -> NT (ps ++ qs) /\ next_key (ps ++ qs).
Proof.
  intros H HA HQ. induction H as [k p Hk|k p ks ps Hk H [IH1 IH2]]; cbn [app].
  - split; [apply nt_key; auto; eapply Hrk; eauto|]. destruct p. exact (Hrk _ _ Hk).
  - split; [|destruct p; exact (Hrk _ _ Hk)]. apply nt_key; [exact (Hrk _ _ Hk)|exact I|]. split; [exact IH2|exact IH1].
Qed.
Lemma nt_comma_piece qs : NT qs -> NT (comma_piece :: qs).
Proof. intros H. split; [reflexivity|exact H]. Qed.
Lemma nt_comma h c ps qs : lay_comma le rc h c ps -> NT qs -> NT (ps ++ qs).
Proof.
  intros H HQ. destruct H as [h|tc pt Ht|tc b pt Hb Ht|h c cs pl tc b pt Hl Hb Ht]; cbn [app].
  - exact HQ.
  - apply nt_comma_piece. apply (nt_tail _ _ _ Ht HQ).
  - apply nt_nl. rewrite <- app_assoc. apply nt_blanks; [exact Hb|]. cbn [app]. apply nt_comma_piece. apply (nt_tail _ _ _ Ht HQ).
  - apply nt_nl. rewrite <- !app_assoc. apply (nt_lines _ _ _ Hl). apply nt_blanks; [exact Hb|]. cbn [app]. apply nt_comma_piece. apply (nt_tail _ _ _ Ht HQ).
Qed.
Lemma av_comma h c ps qs : lay_comma le rc h c ps -> AV qs -> AV (ps ++ qs).
Proof. intros H HQ. destruct H; [exact HQ|exact I|exact I|exact I]. Qed.
Lemma nt_line_comma h c ps qs : lay_line_comma le rc h c ps -> NT qs -> NT (ps ++ qs).
Proof.
  intros H HQ. destruct H as [h|h|tc pt Ht|tc b pt Hb Ht|h c cs pl tc b pt Hl Hb Ht]; cbn [app].
  - exact HQ.
  - exact HQ.
  - apply (nt_tail _ _ _ Ht HQ).
  - apply nt_nl. rewrite <- app_assoc. apply nt_blanks; [exact Hb|]. cbn [app]. apply nt_comma_piece. apply (nt_tail _ _ _ Ht HQ).
  - apply nt_nl. rewrite <- !app_assoc. apply (nt_lines _ _ _ Hl). apply nt_blanks; [exact Hb|]. cbn [app]. apply nt_comma_piece. apply (nt_tail _ _ _ Ht HQ).
Qed.
Lemma av_line_comma h c ps qs : lay_line_comma le rc h c ps -> AV qs -> AV (ps ++ qs).
Proof. intros H HQ. destruct H as [h|h|tc pt Ht|tc b pt Hb Ht|h c cs pl tc b pt Hl Hb Ht]; [exact HQ|exact HQ|apply (av_tail _ _ _ Ht HQ)|exact I|exact I]. Qed.
Lemma nt_sep w b qs : NT qs -> NT (separator le limit w b ++ qs).
Proof. unfold separator. destruct w; [apply nt_nls|trivial]. Qed.
Lemma nt_open t qs : NT qs -> NT (open_piece t :: qs).
Proof. intros H. destruct t; split; [exact I|exact H|exact I|exact H]. Qed.
Lemma nt_close t qs : NT qs -> NT (close_piece t :: qs).
Proof. intros H. destruct t; split; [exact I|exact H|exact I|exact H]. Qed.
Lemma av_close t qs : AV (close_piece t :: qs).
Proof. destruct t; exact I. Qed.
Lemma nt_literal p qs : literal_kind (fst p) = true -> AV qs -> NT qs -> NT (p :: qs).
Proof. destruct p as [k w]. cbn [fst]. intros HK HA HQ. split; [|exact HQ]. destruct k; try discriminate; cbn; auto. Qed.
Lemma groups_av gs ps qs : lay_groups le limit rc rk rl true gs ps -> AV qs -> AV (ps ++ qs).
Proof. intros H HQ. inversion H; subst; [exact HQ|exact I|exact I]. Qed.
Lemma blocks_av gs ps qs : lay_blocks le limit rc rk rl true gs ps -> AV qs -> AV (ps ++ qs).
Proof. intros H HQ. inversion H; subst; [exact HQ|exact I|exact I]. Qed.
Lemma layout_neat :
  (forall v ps, lay_value le limit rc rk rl v ps -> wf_value v = true -> forall qs, NT qs -> AV qs -> NT (ps ++ qs)) /\
  (forall i ps, lay_item le limit rc rk rl i ps -> wfi i = true -> forall qs, NT qs -> AV qs -> NT (ps ++ qs)) /\
  (forall its ps, lay_lines le limit rc rk rl its ps -> forallb wfi its = true -> forall qs, NT qs -> AV qs -> NT (ps ++ qs)) /\
  (forall w gs ps, lay_groups le limit rc rk rl w gs ps -> forallb wfg gs = true -> forall qs, NT qs -> AV qs -> NT (ps ++ qs)) /\
  (forall its ps, lay_line le limit rc rk rl its ps -> forallb wfi its = true -> forall qs, NT qs -> AV qs -> NT (ps ++ qs)).
Proof.
  apply lay_mutind.
  - intros lead k tok tc pl b p pt Hl Hb Hr Ht HW qs HQ HL. rewrite <- !app_assoc. cbn [app]. apply (nt_lines _ _ _ Hl). apply nt_blanks; [exact Hb|].
    apply nt_literal; [exact (Hrl _ _ _ HW Hr)|apply (av_tail _ _ _ Ht HL)|apply (nt_tail _ _ _ Ht HQ)].
  - intros table lead otc gs tc pl b po pg b' pt Hl Hb Ho Hg IH Hb' Ht HW qs HQ HL. rewrite <- !app_assoc. cbn [app]. rewrite <- !app_assoc. cbn [app]. rewrite <- !app_assoc. cbn [app].
    rewrite <- !app_assoc. cbn [app]. apply (nt_lines _ _ _ Hl). apply nt_blanks; [exact Hb|]. apply nt_open. apply (nt_tail _ _ _ Ho).
    apply nt_nl. apply IH; [apply (wf_box_wfg _ _ _ _ _ HW)| |exact I]. apply nt_nl. apply nt_blanks; [exact Hb'|]. apply nt_close. apply (nt_tail _ _ _ Ht HQ).
  - intros table lead gs tc pl b b1 pg b2 pt Hl Hb Hb1 HGI HQt Hg IH Hb2 Ht HW qs HQ HL. rewrite <- !app_assoc. cbn [app]. rewrite <- !app_assoc. cbn [app].
    apply (nt_lines _ _ _ Hl). apply nt_blanks; [exact Hb|]. apply nt_open. apply nt_blanks; [exact Hb1|].
    apply IH; [apply wfg_items, (wf_box_wfg _ _ _ _ _ HW)| |].
    + apply nt_blanks; [exact Hb2|]. apply nt_close. apply (nt_tail _ _ _ Ht HQ).
    + apply av_blanks; [exact Hb2|]. apply av_close.
  - intros raw v c ps Hv IH HW qs HQ HL. cbn [wfi ival] in *. apply andb_prop in HW. apply IH; [apply HW|exact HQ|exact HL].
  - intros lead ks raw v c pl b pk b1 b2 pv Hl Hb Hk Hb1 Hb2 Hv IH HW qs HQ HL. cbn [wfi ival] in *. apply andb_prop in HW. rewrite <- !app_assoc. cbn [app]. rewrite <- !app_assoc.
    apply (nt_lines _ _ _ Hl). apply nt_blanks; [exact Hb|]. apply (nt_keys _ _ _ Hk).
    + apply ak_blanks; [exact Hb1|exact I].
    + apply nt_blanks; [exact Hb1|]. split; [exact I|]. apply nt_blanks; [exact Hb2|]. apply IH; [apply HW|exact HQ|exact HL].
  - intros i pi pc Hi IH Hc HW qs HQ HL. cbn [forallb] in HW. apply andb_prop in HW. rewrite <- app_assoc. apply IH; [apply HW|apply (nt_comma _ _ _ _ Hc HQ)|apply (av_comma _ _ _ _ Hc HL)].
  - intros i its pi pc ps Hi IH Hc Hs IHs HW qs HQ HL. cbn [forallb] in HW. apply andb_prop in HW. rewrite <- !app_assoc. cbn [app].
    apply IH; [apply HW|apply (nt_comma _ _ _ _ Hc)|apply (av_comma _ _ _ _ Hc); exact I]. apply nt_nl, IHs; [apply HW|exact HQ|exact HL].
  - intros w _ qs HQ _. exact HQ.
  - intros w b cs gs pc ps Hd Hg IH HW qs HQ HL. rewrite <- !app_assoc. apply nt_sep. apply (nt_dangling _ _ _ Hd). apply IH; [exact HW|exact HQ|exact HL].
  - intros w b its gs pi ps Hd IHd Hg IH HW qs HQ HL. cbn [forallb] in HW. apply andb_prop in HW. rewrite <- !app_assoc. apply nt_sep.
    apply IHd; [apply HW|apply IH; [apply HW|exact HQ|exact HL]|]. apply (groups_av _ _ _ Hg HL).
  - intros _ qs HQ _. exact HQ.
  - intros i pi Hi IH HW qs HQ HL. cbn [forallb] in HW. apply andb_prop in HW. apply IH; [apply HW|exact HQ|exact HL].
  - intros i its pi b ps Hi IH Hb _ Hs IHs HW qs HQ HL. cbn [forallb] in HW. apply andb_prop in HW. rewrite <- !app_assoc. cbn [app]. rewrite <- !app_assoc.
    apply IH; [apply HW| |exact I]. apply nt_comma_piece. apply nt_blanks; [exact Hb|]. apply IHs; [apply HW|exact HQ|exact HL].
Qed.
Lemma kvs_neat its ps : lay_kvs le limit rc rk rl its ps -> forallb wfi its = true -> forall qs, NT qs -> AV qs -> NT (ps ++ qs).
Proof.
  destruct layout_neat as (_ & HI & _).
  induction 1 as [i pi pc Hi Hc|i its pi pc ps Hi Hc Hs IHs]; intros HW qs HQ HL; cbn [forallb] in HW; apply andb_prop in HW; rewrite <- !app_assoc; cbn [app].
  - apply (HI _ _ Hi); [apply HW|apply (nt_line_comma _ _ _ _ Hc HQ)|apply (av_line_comma _ _ _ _ Hc HL)].
  - apply (HI _ _ Hi); [apply HW|apply (nt_line_comma _ _ _ _ Hc)|apply (av_line_comma _ _ _ _ Hc); exact I]. apply nt_nl, IHs; [apply HW|exact HQ|exact HL].
Qed.
Lemma blocks_neat w gs ps : lay_blocks le limit rc rk rl w gs ps -> forallb wfg gs = true -> forall qs, NT qs -> AV qs -> NT (ps ++ qs).
Proof.
  induction 1 as [w|w b cs gs pc ps Hd Hg IH|w b its gs pi ps Hd Hg IH]; intros HW qs HQ HL; [exact HQ| |]; cbn [forallb] in HW; rewrite <- !app_assoc; apply nt_sep.
  - apply (nt_dangling _ _ _ Hd). apply IH; [exact HW|exact HQ|exact HL].
  - apply andb_prop in HW. apply (kvs_neat _ _ Hd); [apply HW|apply IH; [apply HW|exact HQ|exact HL]|]. apply (blocks_av _ _ _ Hg HL).
Qed.
Lemma table_neat t ps : lay_table le limit rc rk rl t ps -> wf_table t = true -> forall qs, NT qs -> AV qs -> NT (ps ++ qs).
Proof.
  intros H HW qs HQ HL. destruct H as [a lead ks tc gs bl pl b pk pt pg Hl Hb Hk Ht Hg]. apply andb_prop in HW. destruct HW as [_ HW]. cbn [t_groups] in HW.
  rewrite <- !app_assoc. apply (nt_lines _ _ _ Hl). apply nt_blanks; [exact Hb|].
  assert (HT : NT (pt ++ (match gs with [] => [] | _ => nl le :: pg end) ++ qs)).
  { apply (nt_tail _ _ _ Ht). destruct gs as [|g gs]; [exact HQ|]. cbn [app]. apply nt_nl.
    apply (blocks_neat _ _ _ Hg); [apply wf_groups_wfg; exact HW|exact HQ|exact HL]. }
  destruct a; cbn [brackets app].
  - apply (nt_open false), (nt_open false). apply (nt_keys _ _ _ Hk); [exact I|]. apply (nt_close false), (nt_close false). exact HT.
  - apply (nt_open false). apply (nt_keys _ _ _ Hk); [exact I|]. apply (nt_close false). exact HT.
Qed.
Lemma tables_neat gap ts ps : lay_tables le limit rc rk rl gap ts ps -> forallb wf_table ts = true -> forall qs, NT qs -> AV qs -> NT (ps ++ qs).
Proof.
  induction 1 as [t ps Ht|t t' ts pt ps Ht Hs IH]; intros HW qs HQ HL; cbn [forallb] in HW; apply andb_prop in HW.
  - apply (table_neat _ _ Ht); [apply HW|exact HQ|exact HL].
  - rewrite <- app_assoc. cbn [app]. rewrite <- app_assoc. apply (table_neat _ _ Ht); [apply HW| |exact I]. apply nt_nl, nt_nls, IH; [apply HW|exact HQ|exact HL].
Qed.
Lemma root_neat gap rgap d ps : lay_root le limit rc rk rl gap rgap d ps -> wf_doc d = true -> forall qs, NT qs -> AV qs -> NT (ps ++ qs).
Proof.
  intros H HW qs HQ HL. apply andb_prop in HW. destruct HW as [W1 W2]. destruct H as [gs ps Hg|gs t ts pg ps Hg Ht]; cbn [d_groups d_tables] in *.
  - apply (blocks_neat _ _ _ Hg); [apply wf_groups_wfg; exact W1|exact HQ|exact HL].
  - pose proof (tables_neat _ _ _ Ht W2 qs HQ HL) as HT. rewrite <- !app_assoc.
    destruct gs as [|g gs]; cbn [app]. { inversion Hg; subst. exact HT. }
    apply (blocks_neat _ _ _ Hg); [apply wf_groups_wfg; exact W1| |exact I]. apply nt_nl. rewrite <- ?app_assoc. apply nt_nls. exact HT.
Qed.
End Neat.

Lemma pieces_neat cfg gr dir edited d ps : wf_doc d = true -> format_pieces cfg gr dir edited d = Some ps -> neat (f_line_ending cfg) ps.
Proof.
  intros HW E. destruct (pieces_layout _ _ _ _ _ _ HW E) as (d' & qs & _ & HW' & HL & ->).
  destruct (nonempty qs); [|exact I]. eapply root_neat; [| |exact HL|exact HW'|split; [reflexivity|exact I]|exact I].
  - intros k p HR. destruct (key_piece_kind _ _ _ HR) as [-> |[-> | ->]]; reflexivity.
  - intros k s p HK HR. destruct (literal_piece_kind _ _ _ _ HR) as [-> |[_ [-> | ->]]]; try reflexivity. exact HK.
Qed.

(** * Lexing the pieces *)
Definition content_ok (p : piece) : Prop :=
  match fst p with
  | COMMENT => is_comment (snd p)
  | BARE_KEY => toml_key (snd p) /\ date_ok (snd p)
  | BRACE_START | BRACE_END | BRACKET_START | BRACKET_END | DOT | EQUAL => exists x, symbol (fst p) = Some x /\ snd p = [x]
  | k => value_text k (snd p)
  end.
Definition contents_ok (ps : list piece) : Prop := Forall content_ok (filter is_content ps).
Lemma contents_inv p ps : contents_ok (p :: ps) -> (is_content p = true -> content_ok p) /\ contents_ok ps.
Proof. unfold contents_ok. cbn [filter]. destruct (is_content p); intros H; [inversion H; auto|]. split; [discriminate|exact H]. Qed.
Inductive toks : cursor -> list piece -> Prop :=
| toks_nil c : rest c = [] -> toks c []
| toks_cons c t c' w ts : advance_token c = Some (inl t, c') -> rest c = w ++ rest c' -> w <> [] -> toks c' ts -> toks c ((tkind t, w) :: ts).
Lemma value_nonempty k w : value_text k w -> w <> [].
Proof.
  intros H ->. assert (HL : always_lexed k [] []) by (apply relex_value; [exact H|exact I|destruct k; exact I]).
  destruct (HL (cursor_new []) eq_refl) as (t & c' & E & _). discriminate.
Qed.
Lemma value_no_white k w : k <> WHITESPACE -> value_text k w -> no_white w.
Proof.
  intros HK H. assert (HL : always_lexed k w []) by (apply relex_value; [exact H|exact I|destruct k; exact I]).
  destruct (lexed_white k w [] (value_nonempty k w H) HL) as [[E _]|[_ E]]; [contradiction|exact E].
Qed.
Definition break_text (w : str) : Prop := w = [10] \/ w = [13; 10].
Lemma no_white_app w s : w <> [] -> no_white w -> no_white (w ++ s).
Proof. destruct w; [contradiction|trivial]. Qed.
Lemma bare_no_white x : bare_char x = true -> is_whitespace x = false.
Proof. unfold bare_char. cls. Qed.
Section Relex.
Context (le : str) (Hle : break_text le).
Lemma head_no_white p ps : neat le (p :: ps) -> contents_ok (p :: ps) -> fst p <> WHITESPACE -> no_white (ptext (p :: ps)).
Proof.
  destruct p as [k w]. intros [HN _] HC HK. apply contents_inv in HC as [HC _]. cbn [fst] in HK. change (ptext ((k, w) :: ps)) with (w ++ ptext ps). unfold content_ok in HC. cbn [fst snd] in HC. unfold is_content in HC. cbn [fst] in HC.
  destruct k; try contradiction; try (specialize (HC eq_refl)); cbn [neat1] in HN.
  all: try (apply no_white_app; [eapply value_nonempty; exact HC|eapply value_no_white; [|exact HC]; discriminate]).
  all: try (destruct HC as (x & E & ->); injection E as <-; reflexivity).
  all: try (destruct HC as (x & -> & _); reflexivity).
  all: try (subst w; reflexivity).
  all: try contradiction.
  - destruct Hle as [E|E]; rewrite HN, E; reflexivity.
  - destruct HC as [[HW HB] _]. destruct w as [|x w]; [contradiction|]. cbn. cbn in HB. apply andb_true_iff in HB as [HB _]. apply bare_no_white. exact HB.
Qed.
Lemma blank_head w : blank_text w -> exists x w', w = x :: w' /\ (x = 32 \/ x = 9) /\ Forall (fun c => c = 32 \/ c = 9) w'.
Proof. intros [HN HF]. destruct w as [|x w']; [contradiction|]. inversion HF; subst. eauto. Qed.
Lemma value_end ps : neat le ps -> contents_ok ps -> after_value ps -> ends_value (ptext ps) /\ forall k, not_continued k (ptext ps).
Proof.
  induction ps as [|[k w] r IH]; intros HN HC HA; [split; [exact I|intros []; exact I]|].
  destruct HN as [HN HNr]. apply contents_inv in HC as [HC HCr]. change (ptext ((k, w) :: r)) with (w ++ ptext r). unfold content_ok, is_content in HC. cbn [fst snd] in HC.
  assert (HX : forall x s, In x [10; 13; 35; 44; 93; 125] -> ends_value (x :: s) /\ forall k, not_continued k (x :: s)).
  { intros x s Hx. cbn in Hx. split; [cbn; tauto|]. intros k0. destruct k0; try exact I. destruct Hx as [<- |[<- |[<- |[<- |[<- |[<- |[]]]]]]]; exact I. }
  destruct k; try contradiction; try (specialize (HC eq_refl)); cbn [neat1] in HN.
  - subst w. apply HX. cbn. tauto.
  - destruct HC as (x & E & ->). injection E as <-. apply HX. cbn. tauto.
  - destruct HC as (x & E & ->). injection E as <-. apply HX. cbn. tauto.
  - destruct (blank_head w HN) as (x & w' & -> & HW & HF). destruct (IH HNr HCr HA) as [H1 H2]. cbn [app]. split; [cbn; destruct HW as [-> | ->]; tauto|].
    intros k0. destruct k0; try exact I. destruct HW as [-> | ->]; [|exact I]. unfold not_continued. destruct w' as [|y w']; cbn [app].
    + destruct (ptext r) as [|y s]; [exact I|]. cbn in H1. repeat (destruct H1 as [<- |H1]; [reflexivity|]). destruct H1.
    + inversion HF as [|? ? HY]; subst. destruct HY as [-> | ->]; reflexivity.
  - destruct Hle as [E|E]; rewrite HN, E; apply HX; cbn; tauto.
  - destruct HC as (b & -> & _). apply HX. cbn. tauto.
Qed.
Lemma key_end ps : neat le ps -> contents_ok ps -> after_key ps -> after_key_text (ptext ps).
Proof.
  induction ps as [|[k w] r IH]; intros HN HC HA; [contradiction|].
  destruct HN as [HN HNr]. apply contents_inv in HC as [HC HCr]. change (ptext ((k, w) :: r)) with (w ++ ptext r). unfold content_ok, is_content in HC. cbn [fst snd] in HC.
  destruct k; try contradiction; try (specialize (HC eq_refl)); cbn [neat1] in HN.
  1, 2, 3: destruct HC as (x & E & ->); injection E as <-; exact I.
  destruct (blank_head w HN) as (x & w' & -> & HW & HF). specialize (IH HNr HCr HA). cbn [app]. destruct HW as [-> | ->]; [|exact I]. unfold after_key_text. destruct w' as [|y w']; cbn [app].
  - destruct (after_key_cases _ IH) as (z & q & -> & HZ). destruct HZ as [-> |[-> |[-> |[-> |[-> _]]]]]; reflexivity.
  - inversion HF as [|? ? HY]; subst. destruct HY as [-> | ->]; reflexivity.
Qed.
Lemma key_not_start q s : after_key_text s -> q = 34 \/ q = 39 -> not_start q s.
Proof. intros H HQ r ->. destruct (after_key_cases _ H) as (x & q' & E & HX). injection E as <- _. destruct HQ as [-> | ->]; intuition discriminate. Qed.
Definition solid (p : piece) : bool := negb (kind_eqb (fst p) WHITESPACE).
Lemma white_span (ps : list piece) : exists b r, ps = b ++ r /\ Forall (fun p : piece => fst p = WHITESPACE) b /\ match r with [] => True | p :: _ => fst p <> WHITESPACE end.
Proof.
  induction ps as [|[k w] r IH]; [exists [], []; auto|]. destruct (kind_eq_dec k WHITESPACE) as [-> |NK].
  - destruct IH as (b & r' & -> & HB & HR). exists ((WHITESPACE, w) :: b), r'. split; [reflexivity|]. split; [constructor; auto|exact HR].
  - exists [], ((k, w) :: r). auto.
Qed.
Lemma neat_app_inv b r : neat le (b ++ r) -> neat le r.
Proof. induction b as [|[k w] b IH]; [trivial|]. intros [_ H]. exact (IH H). Qed.
Lemma csafe_app_inv b r : csafe (b ++ r) -> csafe r.
Proof. induction b as [|[k w] b IH]; [trivial|]. intros [_ H]. exact (IH H). Qed.
Lemma contents_app_inv b r : contents_ok (b ++ r) -> contents_ok r.
Proof. unfold contents_ok. rewrite filter_app. intros H. apply Forall_app in H. apply H. Qed.
Lemma white_text (b r : list piece) : neat le (b ++ r) -> Forall (fun p : piece => fst p = WHITESPACE) b -> forallb is_whitespace (ptext b) = true /\ (b <> [] -> ptext b <> []) /\ filter solid (b ++ r) = filter solid r.
Proof.
  induction b as [|[k w] b IH]; intros HN HF; [split; [reflexivity|split; [contradiction|reflexivity]]|]. inversion HF as [|? ? HK HF']; subst. cbn in HK. subst k. destruct HN as [HN HR].
  destruct (IH HR HF') as (H1 & _ & H3). cbn [neat1] in HN. destruct (blank_head w HN) as (x & w' & -> & HX & HW). change (ptext ((WHITESPACE, x :: w') :: b)) with ((x :: w') ++ ptext b).
  split; [|split; [discriminate|exact H3]]. rewrite forallb_app, H1, andb_true_r. apply forallb_forall. intros y [<- |Hy]; [destruct HX as [-> | ->]; reflexivity|]. rewrite Forall_forall in HW. destruct (HW y Hy) as [-> | ->]; reflexivity.
Qed.
Lemma solid_cons k w r : k <> WHITESPACE -> filter solid ((k, w) :: r) = (k, w) :: filter solid r.
Proof. intros H. cbn [filter]. unfold solid at 1. cbn [fst]. rewrite (proj2 (kind_eqb_neq k WHITESPACE) H). reflexivity. Qed.
Lemma nostop_bare w : forallb bare_char w = true -> forallb (fun c => negb (is_token_separator_with_dot c)) w = true.
Proof. apply forallb_impl. unfold bare_char. cls. Qed.
Lemma nostop_tail w : forallb float_tail w = true -> forallb (fun c => negb (is_token_separator_with_dot c)) w = true.
Proof. apply forallb_impl. unfold float_tail. cls. Qed.
Lemma same_split v s w r : forallb (fun c => negb (is_token_separator_with_dot c)) v = true -> forallb (fun c => negb (is_token_separator_with_dot c)) w = true ->
  dot_start s -> dot_start r -> v ++ s = w ++ r -> v = w /\ s = r.
Proof.
  intros HV HW HS HR E. destruct (prefix_stop is_token_separator_with_dot v s w r HV HR E) as (u1 & E1). destruct (prefix_stop is_token_separator_with_dot w r v s HW HS (eq_sym E)) as (u2 & E2).
  rewrite E1 in E2. rewrite <- (app_nil_r v) in E2 at 1. rewrite <- app_assoc in E2. apply app_inv_head in E2. symmetry in E2. apply app_eq_nil in E2 as [-> _]. rewrite app_nil_r in E1. subst w. split; [reflexivity|]. apply app_inv_head in E. exact E.
Qed.
(** The tokens [ts] are the written pieces [ps]: a run of blanks is one token, a key may be one of another kind, and two
    keys around a dot may be one number. *)
Inductive respaced : list piece -> list piece -> Prop :=
| rs_nil : respaced [] []
| rs_blank w b ts ps : b <> [] -> Forall (fun p : piece => fst p = WHITESPACE) b -> respaced ts ps -> respaced ((WHITESPACE, w) :: ts) (b ++ ps)
| rs_same k w ts ps : k <> WHITESPACE -> respaced ts ps -> respaced ((k, w) :: ts) ((k, w) :: ps)
| rs_key k w ts ps : key_like k -> ~ In 46 w -> respaced ts ps -> respaced ((k, w) :: ts) ((BARE_KEY, w) :: ps)
| rs_keys u v ts ps : ~ In 46 u -> ~ In 46 v -> respaced ts ps -> respaced ((FLOAT, u ++ [46] ++ v) :: ts) ((BARE_KEY, u) :: (DOT, [46]) :: (BARE_KEY, v) :: ps).
Lemma respaced_reading ts ps : respaced ts ps -> reading (filter solid ts) (filter solid ps).
Proof.
  induction 1 as [|w b ts ps NE HF H IH|k w ts ps NK H IH|k w ts ps HK HD H IH|u v ts ps HU HV H IH]; [constructor| | | |].
  - assert (E : filter solid (b ++ ps) = filter solid ps).
    { clear - HF. induction HF as [|p b HP HF IHF]; [reflexivity|]. cbn [app filter]. unfold solid at 1. rewrite HP. exact IHF. }
    rewrite E. exact IH.
  - rewrite !solid_cons by exact NK. constructor. exact IH.
  - rewrite !solid_cons; [|discriminate|]; [|intros ->; cbn in HK; intuition discriminate]. apply reading_key; auto.
  - rewrite !solid_cons by discriminate. apply reading_keys; auto.
Qed.
Lemma relexed : forall n ps, (length ps <= n)%nat -> neat le ps -> csafe ps -> contents_ok ps -> forall c, rest c = ptext ps ->
  exists ts, toks c ts /\ respaced ts ps.
Proof.
  induction n as [|n IH]; intros ps HL HN HS HC c HR.
  { destruct ps; [|cbn in HL; lia]. exists []. split; [constructor; exact HR|constructor]. }
  destruct (white_span ps) as (b & r' & -> & HB & HR'). assert (DB : b = [] \/ b <> []) by (destruct b; [auto|right; discriminate]). destruct DB as [EB|NB].
  2: {
    destruct (white_text b r' HN HB) as (T1 & T2 & T3). unfold ptext in HR. rewrite flat_map_app in HR. fold (ptext b) in HR. fold (ptext r') in HR.
    pose proof (neat_app_inv _ _ HN) as HN'. pose proof (contents_app_inv _ _ HC) as HC'.
    assert (NW : no_white (ptext r')). { destruct r' as [|p q]; [exact I|]. apply head_no_white; auto. }
    destruct (blank_lexed (ptext b) (ptext r') (T2 NB) T1 NW c HR) as (t & c' & A1 & A2 & A3).
    destruct (IH r') with (c := c') as (ts & K1 & K2); auto.
    - rewrite app_length in HL. destruct b; [contradiction|]. cbn in HL. lia.
    - exact (csafe_app_inv _ _ HS).
    - exists ((tkind t, ptext b) :: ts). split.
      + apply (toks_cons c t c'); auto. rewrite A3. exact HR.
      + rewrite A2. apply rs_blank; auto. }
  subst b. cbn [app] in *. destruct r' as [|[k w] r]; [exists []; split; [constructor; exact HR|constructor]|]. rename HR' into NW. cbn [fst] in NW.
  assert (STEP : forall w' r', ptext ((k, w) :: r) = w' ++ ptext r' -> w' <> [] -> forall k', k' <> WHITESPACE -> lexed_as c k' (ptext r') -> (length r' <= n)%nat -> neat le r' -> csafe r' -> contents_ok r' ->
    exists ts, toks c ((k', w') :: ts) /\ respaced ts r').
  { intros w' r' E NE k' NK (t & c' & A1 & A2 & A3) HL' HN' HS' HC'. destruct (IH r' HL' HN' HS' HC' c' A3) as (ts & K1 & K2). exists ts. split; [|exact K2]. rewrite <- A2. apply (toks_cons c t c'); auto. rewrite A3. etransitivity; [exact HR|exact E]. }
  pose proof HN as [HN1 HNr]. pose proof HS as [HS1 HSr]. pose proof (contents_inv _ _ HC) as [HC1 HCr]. assert (HLr : (length r <= n)%nat) by (cbn in HL; lia).
  assert (SAME : w <> [] -> always_lexed k w (ptext r) -> exists ts, toks c ts /\ respaced ts ((k, w) :: r)).
  { intros NE HA. destruct (STEP w r eq_refl NE k NW (HA c HR) HLr HNr HSr HCr) as (ts & K1 & K2). exists ((k, w) :: ts). split; [exact K1|]. apply rs_same; [exact NW|exact K2]. }
  unfold content_ok, is_content in HC1. cbn [fst snd] in HC1.
  assert (VALUE : value_text k w -> after_value r -> exists ts, toks c ts /\ respaced ts ((k, w) :: r)).
  { intros HV HA. destruct (value_end r HNr HCr HA) as [V1 V2]. apply SAME; [exact (value_nonempty _ _ HV)|]. apply relex_value; auto. }
  destruct k; try contradiction; try (specialize (HC1 eq_refl)); cbn [neat1] in HN1.
  all: try contradiction.
  all: try (destruct HC1 as (x & E & ->); apply SAME; [discriminate|apply symbol_lexed; exact E]).
  all: try (apply VALUE; [exact HC1|exact HN1]).
  - subst w. apply SAME; [discriminate|]. apply symbol_lexed. reflexivity.
  - apply SAME; [exact (value_nonempty _ _ HC1)|]. apply relex_basic; [exact HC1|]. destruct HN1 as [HA|HA].
    + apply key_not_start; [apply key_end; auto|auto].
    + apply ends_not_start; [apply value_end; auto|cbn; intuition discriminate].
  - apply SAME; [exact (value_nonempty _ _ HC1)|]. apply relex_literal; [exact HC1|]. destruct HN1 as [HA|HA].
    + apply key_not_start; [apply key_end; auto|auto].
    + apply ends_not_start; [apply value_end; auto|cbn; intuition discriminate].
  - subst w. apply SAME; [destruct Hle as [-> | ->]; discriminate|]. apply break_lexed. exact Hle.
  - apply SAME; [destruct HC1 as (b & -> & _); discriminate|]. apply comment_lexed; [exact HC1|]. specialize (HS1 eq_refl). destruct r as [|[k' w'] r]; [exact I|]. subst k'.
    destruct HNr as [HW _]. cbn [neat1] in HW. subst w'. change (ptext ((LINE_BREAK, le) :: r)) with (le ++ ptext r). destruct Hle as [-> | ->]; cbn; auto.
  - destruct HC1 as [HK HD]. pose proof (key_end r HNr HCr HN1) as HE. pose proof HK as [NE HBw].
    destruct (relex_key c w (ptext r) HK HD HE HR) as [(k & Hk & HA)|(v & s' & E & Hs' & NV & HV & HA)].
    + assert (NK : k <> WHITESPACE) by (intros ->; cbn in Hk; intuition discriminate).
      destruct (STEP w r eq_refl NE k NK HA HLr HNr HSr HCr) as (ts & K1 & K2). exists ((k, w) :: ts). split; [exact K1|].
      destruct Hk as [<- |Hk]; [apply rs_same; [discriminate|exact K2]|]. apply rs_key; [exact Hk|apply bare_no_dot; exact HBw|exact K2].
    + destruct r as [|[k1 w1] r1]; [contradiction|]. assert (k1 = DOT /\ w1 = [46]) as [-> ->].
      { pose proof (contents_inv _ _ HCr) as [HC2 _]. unfold content_ok, is_content in HC2. cbn [fst snd] in HC2. destruct HNr as [HN2 _]. change (ptext ((k1, w1) :: r1)) with (w1 ++ ptext r1) in E.
        destruct k1; try contradiction; try (specialize (HC2 eq_refl)).
        1, 2, 3: destruct HC2 as (x & E2 & ->); injection E2 as <-; try discriminate; auto.
        cbn [neat1] in HN2. destruct (blank_head w1 HN2) as (x & q & -> & [-> | ->] & _); discriminate. }
      destruct HNr as [HN2 HN3]. cbn [neat1] in HN2. destruct r1 as [|[k3 w3] r3]; [contradiction|]. cbn [next_key] in HN2.
      pose proof (contents_inv _ _ HCr) as [_ HC3]. pose proof (contents_inv _ _ HC3) as [HC4 HC5]. unfold content_ok, is_content in HC4. cbn [fst snd] in HC4.
      change (ptext ((DOT, [46]) :: (k3, w3) :: r3)) with (46 :: w3 ++ ptext r3) in E. injection E as E.
      assert (k3 = BARE_KEY).
      { destruct v as [|y v]; [contradiction|]. cbn in HV. apply andb_true_iff in HV as [HY _]. destruct k3; try discriminate; [| |reflexivity]; specialize (HC4 eq_refl); destruct HC4 as (u & -> & _); cbn in E; injection E as <- _; discriminate. }
      subst k3. destruct (HC4 eq_refl) as [[NE3 HB3] _]. destruct HN3 as [HN4 HN5]. cbn [neat1] in HN4.
      assert (EV : v = w3 /\ s' = ptext r3).
      { apply same_split; [apply nostop_tail; exact HV|apply nostop_bare; exact HB3|apply sep_dot; exact Hs'|apply after_dot_start, key_end; assumption|symmetry; exact E]. }
      destruct EV as [-> ->].
      destruct (STEP (w ++ 46 :: w3) r3) with (k' := FLOAT) as (ts & K1 & K2); auto.
      * change (ptext ((BARE_KEY, w) :: (DOT, [46]) :: (BARE_KEY, w3) :: r3)) with (w ++ 46 :: w3 ++ ptext r3). rewrite <- app_assoc. reflexivity.
      * destruct w; discriminate.
      * discriminate.
      * cbn in HLr. lia.
      * cbn in HSr. tauto.
      * exists ((FLOAT, w ++ 46 :: w3) :: ts). split; [exact K1|]. apply (rs_keys w w3); [apply bare_no_dot; exact HBw|apply bare_no_dot; exact HB3|exact K2].
Qed.
End Relex.

(** * The tokens of the text *)
Lemma F2_impl {A B} (P Q : A -> B -> Prop) l l' : (forall a b, P a b -> Q a b) -> Forall2 P l l' -> Forall2 Q l l'.
Proof. intros H. induction 1; constructor; auto. Qed.
Lemma toks_tokenize : forall c ts, toks c ts -> forall b fuel, at_pos b c -> (length (rest c) < fuel)%nat ->
  rest c = ptext ts /\ exists rs c', tokenize fuel c = Some (rs, c') /\
    Forall2 (fun p r => exists t b' s, r = inl t /\ tkind t = fst p /\ b ++ rest c = b' ++ snd p ++ s /\ tspan t = MkSpan (len_bytes b') (len_bytes (b' ++ snd p))) ts rs.
Proof.
  induction 1 as [c HR|c t c' w ts HA HR NE HT IH]; intros b fuel HP HF.
  - split; [exact HR|]. destruct fuel as [|fuel]; [lia|]. exists [], c. split; [|constructor]. cbn [tokenize]. destruct (advance_token c) as [[r c1]|] eqn:E; [|reflexivity].
    destruct (advance_token_lexes _ _ _ E) as (x & u & [L1 _ _ _ _ _ _ _]). rewrite HR in L1. discriminate.
  - destruct fuel as [|fuel]; [lia|]. destruct (advance_token_lexes _ _ _ HA) as (x & u & [L1 L2 L3 L4 L5 L6 L7 L8]). cbn [fst snd] in *.
    assert (EW : x :: u = w) by (rewrite L1 in HR; apply app_inv_tail in HR; exact HR). rewrite EW in *. destruct HP as (A1 & A2 & A3 & A4).
    assert (HA1 : at_pos (b ++ w) c').
    { repeat split; auto.
      - rewrite L2, A1, len_bytes_app. reflexivity.
      - rewrite L3, A2, position_after_app. reflexivity. }
    destruct (IH (b ++ w) fuel HA1) as (E1 & rs & c2 & E2 & E3).
    { rewrite HR, app_length in HF. destruct w; [contradiction|]. cbn in HF. lia. }
    split; [rewrite HR, E1; reflexivity|]. exists (inl t :: rs), c2. split; [cbn [tokenize]; rewrite HA, E2; reflexivity|]. constructor.
    + exists t, b, (rest c'). split; [reflexivity|]. split; [reflexivity|]. split; [rewrite HR; reflexivity|]. cbn in L6. rewrite L6. destruct HA1 as (B1 & _). rewrite B1, A3, A1. reflexivity.
    + eapply F2_impl; [|exact E3]. intros p r (t0 & b' & s & H1 & H2 & H3 & H4). exists t0, b', s. split; [exact H1|]. split; [exact H2|]. split; [rewrite HR, app_assoc; exact H3|exact H4].
Qed.
Lemma toks_lex seg source ts : seg [] = [] -> toks (cursor_new source) ts ->
  source_pieces seg source = ts ++ [(EOF, [])] /\ exists l, lex seg source = Some l /\ errors l = [].
Proof.
  intros Hs HT. destruct (toks_tokenize _ _ HT [] (S (length source))) as (_ & rs & c' & E & HF); [repeat split|cbn; lia|].
  unfold source_pieces. destruct (lex_correct seg source Hs) as (l & HL & _). rewrite HL. unfold lex in HL. rewrite E in HL.
  assert (HA : at_pos [] (cursor_new source)) by (repeat split; reflexivity).
  destruct (tokenize_covers _ _ _ _ _ E HA) as (ws & W1 & W2 & W3 & W4 & W5 & W6). change (coff (cursor_new source)) with 0 in W5. cbn [rest cursor_new app] in W1, W4, W5.
  rewrite W5, drop_bytes_all, Hs in HL. injection HL as <-. cbn [tokens errors].
  destruct (push_fold rs (MkLexed [] [] Lf)) as [P1 P2]. cbn [tokens errors app] in P1, P2. rewrite P1.
  change (rest (cursor_new source)) with source in HF. cbn [app] in HF.
  split.
  - rewrite map_app. f_equal.
    + clear - HF. induction HF as [|[k w] r ts rs (t & b & s & -> & H2 & H3 & H4) HF IH]; [reflexivity|]. cbn [map result_token]. rewrite IH. f_equal. cbn [fst snd] in *. rewrite H2, H4, H3, slice_app. reflexivity.
    + cbn. do 2 f_equal. pose proof (slice_app source [] []) as HS. rewrite !app_nil_r in HS. rewrite HS. reflexivity.
  - eexists. split; [reflexivity|]. cbn [errors]. rewrite P2. clear - HF. induction HF as [|[k w] r ts rs (t & b & s & -> & H2 & H3 & H4) HF IH]; [reflexivity|]. exact IH.
Qed.
Lemma toks_no_eof c ts : toks c ts -> Forall (fun p : piece => fst p <> EOF) ts.
Proof. induction 1 as [|c t c' w ts HA _ _ _ IH]; constructor; [|exact IH]. destruct (advance_token_lexes _ _ _ HA) as (x & u & [_ _ _ _ _ _ _ L8]). cbn in L8. apply L8. Qed.

(** * The tokens of the document *)
Lemma lex_token_lexable seg source l t : lex seg source = Some l -> In t (tokens l) -> tkind t <> EOF -> tkind t <> INVALID_TOKEN ->
  exists w, slice source (tspan t) = Some w /\ lexable (tkind t) w.
Proof.
  intros HL Ht Hk Hi. destruct (lex_token_from _ _ _ _ HL Ht Hk) as (b & c1 & r & c2 & w & H1 & H2 & H3 & H4 & H5 & H6 & H7).
  exists w. split; [rewrite H7, H2, H5; apply slice_app|]. destruct r as [t0|e]; cbn in H4; subst t; [|exfalso; apply Hi; reflexivity].
  exists c1, (rest c2). split; [exact H5|]. exists t0, c2. auto.
Qed.
Definition from_text (p : piece) : Prop := fst p = INVALID_TOKEN \/ lexable (fst p) (snd p).
Lemma source_from_text seg source : Forall from_text (source_content seg source).
Proof.
  apply Forall_forall. intros p Hp. apply filter_In in Hp as [Hp HE]. apply andb_true_iff in HE as [_ HE]. apply negb_true_iff in HE. apply kind_eqb_neq in HE.
  unfold source_pieces in Hp. destruct (lex seg source) as [l|] eqn:EL; [|destruct Hp]. apply in_map_iff in Hp as (t & <- & Ht). cbn [fst snd] in *. unfold from_text. cbn [fst snd].
  destruct (kind_eq_dec (tkind t) INVALID_TOKEN) as [|NI]; [auto|]. right. destruct (lex_token_lexable seg source l t EL Ht HE NI) as (w & -> & HW). exact HW.
Qed.
Definition doc_token (p : piece) : Prop := from_text p \/ p = (DOT, [46]) \/ (fst p = BARE_KEY /\ date_ok (snd p)).
Lemma reading_tokens ps qs : reading ps qs -> Forall from_text ps -> Forall doc_token qs.
Proof.
  induction 1 as [|p ps qs H IH|k w ps qs HK HD H IH|u v ps qs HU HV H IH]; intros HF; [constructor|inversion HF as [|? ? H1 H2]; subst..].
  - constructor; [left; exact H1|exact (IH H2)].
  - constructor; [|exact (IH H2)]. right. right. split; [reflexivity|]. destruct H1 as [H1|H1]; [cbn in H1; subst k; cbn in HK; intuition discriminate|]. exact (date_ok_like k w HK H1).
  - destruct H1 as [H1|H1]; [discriminate|]. destruct (date_ok_parts u v HU H1) as [D1 D2].
    constructor; [right; right; auto|]. constructor; [right; left; reflexivity|]. constructor; [right; right; auto|exact (IH H2)].
Qed.
(** A token written for a token of the document can be lexed again. *)
Lemma symbol_text k x w : symbol k = Some x -> text_ok k w -> w = [x].
Proof. destruct k; intros E H; try discriminate; injection E as <-; exact H. Qed.
Lemma written_ok p q : good_token p -> doc_token p -> (fst p = BARE_KEY -> toml_key (snd p)) -> same_token p q -> is_content q = true -> content_ok q.
Proof.
  destruct p as [k w], q as [k' w']. intros HG HD HK HS HC. unfold good_token, same_token, is_content, content_ok in *. cbn [fst snd] in *.
  assert (HT : k <> BARE_KEY -> text_ok k w) by (intros N; destruct HG; [contradiction|assumption]).
  assert (HLX : k <> BARE_KEY -> k <> INVALID_TOKEN -> k <> DOT -> lexable k w).
  { intros N1 N2 N3. destruct HD as [[E|H]|[E|[E _]]]; [contradiction|exact H|injection E as -> ->; contradiction|contradiction]. }
  assert (HSY : forall x, symbol k = Some x -> (k', w') = (k, w) -> match fst (k', w') with COMMENT => is_comment w' | BARE_KEY => toml_key w' /\ date_ok w'
    | BRACE_START | BRACE_END | BRACKET_START | BRACKET_END | DOT | EQUAL => exists x, symbol (fst (k', w')) = Some x /\ w' = [x] | k => value_text k w' end \/ k = COMMA).
  { intros x Hx E. injection E as -> ->. cbn [fst]. destruct k; try discriminate Hx; try (right; reflexivity); left; exists x; (split; [exact Hx|]); apply (symbol_text _ x _ Hx); apply HT; discriminate. }
  assert (HV : forall kk, kk = k -> literal_kind kk = true -> (k', w') = (k, w) -> value_text k' w').
  { intros kk -> Hl E. injection E as -> ->. apply value_lexable; [exact Hl|]. apply HLX; intros ->; discriminate. }
  destruct k; cbn [fst] in HSY;
    try (destruct (HSY _ eq_refl HS) as [H|H]; [exact H|discriminate H]);
    try (pose proof (HV _ eq_refl eq_refl HS) as H; injection HS as -> ->; exact H);
    try (injection HS as -> ->; exfalso; apply HT; discriminate).
  all: try (injection HS as -> ->; discriminate HC).
  all: try (destruct HS as ([-> | ->] & HS & _); exact HS).
  all: try (injection HS as -> ->; split; [exact (HK eq_refl)|]; destruct HD as [[H|H]|[H|[_ H]]]; [discriminate H|exact (date_ok_key w H)|discriminate H|exact H]).
  3: { destruct HS as (-> & HS & _). exact HS. }
  all: destruct HS as (-> & a & x & x' & b & -> & -> & HL & _ & HX); apply (date_time_redelim _ a x x' b); [apply date_time_lexable; [auto|apply HLX; discriminate]|exact HL|unfold date_time_delimiter in HX; unfold delim; lia].
Qed.
Lemma contents_written cfg gr dir edited d ps : one_line dir -> wf_doc d = true -> good_tokens (doc_content d) -> Forall doc_token (doc_content d) ->
  (forall w, In (BARE_KEY, w) (doc_content d) -> toml_key w) -> format_pieces cfg gr dir edited d = Some ps -> contents_ok ps.
Proof.
  intros HD HW HG HT HK E. pose proof (C31_content_kept cfg gr dir edited d ps HD HW HG E) as H. unfold contents_ok, good_tokens in *.
  assert (HC : forall q, In q (filter is_content ps) -> is_content q = true) by (intros q Hq; apply filter_In in Hq; apply Hq).
  revert HG HT HK HC H. generalize (filter is_content ps) as qs. generalize (doc_content d) as ds. intros ds qs HG HT HK HC H.
  induction H as [|p q ds qs H1 H2 IH]; [constructor|]. inversion HG; inversion HT; subst. constructor.
  - apply (written_ok p q); auto; [|apply HC; left; reflexivity]. destruct p as [k w]. cbn [fst snd]. intros ->. apply HK. left. reflexivity.
  - apply IH; auto; [intros w Hw; apply HK; right; exact Hw|intros z Hz; apply HC; right; exact Hz].
Qed.
Lemma reading_filter (f : kind -> bool) ps qs : (forall k, key_like k -> f k = f BARE_KEY) -> f BARE_KEY = true -> f DOT = true ->
  reading ps qs -> reading (filter (fun p => f (fst p)) ps) (filter (fun p => f (fst p)) qs).
Proof.
  intros HF HB HD. induction 1 as [|p ps qs H IH|k w ps qs HK HN H IH|u v ps qs HU HV H IH]; cbn [filter fst]; [constructor| | |].
  - destruct (f (fst p)); [constructor|]; exact IH.
  - rewrite (HF k HK), HB. apply reading_key; assumption.
  - rewrite (HF FLOAT), HB, HD by (cbn; tauto). apply reading_keys; assumption.
Qed.
