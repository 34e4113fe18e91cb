(** Final theorems about the TOML parser (C06, C07). *)
From Coq Require Import String Ascii List NArith Bool Arith Lia.
From Verif Require Import Base SyntaxKind TextModel Regex LexerModel LexerSpec LexerProofs TomlGrammar LexScalars LexSound LexNumbers
  LexerProps ParserModel ParserInv ParserPrims ParserGrammar ParserValues ParserBuild ParserDepth.
Import ListNotations.
Open Scope N_scope.
Open Scope list_scope.

(** * Specification *)

(** A float token with a decimal point, like [1.5]. *)
Definition point_float (source : str) (t : token) : Prop :=
  tkind t = FLOAT /\ exists w, slice source (tspan t) = Some w /\ In 46 w.

(** A float token with a decimal point that comes after blanks only, either from the start of the text or
    from another float token with a decimal point. *)
Definition float_after_blanks (source : str) (ts : list token) : Prop :=
  exists a blanks t b, ts = a ++ blanks ++ t :: b /\ blanks <> [] /\ Forall (fun t => tkind t = WHITESPACE) blanks /\
    point_float source t /\ (a = [] \/ exists a' t', a = a' ++ [t'] /\ point_float source t').

(** * The lexer's tokens meet the parser's invariant *)
Fixpoint max_dots (r : re) : option nat :=
  match r with
  | REmp | REps => Some 0%nat
  | RCls p => Some (if p 46 then 1%nat else 0%nat)
  | RSeq a b => match max_dots a, max_dots b with Some x, Some y => Some (x + y)%nat | _, _ => None end
  | RAlt a b => match max_dots a, max_dots b with Some x, Some y => Some (Nat.max x y) | _, _ => None end
  | RStar a => match max_dots a with Some 0%nat => Some 0%nat | _ => None end
  end.
Lemma dots_app a b : dots (a ++ b) = (dots a + dots b)%nat.
Proof. unfold dots. rewrite filter_app, app_length. reflexivity. Qed.
Lemma max_dots_ok r w n : lang r w -> max_dots r = Some n -> (dots w <= n)%nat.
Proof.
  intros H. revert n. induction H; intros n HM; cbn [max_dots] in HM.
  - apply Nat.le_0_l.
  - unfold dots. cbn [filter]. destruct (N.eqb_spec 46 c) as [<-|Hc]; [rewrite H in HM; inversion HM; simpl; lia|apply Nat.le_0_l].
  - destruct (max_dots a); [|discriminate]. destruct (max_dots b); [|discriminate]. inversion HM; subst.
    rewrite dots_app. specialize (IHlang1 _ eq_refl). specialize (IHlang2 _ eq_refl). lia.
  - destruct (max_dots a); [|discriminate]. destruct (max_dots b); [|discriminate]. inversion HM; subst.
    specialize (IHlang _ eq_refl). lia.
  - destruct (max_dots a); [|discriminate]. destruct (max_dots b); [|discriminate]. inversion HM; subst.
    specialize (IHlang _ eq_refl). lia.
  - apply Nat.le_0_l.
  - cbn [max_dots] in IHlang2. destruct (max_dots a) as [[|x]|]; try discriminate. inversion HM; subst.
    rewrite dots_app. specialize (IHlang1 _ eq_refl). specialize (IHlang2 _ eq_refl). lia.
Qed.

Lemma take_bytes_text n s : take_bytes n s = text_take n s.
Proof. revert n. induction s as [|c s IH]; intros n; [reflexivity|]. cbn [take_bytes text_take]. rewrite IH. reflexivity. Qed.
Lemma slice_text source sp : sstart sp <= send sp -> slice source sp = text_slice source (sstart sp) (send sp).
Proof.
  intros H. unfold slice, text_slice. destruct (N.ltb_spec (send sp) (sstart sp)); [lia|].
  destruct (drop_bytes (sstart sp) source); [|reflexivity]. apply take_bytes_text.
Qed.

Lemma covers_tiles b s ts : covers b s ts -> tiles b s ts.
Proof. induction 1; constructor; auto. Qed.
Lemma covers_span b s ts t : covers b s ts -> In t ts -> sstart (tspan t) <= send (tspan t).
Proof.
  intros H Hin. destruct (covers_in _ _ _ _ H Hin) as (p & w & q & _ & E & _). rewrite E. simpl. rewrite len_bytes_app. lia.
Qed.

Lemma float_dots k w : k = FLOAT -> text_ok k w -> (dots w <= 1)%nat.
Proof.
  intros -> (sg & u & -> & Hs & Hu). rewrite dots_app.
  assert (dots sg = 0%nat) as -> by (destruct Hs as [->|[-> | ->]]; reflexivity).
  destruct Hu as [Hu|[-> | ->]]; [|apply Nat.le_0_l|apply Nat.le_0_l]. apply (max_dots_ok _ _ 1%nat Hu). reflexivity.
Qed.

Lemma dotted_meaning source t : sstart (tspan t) <= send (tspan t) -> dotted source t = true -> point_float source t.
Proof.
  intros HS H. unfold dotted in H. apply andb_true_iff in H as [H1 H2]. apply kind_eqb_eq in H1. split; [exact H1|].
  rewrite <- slice_text in H2 by exact HS. destruct (slice source (tspan t)) as [w|]; [|discriminate].
  exists w. split; [reflexivity|]. apply existsb_exists in H2 as (x & Hx & E). apply N.eqb_eq in E. subst x. exact Hx.
Qed.

Lemma hazard_meaning source ts : forall a blanks,
  Forall (fun t => tkind t = WHITESPACE) blanks ->
  (forall t, In t (a ++ blanks ++ ts) -> sstart (tspan t) <= send (tspan t)) ->
  hazard source (match a with [] => true | _ => dotted source (last a token_eof) end) (match blanks with [] => false | _ => true end) ts = true ->
  float_after_blanks source (a ++ blanks ++ ts).
Proof.
  induction ts as [|t ts IH]; intros a blanks HB HS HH; [discriminate|]. cbn [hazard] in HH.
  destruct (triv t) eqn:ET.
  - apply kind_eqb_eq in ET.
    replace (a ++ blanks ++ t :: ts) with (a ++ (blanks ++ [t]) ++ ts) in * by (rewrite <- !app_assoc; reflexivity).
    apply IH; auto.
    + apply Forall_app; auto.
    + destruct (blanks ++ [t]) eqn:E; [destruct blanks; discriminate|]. exact HH.
  - assert (hazard source (dotted source t) false ts = true -> float_after_blanks source (a ++ blanks ++ t :: ts)) as HG.
    { intros HH2. replace (a ++ blanks ++ t :: ts) with ((a ++ blanks ++ [t]) ++ [] ++ ts) in * by (rewrite <- !app_assoc; reflexivity).
      apply IH; auto.
      replace (last (a ++ blanks ++ [t]) token_eof) with t by (rewrite app_assoc, last_last; reflexivity).
      destruct (a ++ blanks ++ [t]) eqn:E; [destruct a; [destruct blanks|]; discriminate|]. exact HH2. }
    destruct (dotted source t) eqn:ED; [|apply HG; exact HH].
    apply orb_true_iff in HH as [HH|HH]; [|apply HG; exact HH].
    apply andb_true_iff in HH as [H1 H2]. exists a, blanks, t, ts. split; [reflexivity|].
    split; [destruct blanks; discriminate|]. split; [exact HB|].
    split; [apply dotted_meaning; auto; apply HS; apply in_or_app; right; apply in_or_app; right; left; reflexivity|].
    destruct a as [|x a]; [left; reflexivity|right]. exists (removelast (x :: a)), (last (x :: a) token_eof).
    split; [apply app_removelast_last; discriminate|]. apply dotted_meaning; auto. apply HS. apply in_or_app. left.
    rewrite (app_removelast_last token_eof) at 2 by discriminate. apply in_or_app. right. left. reflexivity.
Qed.

Lemma dotted_of source t : point_float source t -> dotted source t = true.
Proof.
  intros (HK & w & HS & Hin). unfold dotted. rewrite HK, kind_eqb_refl. cbn [andb].
  destruct (N.ltb_spec (send (tspan t)) (sstart (tspan t))) as [HL|HL].
  - exfalso. unfold slice in HS. replace (send (tspan t) - sstart (tspan t)) with 0 in HS by lia.
    destruct (drop_bytes (sstart (tspan t)) source) as [s|]; [|discriminate]. destruct s; inversion HS; subst; contradiction.
  - rewrite <- slice_text by exact HL. rewrite HS. apply existsb_exists. exists 46. auto.
Qed.
Lemma hazard_blanks source w ws t b : Forall (fun t => tkind t = WHITESPACE) ws -> dotted source t = true ->
  (w = true \/ ws <> []) -> hazard source true w (ws ++ t :: b) = true.
Proof.
  intros HF HD. revert w. induction HF as [|x ws Hx _ IH]; intros w Hw; cbn [app hazard].
  - destruct Hw as [->|Hw]; [|contradiction]. rewrite HD.
    unfold dotted in HD. apply andb_true_iff in HD as [HD _]. apply kind_eqb_eq in HD. unfold triv. rewrite HD. reflexivity.
  - unfold triv at 1. rewrite Hx. cbn [is_trivia kind_eqb]. apply IH. left; reflexivity.
Qed.
Lemma hazard_iff source ts : float_after_blanks source ts -> hazard source true false ts = true.
Proof.
  intros (a & ws & t & b & -> & Hne & HF & Ht & Ha). apply dotted_of in Ht.
  destruct Ha as [->|(a' & t' & -> & Ht')]; [apply hazard_blanks; auto|]. apply dotted_of in Ht'.
  rewrite <- app_assoc.
  enough (forall o w, hazard source o w (a' ++ [t'] ++ ws ++ t :: b) = true) as HE by apply HE. induction a' as [|x a' IH]; intros o w; cbn [app hazard].
  - rewrite Ht'. replace (triv t') with false.
    + apply orb_true_iff. right. apply hazard_blanks; auto.
    + unfold dotted in Ht'. apply andb_true_iff in Ht' as [HD _]. apply kind_eqb_eq in HD. unfold triv. rewrite HD. reflexivity.
  - destruct (triv x); [apply IH|]. destruct (dotted source x); [|apply IH]. apply orb_true_iff. right. apply IH.
Qed.

Lemma start_wf seg source l : seg [] = [] -> lex seg source = Some l -> ~ float_after_blanks source (tokens l) ->
  wf (parser_new source (tokens l)).
Proof.
  intros Hs HL HN. destruct (lex_correct seg source Hs) as (l' & HL' & ts & eof & H1 & H2 & H3 & H4 & H5).
  assert (l' = l) by congruence. subst l'. split; cbn [parser_new p_rest p_src p_depth].
  - exists ts, eof. split; [exact H1|]. split; [exact H2|]. apply Forall_forall. intros t Ht. rewrite Forall_forall in H3.
    specialize (H3 t Ht). split; [exact H3|].
    destruct (kind_eqb (tkind t) INVALID_TOKEN) eqn:EI; [apply kind_eqb_eq in EI; rewrite EI; reflexivity|].
    apply kind_eqb_neq in EI. destruct (lex_token_text seg source l t HL) as (w & _ & HT); auto.
    + rewrite H1. apply in_or_app. auto.
    + destruct (tkind t); try reflexivity; contradiction HT.
  - exists [], source. split; [reflexivity|]. apply covers_tiles. exact H4.
  - intros t w Hin HK HW. rewrite <- slice_text in HW by (eapply covers_span; eauto).
    destruct (lex_token_text seg source l t HL Hin) as (w' & E & HT); [rewrite HK; discriminate|rewrite HK; discriminate|].
    assert (w' = w) by congruence. subst. eapply float_dots; eauto.
  - destruct (hazard source true false (tokens l)) eqn:EH; [|exists true; split; [destruct (tokens l); auto|exact EH]].
    exfalso. apply HN. apply (hazard_meaning source (tokens l) [] []); auto.
    intros t Hin. eapply covers_span; eauto.
  - apply Nat.le_0_l.
Qed.

(** * The parser as a whole *)
Lemma parse_proof seg source l stack : seg [] = [] -> lex seg source = Some l -> ~ float_after_blanks source (tokens l) ->
  (MAX_RECURSION_DEPTH < stack)%nat ->
  exists tr cs, parse seg stack source = Done (TNode ROOT cs, map (fun e => PErr (FromLexer (ekind e)) (erange e)) (errors l) ++ flat_map errs tr) /\
    grown tr cs /\ ttexts cs = source /\ (nests tr <= MAX_RECURSION_DEPTH)%nat.
Proof.
  intros Hs HL HN Hst. pose proof (start_wf seg source l Hs HL HN) as HW.
  destruct (root_runs (value stack) (parser_new source (tokens l))) as (tr & p & E & HE & [HK HB] & j & HF); auto.
  { apply value_runs; [apply Nat.le_0_l|lia]. }
  destruct (lex_correct seg source Hs) as (l' & HL' & ts & eof & H1 & H2 & H3 & H4 & H5).
  assert (l' = l) by congruence. subst l'.
  destruct HE as [e1 e2 e3 (c & new & e4 & e5 & e6 & e7 & e8)]. cbn [parser_new p_rest p_src p_depth p_events p_tokens app] in *.
  assert (exists ws, p_rest p = ws ++ [eof] /\ forallb triv ws = true) as (ws & HR & Hws).
  { rewrite H1 in e4. revert ts H1 H3 e4. clear - HF H2 e7. intros ts H1 H3 e4. clear H1.
    assert (exists ws, p_rest p = ws ++ [eof] /\ Forall (fun t => tkind t <> EOF) ws) as (ws & E & HX).
    { revert ts H3 e4. induction e7 as [|t c Ht _ IH]; intros ts H3 e4; [exists ts; auto|].
      destruct ts as [|t' ts]; [inversion e4; subst; contradiction|]. inversion e4; subst. inversion H3; subst. eapply IH; eauto. }
    exists ws. split; [exact E|]. rewrite E in HF. clear E e4 H3. induction HX as [|t ws Ht _ IH]; [reflexivity|].
    cbn [sig app forallb] in *. destruct (triv t); [apply IH; exact HF|]. inversion HF. contradiction. }
  pose proof (covers_tiles _ _ _ H4) as HT. rewrite e4, HR in HT. apply tiles_split in HT as (s1 & s2 & HS & T1 & T2).
  assert (triv eof = false) as He by (unfold triv; rewrite H2; reflexivity).
  assert (tiles [] s1 new) as T3 by (apply (e8 [] s1 s2); auto).
  assert (tspan eof = MkSpan (len_bytes source) (len_bytes source)) as Hsp.
  { destruct (lex_eof_span seg source l HL) as (ts2 & eof2 & G1 & G2). rewrite H1 in G1. apply app_inj_tail in G1 as [_ ->]. exact G2. }
  assert (tiles [] source ((new ++ ws) ++ [eof])) as T4.
  { rewrite HS, <- app_assoc. apply tiles_join; auto. }
  assert (cov (new ++ ws) (flat_map leaves tr)) as C4.
  { cbn [flat_map leaves] in e6. rewrite app_nil_r in e6. rewrite <- (app_nil_r (flat_map leaves tr)). apply cov_app; [exact e6|].
    apply cov_nil. exact Hws. }
  destruct (build_ok source (new ++ ws) eof tr T4 He Hsp C4) as (cs & E1 & E2 & E3 & _).
  exists tr, cs. split; [|split; [exact E2|split; [exact E3|]]].
  - unfold parse. rewrite HL, E. cbn [bind finish]. rewrite e5, HR, e3, app_assoc. unfold flats. cbn [flat_map]. rewrite app_nil_r.
    rewrite process_flat by exact HK. rewrite E1. reflexivity.
  - cbn [nest weight] in HB. unfold nests. rewrite Nat.add_0_r in HB. exact HB.
Qed.

(** * C06 *)
Theorem C06_parse_lossless_partial : forall seg source l stack,
  seg [] = [] -> lex seg source = Some l -> ~ float_after_blanks source (tokens l) -> (128 < stack)%nat ->
  exists cs es, parse seg stack source = Done (TNode ROOT cs, es) /\ ttext (TNode ROOT cs) = source.
Proof.
  intros seg source l stack Hs HL HN Hst. destruct (parse_proof seg source l stack Hs HL HN Hst) as (tr & cs & E & _ & HT & _).
  exists cs. eexists. split; [exact E|exact HT].
Qed.
Print Assumptions C06_parse_lossless_partial.

(** The hypothesis holds of ordinary documents, with comments, floats and errors. *)
Definition doc1 : str := lit "# c" ++ [10] ++ lit "a.b = [1.5, 2.5] # d" ++ [10] ++ lit "[x" ++ [10] ++ lit "3.14 = { y = } 7".
Example C06_doc1 : exists l, lex seg1 doc1 = Some l /\ ~ float_after_blanks doc1 (tokens l) /\
  match parse seg1 129 doc1 with Done (t, es) => ttext t = doc1 /\ es <> [] | _ => False end.
Proof. eexists. split; [vm_compute; reflexivity|]. split.
  - intros H. apply hazard_iff in H. vm_compute in H. discriminate.
  - vm_compute. split; [reflexivity|discriminate].
Qed.

(** Without the hypothesis the claim is false: the parser panics. *)
Theorem C06_parse_lossless_refuted :
  parse seg1 129 (lit " 1.2=3") = Panic /\ parse seg1 129 (lit "x={a = b.1.2 3.4 = 5}") = Panic.
Proof. split; vm_compute; reflexivity. Qed.
Print Assumptions C06_parse_lossless_refuted.

(** * C07 *)
(** At most 129 calls of [Value::parse] are ever nested: a stack of that many is enough for every text. *)
Theorem C07_recursion_bounded : forall seg source, parse seg 129 source <> Deep.
Proof. intros seg source. apply parse_deep. unfold MAX_RECURSION_DEPTH. lia. Qed.
Print Assumptions C07_recursion_bounded.

(** 130 nested arrays: the limit is met, no more stack is used, and the error is reported. *)
Definition deep_doc (n : nat) : str := lit "a=" ++ repeat 91 n ++ repeat 93 n.
Example C07_limit :
  match parse seg1 129 (deep_doc 128) with Done (t, es) => tnest t = 128%nat /\ es = [] | _ => False end /\
  match parse seg1 129 (deep_doc 130) with
  | Done (t, es) => tnest t = 128%nat /\ map pe_kind es = [RecursionLimitExceeded]
  | _ => False
  end /\
  parse seg1 128 (deep_doc 130) = Deep.
Proof. vm_compute. repeat split. Qed.

(** The nesting of arrays and inline tables in the tree. *)
Theorem C07_nesting_bounded_partial : forall seg source l stack t es,
  seg [] = [] -> lex seg source = Some l -> ~ float_after_blanks source (tokens l) -> (128 < stack)%nat ->
  parse seg stack source = Done (t, es) -> (tnest t <= 128)%nat.
Proof.
  intros seg source l stack t es Hs HL HN Hst HP. destruct (parse_proof seg source l stack Hs HL HN Hst) as (tr & cs & E & HG & _ & HB).
  rewrite E in HP. inversion HP; subst. apply grown_nests in HG. cbn [tnest weight]. fold (tnests cs). rewrite HG. exact HB.
Qed.
Print Assumptions C07_nesting_bounded_partial.
