(** The parser accepts no other texts than those of the grammar of ParserAccepts.v. *)
From Coq Require Import String Ascii List NArith Bool Arith Lia.
From Verif Require Import Base SyntaxKind TextModel LexerModel LexerSpec LexerProofs ParserModel ParserInv ParserPrims ParserBuild ParserProps
  ParserTree ParserYield AstModel FormatPieces FormatterModel FormatterLayout FormatterProps ParserShape ParserAccepts ParserAcceptsProps ParserSound.
Import ListNotations.
Open Scope N_scope.
Open Scope list_scope.

(** * C54 *)
(** A text read without errors is a text of the grammar. *)
Theorem C54_read_grammatical : forall seg stack source t, seg [] = [] -> parse seg stack source = Done (t, []) -> grammatical seg source.
Proof.
  intros seg stack source t Hs HP. unfold parse in HP. destruct (lex seg source) as [l|] eqn:HL; [|discriminate].
  destruct (root (value stack) _) as [p| | |] eqn:ER; cbn [bind] in HP; try discriminate. cbn [finish] in HP.
  destruct (build_green_tree _ _ _) as [[t' es]| | |] eqn:EB; cbn [bind] in HP; try discriminate. injection HP as -> HE. apply app_eq_nil in HE as [HE1 HE2]. subst es.
  assert (HE : errors l = []) by (destruct (errors l); [reflexivity|discriminate]).
  destruct (lex_tame seg source l Hs HL HE) as (HT & _ & HEOF). pose proof (build_errs _ _ _ _ _ EB) as HB. symmetry in HB. apply process_errs in HB.
  assert (HN : nerr p = nerr (parser_new source (tokens l))) by (unfold nerr; rewrite HB; reflexivity).
  destruct (root_sound stack (parser_new source (tokens l)) p HT HEOF eq_refl ER HN) as (B & S & j & EK & HBS). exists l, B, S, j. auto.
Qed.
Print Assumptions C54_read_grammatical.
Example C54_read_example : exists t, chars [] = [] /\ parse chars 200 accepted_source = Done (t, []).
Proof.
  assert (H : match parse chars 200 accepted_source with Done (_, []) => true | _ => false end = true) by (vm_compute; reflexivity).
  destruct (parse chars 200 accepted_source) as [[t [|e es]]| | |]; try discriminate. exists t. auto.
Qed.

(** The texts read without errors are exactly those of the grammar. *)
Theorem C54_exact_partial : forall seg stack source l, seg [] = [] -> (128 < stack)%nat -> lex seg source = Some l -> ~ float_after_blanks source (tokens l) ->
  ((exists t, parse seg stack source = Done (t, [])) <-> grammatical seg source).
Proof.
  intros seg stack source l Hs Hst HL HN. split.
  - intros (t & HP). eapply C54_read_grammatical; eauto.
  - intros HG. destruct (C51_accepted_partial seg stack source l Hs Hst HL HN HG) as (t & HP & _). eauto.
Qed.
Print Assumptions C54_exact_partial.

(** Every other text that is read at all gets an error. *)
Theorem C54_others_reported : forall seg stack source t es, seg [] = [] -> parse seg stack source = Done (t, es) -> ~ grammatical seg source -> es <> [].
Proof. intros seg stack source t es Hs HP HN ->. apply HN. eapply C54_read_grammatical; eauto. Qed.
Print Assumptions C54_others_reported.
Example C54_others_example : exists t es, parse chars 200 (lines "a = 1 b = 2") = Done (t, es) /\ ~ grammatical chars (lines "a = 1 b = 2").
Proof.
  assert (H : match parse chars 200 (lines "a = 1 b = 2") with Done (_, _ :: _) => true | _ => false end = true) by (vm_compute; reflexivity).
  destruct (parse chars 200 (lines "a = 1 b = 2")) as [[t es]| | |] eqn:E; [|discriminate H..]. exists t, es. split; [reflexivity|]. intros HG.
  assert (HF : match lex chars (lines "a = 1 b = 2") with Some l => forallb (fun t => negb (kind_eqb (tkind t) FLOAT)) (tokens l) | None => false end = true) by (vm_compute; reflexivity).
  destruct (lex chars (lines "a = 1 b = 2")) as [l|] eqn:EL; [|discriminate HF].
  destruct (C51_accepted_partial chars 200 (lines "a = 1 b = 2") l eq_refl ltac:(lia) EL) as (t' & HP & _); [|exact HG|].
  - intros (a & ws & u & b & EE & _ & _ & (HK & _) & _). rewrite forallb_forall in HF. specialize (HF u). rewrite HK in HF. discriminate HF. rewrite EE. apply in_or_app. right. apply in_or_app. right. left. reflexivity.
  - rewrite E in HP. injection HP as _ ->. discriminate H.
Qed.

(** The grammar is wider than TOML: commas between values may be missing, and one may follow a key/value. *)
Theorem C54_only_toml_refuted : exists t1 t2 t3, parse chars 200 (lines "a = [1 2 3]|") = Done (t1, []) /\ parse chars 200 (lines "a = {b = 1 c = 2}|") = Done (t2, []) /\ parse chars 200 (lines "a = 1,|b = 2|") = Done (t3, []).
Proof.
  assert (HX : forall s, match parse chars 200 s with Done (_, []) => true | _ => false end = true -> exists t, parse chars 200 s = Done (t, [])).
  { intros s H. destruct (parse chars 200 s) as [[t [|e es]]| | |]; try discriminate. eauto. }
  destruct (HX (lines "a = [1 2 3]|") ltac:(vm_compute; reflexivity)) as (t1 & H1). destruct (HX (lines "a = {b = 1 c = 2}|") ltac:(vm_compute; reflexivity)) as (t2 & H2). destruct (HX (lines "a = 1,|b = 2|") ltac:(vm_compute; reflexivity)) as (t3 & H3).
  exists t1, t2, t3. auto.
Qed.
Print Assumptions C54_only_toml_refuted.

(** * C51 *)
(** The grammar is also narrower than TOML: a comment on a line of its own, then an empty line, then a comma. *)
Theorem C51_valid_toml_refuted : exists t es t', parse chars 200 (lines "a = [1|# b||, 2]|") = Done (t, es) /\ map pe_kind es = [ExpectedValue; ExpectedBracketEnd] /\
  parse chars 200 (lines "a = [1|# b|, 2]|") = Done (t', []).
Proof.
  assert (H : match parse chars 200 (lines "a = [1|# b||, 2]|") with Done (_, es) => map pe_kind es | _ => [] end = [ExpectedValue; ExpectedBracketEnd]) by (vm_compute; reflexivity).
  assert (H2 : match parse chars 200 (lines "a = [1|# b|, 2]|") with Done (_, []) => true | _ => false end = true) by (vm_compute; reflexivity).
  destruct (parse chars 200 (lines "a = [1|# b||, 2]|")) as [[t es]| | |]; [|discriminate H..]. destruct (parse chars 200 (lines "a = [1|# b|, 2]|")) as [[t' [|e es']]| | |]; [|discriminate H2..]. exists t, es, t'. auto.
Qed.
Print Assumptions C51_valid_toml_refuted.

(** * C07 *)
(** The brackets and braces that are opened, and closed, by some tokens. *)
Definition opening (k : kind) : bool := match k with BRACKET_START | BRACE_START => true | _ => false end.
Definition closing (k : kind) : bool := match k with BRACKET_END | BRACE_END => true | _ => false end.
Definition opened (ks : list kind) : nat := length (filter opening ks).
Definition ended (ks : list kind) : nat := length (filter closing ks).
Definition nest (n : nat) (ks : list kind) : Prop := (forall a b, ks = a ++ b -> (opened a <= ended a + n)%nat) /\ opened ks = ended ks.
Lemma opened_app a b : opened (a ++ b) = (opened a + opened b)%nat.
Proof. unfold opened. rewrite filter_app, app_length. reflexivity. Qed.
Lemma ended_app a b : ended (a ++ b) = (ended a + ended b)%nat.
Proof. unfold ended. rewrite filter_app, app_length. reflexivity. Qed.
Lemma app_split {A} (a b c d : list A) : a ++ b = c ++ d -> (exists m, c = a ++ m) \/ (exists m, a = c ++ m).
Proof.
  revert c. induction a as [|x a IH]; intros c E; [left; exists c; reflexivity|]. destruct c as [|y c]; [right; exists (x :: a); reflexivity|]. cbn [app] in E. injection E as -> E.
  destruct (IH c E) as [(m & ->)|(m & ->)]; [left|right]; exists m; reflexivity.
Qed.
Lemma nest_app n a b : nest n a -> nest n b -> nest n (a ++ b).
Proof.
  intros [A1 A2] [B1 B2]. split; [|rewrite opened_app, ended_app; lia]. intros x y E. destruct (app_split _ _ _ _ E) as [(m & ->)|(m & ->)].
  - rewrite <- app_assoc in E. apply app_inv_head in E. specialize (B1 m y E). rewrite opened_app, ended_app. lia.
  - apply (A1 x m eq_refl).
Qed.
Lemma nest_flat n ks : Forall (fun k => opening k = false /\ closing k = false) ks -> nest n ks.
Proof.
  intros H. assert (HF : forall l, Forall (fun k => opening k = false /\ closing k = false) l -> opened l = 0%nat /\ ended l = 0%nat).
  { induction 1 as [|k l [H1 H2] _ [I1 I2]]; [auto|]. unfold opened, ended in *. cbn [filter]. rewrite H1, H2. auto. }
  split; [|destruct (HF _ H); lia]. intros a b ->. apply Forall_app in H as [H _]. destruct (HF _ H). lia.
Qed.
Lemma nest_box n o ks c : opening o = true -> closing o = false -> closing c = true -> opening c = false -> nest n ks -> nest (S n) (o :: ks ++ [c]).
Proof.
  intros HO HO2 HC HC2 [H1 H2]. assert (E1 : forall l, opened (o :: l) = S (opened l) /\ ended (o :: l) = ended l) by (intros l; unfold opened, ended; cbn [filter]; rewrite HO, HO2; auto).
  assert (E2 : opened [c] = 0%nat /\ ended [c] = 1%nat) by (unfold opened, ended; cbn [filter]; rewrite HC, HC2; auto). split.
  - intros [|x a] b E; [cbn; lia|]. cbn [app] in E. injection E as <- E. destruct (E1 a) as [-> ->]. destruct (app_split _ _ _ _ E) as [(m & ->)|(m & ->)].
    + rewrite opened_app, ended_app. assert (HM : opened m = 0%nat). { rewrite <- app_assoc in E. apply app_inv_head in E. destruct m as [|y m]; [reflexivity|]. injection E as <- E. destruct m; [exact (proj1 E2)|discriminate]. } lia.
    + specialize (H1 a m eq_refl). lia.
  - destruct (E1 (ks ++ [c])) as [-> ->]. rewrite opened_app, ended_app. lia.
Qed.
Lemma nest_weaken n m ks : (n <= m)%nat -> nest n ks -> nest m ks.
Proof. intros HL [H1 H2]. split; [|exact H2]. intros a b E. specialize (H1 a b E). lia. Qed.
Notation kinds_of K := (map fst (K : sks)).
Lemma flat_lc n G : Forall (fun x : kind * bool => is_lc (fst x) = true) G -> nest n (kinds_of G).
Proof. intros H. apply nest_flat. apply Forall_map. eapply Forall_impl; [|exact H]. intros [k j] HK. cbn [fst] in *. destruct (lc_cases _ HK) as [-> | ->]; auto. Qed.
Lemma nest_gaps n G : gaps G -> nest n (kinds_of G).
Proof. intros H. apply flat_lc. apply gaps_lc. exact H. Qed.
Lemma nest_tail n T : atail T -> nest n (kinds_of T).
Proof. destruct 1; apply flat_lc; repeat constructor. Qed.
Lemma nest_comma n C : acomma C -> nest n (kinds_of C).
Proof.
  destruct 1 as [|S j T HS HT]; [apply nest_flat; constructor|]. rewrite map_app. apply nest_app; [apply nest_gaps; apply soft_gaps; exact HS|]. apply (nest_app n [COMMA]); [apply nest_flat; repeat constructor|apply nest_tail; exact HT].
Qed.
Lemma nest_keys n Ks : akeys Ks -> nest n (kinds_of Ks).
Proof.
  intros H. apply nest_flat. induction H as [k j HK|k j d K HK H IH]; cbn [map fst]; repeat constructor; auto; destruct k; try discriminate HK; reflexivity.
Qed.
Fixpoint nest_core n K (H : acore n K) {struct H} : nest n (kinds_of K)
with nest_item n table K (H : aitem n table K) {struct H} : nest n (kinds_of K)
with nest_body n table K (H : abody n table K) {struct H} : nest n (kinds_of K).
Proof.
  - destruct H as [n k j HL|n table j T B j' HT HN HB].
    + apply nest_flat. destruct k; try discriminate HL; repeat constructor.
    + cbn [map fst]. rewrite !map_app, app_assoc. apply nest_box; [destruct table; reflexivity..|]. apply nest_app; [apply nest_tail; exact HT|exact (nest_body _ _ _ HB)].
  - destruct H as [n K HK|n Ks j K HKs HK].
    + exact (nest_core _ _ HK).
    + rewrite map_app. apply nest_app; [apply nest_keys; exact HKs|]. apply (nest_app n [EQUAL]); [apply nest_flat; repeat constructor|exact (nest_core _ _ HK)].
  - destruct H as [n table G HG|n table G I T C B HG HI HT HC N1 N2 HB].
    + apply nest_gaps. exact HG.
    + rewrite !map_app. apply nest_app; [apply nest_gaps; exact HG|]. apply nest_app; [exact (nest_item _ _ _ HI)|]. apply nest_app; [apply nest_tail; exact HT|]. apply nest_app; [apply nest_comma; exact HC|exact (nest_body _ _ _ HB)].
Qed.
Lemma nest_lines last B : alines_to last B -> nest 128 (kinds_of B).
Proof.
  induction 1 as [G HG|G j EL HG|G I T C B HG HI HT HC N1 N2 HB IH]; [apply nest_gaps; exact HG| |].
  - rewrite map_app. apply nest_app; [apply nest_gaps; exact HG|apply nest_flat; repeat constructor].
  - rewrite !map_app. apply nest_app; [apply nest_gaps; exact HG|]. apply nest_app; [exact (nest_item _ _ _ HI)|]. apply nest_app; [apply nest_tail; exact HT|]. apply nest_app; [apply nest_comma; exact HC|exact IH].
Qed.
Lemma nest_header array j Ks j' : akeys Ks -> nest 128 (kinds_of (aopen array j ++ Ks ++ aclose array j')).
Proof.
  intros HK. apply (nest_weaken 2); [lia|]. rewrite !map_app. destruct array; cbn [aopen aclose map fst app].
  - change (BRACKET_START :: BRACKET_START :: kinds_of Ks ++ [BRACKET_END; BRACKET_END]) with (BRACKET_START :: (BRACKET_START :: kinds_of Ks ++ [BRACKET_END; BRACKET_END])).
    assert (E : BRACKET_START :: kinds_of Ks ++ [BRACKET_END; BRACKET_END] = (BRACKET_START :: kinds_of Ks ++ [BRACKET_END]) ++ [BRACKET_END]) by (cbn [app]; rewrite <- app_assoc; reflexivity). rewrite E.
    apply nest_box; auto. apply nest_box; auto. apply nest_keys. exact HK.
  - apply nest_box; auto. apply nest_keys. exact HK.
Qed.
Lemma nest_sections S : asections S -> nest 128 (kinds_of S).
Proof.
  induction 1 as [|array j Ks j' T B S HK HT HB HL HS IH|array j Ks j' T B HK HT HB HL]; [apply nest_flat; constructor| |].
  - assert (E : aopen array j ++ Ks ++ aclose array j' ++ T ++ B ++ S = (aopen array j ++ Ks ++ aclose array j') ++ T ++ B ++ S) by (repeat rewrite <- app_assoc; reflexivity). rewrite E, map_app. apply nest_app; [apply nest_header; exact HK|].
    rewrite !map_app. apply nest_app; [apply nest_tail; exact HT|]. apply nest_app; [eapply nest_lines; eauto|exact IH].
  - assert (E : aopen array j ++ Ks ++ aclose array j' ++ T ++ B = (aopen array j ++ Ks ++ aclose array j') ++ T ++ B) by (repeat rewrite <- app_assoc; reflexivity). rewrite E, map_app. apply nest_app; [apply nest_header; exact HK|].
    rewrite !map_app. apply nest_app; [apply nest_tail; exact HT|]. eapply nest_lines; eauto.
Qed.
Lemma grammatical_nest seg source l : grammatical seg source -> lex seg source = Some l -> nest 128 (map tkind (tokens l)).
Proof.
  intros (l' & B & S & j & HL & HE & EK & HBS) HL2. assert (l' = l) by congruence. subst l'.
  assert (HN : nest 128 (kinds_of (sig (tokens l)))).
  { rewrite EK, !map_app. apply nest_app; [destruct HBS as [[HB _]|[HB _]]; eapply nest_lines; eauto|]. apply nest_app; [|apply nest_flat; repeat constructor]. destruct HBS as [[_ HS]|[_ ->]]; [apply nest_sections; exact HS|apply nest_flat; constructor]. }
  assert (HC : forall ts, exists K, map tkind (filter (fun t => negb (triv t)) ts) = K /\ opened (map tkind ts) = opened K /\ ended (map tkind ts) = ended K).
  { intros ts. eexists. split; [reflexivity|]. induction ts as [|t ts [I1 I2]]; [auto|]. cbn [map filter]. destruct (triv t) eqn:ET; cbn [negb].
    - unfold triv, is_trivia in ET. apply kind_eqb_eq in ET. unfold opened, ended in *. cbn [filter]. rewrite ET. cbn [opening closing]. auto.
    - unfold opened, ended in *. cbn [map filter]. destruct (opening (tkind t)), (closing (tkind t)); cbn [length]; auto. }
  destruct HN as [H1 H2]. split.
  - intros a b E. apply map_eq_app in E as (ta & tb & ET & <- & <-). destruct (sig_app_kinds ta tb) as (X & EX & EM). destruct (HC ta) as (K & E1 & E2 & E3). rewrite E2, E3, <- E1. rewrite <- ET in EX.
    unfold sign in EM. rewrite <- EM. apply (H1 (kinds_of X) (kinds_of (sig tb))). rewrite EX, map_app. reflexivity.
  - destruct (HC (tokens l)) as (K & E1 & E2 & E3). rewrite E2, E3, <- E1. destruct (sig_app_kinds (tokens l) []) as (X & EX & EM). cbn [sig] in EX. rewrite !app_nil_r in EX. unfold sign in EM. rewrite <- EM, <- EX. exact H2.
Qed.
(** A text in which more than 128 brackets and braces are open somewhere gets an error. *)
Theorem C07_too_deep_reported : forall seg stack source l a b t es, seg [] = [] -> lex seg source = Some l -> tokens l = a ++ b -> (opened (map tkind a) > ended (map tkind a) + 128)%nat ->
  parse seg stack source = Done (t, es) -> es <> [].
Proof.
  intros seg stack source l a b t es Hs HL EA HD HP ->. pose proof (grammatical_nest seg source l (C54_read_grammatical _ _ _ _ Hs HP) HL) as [HN _]. specialize (HN (map tkind a) (map tkind b)). rewrite <- map_app, EA in HN. specialize (HN eq_refl). lia.
Qed.
Print Assumptions C07_too_deep_reported.
Example C07_too_deep_example : exists l a b t es, lex chars (deep_doc 129) = Some l /\ tokens l = a ++ b /\ (opened (map tkind a) > ended (map tkind a) + 128)%nat /\ parse chars 200 (deep_doc 129) = Done (t, es).
Proof.
  assert (H : match lex chars (deep_doc 129), parse chars 200 (deep_doc 129) with Some l, Done _ => Nat.ltb (ended (map tkind (firstn 131 (tokens l))) + 128) (opened (map tkind (firstn 131 (tokens l)))) | _, _ => false end = true) by (vm_compute; reflexivity).
  destruct (lex chars (deep_doc 129)) as [l|]; [|discriminate]. destruct (parse chars 200 (deep_doc 129)) as [[t es]| | |]; try discriminate.
  exists l, (firstn 131 (tokens l)), (skipn 131 (tokens l)), t, es. split; [reflexivity|]. split; [symmetry; apply firstn_skipn|]. split; [apply Nat.ltb_lt; exact H|reflexivity].
Qed.
(** And so does a text whose brackets and braces are not as many at the end as at the beginning. *)
Theorem C54_unbalanced_reported : forall seg stack source l t es, seg [] = [] -> lex seg source = Some l -> opened (map tkind (tokens l)) <> ended (map tkind (tokens l)) ->
  parse seg stack source = Done (t, es) -> es <> [].
Proof. intros seg stack source l t es Hs HL HD HP ->. apply HD. exact (proj2 (grammatical_nest seg source l (C54_read_grammatical _ _ _ _ Hs HP) HL)). Qed.
Print Assumptions C54_unbalanced_reported.
Example C54_unbalanced_example : exists l t es, lex chars (lines "a = [1|") = Some l /\ opened (map tkind (tokens l)) <> ended (map tkind (tokens l)) /\ parse chars 200 (lines "a = [1|") = Done (t, es).
Proof.
  assert (H : match lex chars (lines "a = [1|"), parse chars 200 (lines "a = [1|") with Some l, Done _ => negb (Nat.eqb (opened (map tkind (tokens l))) (ended (map tkind (tokens l)))) | _, _ => false end = true) by (vm_compute; reflexivity).
  destruct (lex chars (lines "a = [1|")) as [l|]; [|discriminate H]. destruct (parse chars 200 (lines "a = [1|")) as [[t es]| | |]; [|discriminate H..].
  exists l, t, es. split; [reflexivity|]. split; [|reflexivity]. apply Nat.eqb_neq. apply negb_true_iff. exact H.
Qed.
