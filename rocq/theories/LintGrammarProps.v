(** Which texts the linter's rules about commas and inline tables let pass. *)
From Coq Require Import String Ascii List NArith Bool Arith Lia.
From Verif Require Import Base SyntaxKind TextModel LexerModel ParserModel TomlTextModel AstModel FormatPieces FormatterModel FormatterLayout FormatterProps ParserShape ParserTree ParserAcceptsProps ViewShape LintRulesModel LintStrip LintGrammarSpec LintGrammarFacts LintGrammarTree LintGrammarProofs.
Import ListNotations.
Open Scope N_scope.
Open Scope list_scope.

(** * C69 *)
(** Of a text that is read without errors nothing is reported exactly when its tokens are those of a TOML document of the version. *)
Theorem C69_exact : forall v seg stack source t, seg [] = [] -> parse seg stack source = Done (t, []) -> (lint_tree v t = [] <-> document v (token_kinds t)).
Proof. exact lint_exact. Qed.
Print Assumptions C69_exact.
Definition clean (v : toml_version) (s : str) : bool := match parse chars 200 s with Done (t, []) => match lint_tree v t with [] => true | _ => false end | _ => false end.
Definition found (v : toml_version) (s : str) : list rule_kind := match parse chars 200 s with Done (t, []) => map fst (lint_tree v t) | _ => [OutOfFuel] end.
Definition broken_lines : str := lines "a = [1, # b|2,|]|c = {|d.e = 1 , # f|}|# g||[h]|i = []|[[h.j]] # k|".
Example C69_exact_example : found V1_1_0_Preview broken_lines = [] /\ found V1_0_0 broken_lines = [InlineTableMustSingleLine; ForbiddenInlineTableLastComma] /\
  found V1_0_0 (lines "a = [1 [2 3]]|") = [MissingArrayComma; MissingArrayComma] /\ found V1_0_0 (lines "a = {b = 1 c = {d = 1, e = 2}}|[f]|g = 1,|") = [MissingInlineTableComma; ForbiddenKeyValueTrailingComma].
Proof. repeat split; vm_compute; reflexivity. Qed.
Example C69_grammar_example : exists t, parse chars 200 broken_lines = Done (t, []) /\ document V1_1_0_Preview (token_kinds t) /\ ~ document V1_0_0 (token_kinds t) /\ length (token_kinds t) = 45%nat.
Proof.
  assert (H : match parse chars 200 broken_lines with Done (t, []) => Nat.eqb (length (token_kinds t)) 45 && match lint_tree V1_1_0_Preview t, lint_tree V1_0_0 t with [], _ :: _ => true | _, _ => false end | _ => false end = true) by (vm_compute; reflexivity).
  destruct (parse chars 200 broken_lines) as [[t es]| | |] eqn:E; [|discriminate H..]. destruct es as [|e es]; [|discriminate H]. exists t. apply andb_true_iff in H as [H0 H]. split; [reflexivity|]. split; [|split; [|apply Nat.eqb_eq; exact H0]].
  - apply (C69_exact V1_1_0_Preview chars 200%nat broken_lines t eq_refl E). destruct (lint_tree V1_1_0_Preview t); [reflexivity|discriminate].
  - intros HD. apply (C69_exact V1_0_0 chars 200%nat broken_lines t eq_refl E) in HD. rewrite HD in H. destruct (lint_tree V1_1_0_Preview t); discriminate.
Qed.

(** Whatever is read and is no document of the version gets an error of the parser or of a rule. *)
Theorem C69_others_reported : forall v seg stack source t es, seg [] = [] -> parse seg stack source = Done (t, es) -> ~ document v (token_kinds t) -> es <> [] \/ lint_tree v t <> [].
Proof. intros v seg stack source t es Hs HP HN. destruct es as [|e es]; [right|left; discriminate]. intros HL. apply HN. apply (C69_exact v seg stack source t Hs HP). exact HL. Qed.
Print Assumptions C69_others_reported.
Example C69_others_example : exists t, parse chars 200 (lines "a = {b = 1,}|") = Done (t, []) /\ ~ document V1_0_0 (token_kinds t).
Proof.
  assert (H : match parse chars 200 (lines "a = {b = 1,}|") with Done (t, []) => match lint_tree V1_0_0 t with [] => false | _ => true end | _ => false end = true) by (vm_compute; reflexivity).
  destruct (parse chars 200 (lines "a = {b = 1,}|")) as [[t es]| | |] eqn:E; [|discriminate H..]. destruct es as [|e es]; [|discriminate H]. exists t. split; [reflexivity|]. intros HD. apply (C69_exact V1_0_0 chars 200%nat _ t eq_refl E) in HD. rewrite HD in H. discriminate.
Qed.

(** What passes for TOML 1.0.0 passes for every version. *)
Fixpoint value_later v K (H : LintGrammarSpec.value V1_0_0 K) {struct H} : LintGrammarSpec.value v K
with element_later v table K (H : element V1_0_0 table K) {struct H} : element v table K
with elements_later v table K (H : elements V1_0_0 table K) {struct H} : elements v table K.
Proof.
  - destruct H as [k HK|B HB|B HB]; [apply v_scalar; exact HK|apply v_array; exact (elements_later v _ _ HB)|apply v_inline; exact (elements_later v _ _ HB)].
  - destruct H as [K HK|Ks K HKs HK]; constructor; auto.
  - assert (HR : forall table G, room V1_0_0 table G -> room v table G) by (intros tb G; unfold room, single_line; destruct tb, v; cbn; auto; intros ->; constructor).
    assert (HS : forall table, single_line v table = true -> single_line V1_0_0 table = true) by (intros tb; unfold single_line; destruct tb, v; cbn; auto).
    destruct H as [table G HG|table G E G' HG HE HG'|table G E G' B HG HE HG' HB HX]; [apply es_none; auto|apply es_last; auto|apply es_comma; auto].
Qed.
Theorem C69_later_versions : forall v seg stack source t, seg [] = [] -> parse seg stack source = Done (t, []) -> lint_tree V1_0_0 t = [] -> lint_tree v t = [].
Proof.
  intros v seg stack source t Hs HP H. apply (C69_exact V1_0_0 seg stack source t Hs HP) in H. apply (C69_exact v seg stack source t Hs HP).
  assert (HX : forall E, expression V1_0_0 E -> expression v E) by (intros E HE; destruct HE as [|E HE|Ks HK|Ks HK]; [constructor|apply x_pair; apply element_later; exact HE|constructor; exact HK|constructor; exact HK]).
  induction H as [E C HE HC|E C D HE HC HD IH]; [apply d_last; auto|apply d_line; auto].
Qed.
Print Assumptions C69_later_versions.
Example C69_later_example : clean V1_0_0 (lines "a = [1, # b|{ c = 1, d = 2 },|]|") = true.
Proof. vm_compute. reflexivity. Qed.

(** The rules follow every tree to its end, whether it was read without errors or not. *)
Lemma tlint_fuel v fuel : forall t, (height t <= fuel)%nat -> ~ In OutOfFuel (tlint fuel v t).
Proof.
  assert (HM : forall k l, k <> OutOfFuel -> ~ In OutOfFuel (tmissing k l)).
  { intros k l HK. induction l as [|[x c] l IH]; [auto|]. cbn [tmissing]. intros H. apply in_app_or in H as [H|H]; [|exact (IH H)]. destruct l, c; cbn in H; intuition congruence. }
  assert (HV : forall t, ~ In OutOfFuel (tversion v t)).
  { intros t. unfold tversion. destruct (negb (is_v1_0_0 v)); [auto|]. intros H. apply in_app_or in H as [H|H]; [destruct (tnewline t); cbn in H; intuition discriminate|]. destruct (rev (tlist true t)) as [|[x [c|]] r]; cbn in H; intuition discriminate. }
  induction fuel as [|fuel IH]; intros t HF; [exfalso; exact (height_none _ HF)|].
  assert (HB : forall table g x, In g (tbox table t) -> In x (kids g) -> (height x <= fuel)%nat).
  { intros table g x HG HX. unfold tbox, nodes, tafter in HG. apply filter_In in HG as [HG _]. assert (HK : In g (kids t)).
    { clear - HG. set (k := if table then BRACE_START else BRACKET_START) in *. clearbody k. induction (kids t) as [|y l IHl]; [contradiction|]. cbn [drop_while] in HG. destruct (upto k y); [right; auto|right; exact HG]. }
    destruct t as [k cs|k w]; [|contradiction]. pose proof (height_child _ _ _ _ HF HK) as H1. destruct g as [k' cs'|k' w]; [|contradiction]. destruct fuel as [|n]; [exfalso; exact (height_none _ H1)|]. pose proof (height_child _ _ _ _ H1 HX). lia. }
  cbn [tlint]. destruct (tkind_of t) eqn:EK; try (intros []).
  - intros H. apply in_app_or in H as [H|H]; [revert H; apply HM; discriminate|]. apply in_flat_map in H as (g & HG & H). apply in_flat_map in H as (x & HX & H). apply filter_In in HX as [HX _]. revert H. apply IH. eauto.
  - intros H. apply in_app_or in H as [H|H]; [revert H; apply HM; discriminate|]. apply in_app_or in H as [H|H]; [revert H; apply HV|]. apply in_flat_map in H as (g & HG & H). apply in_flat_map in H as (x & HX & H). apply filter_In in HX as [HX _].
    pose proof (HB _ _ _ HG HX) as HH. unfold tkey_value in H. destruct (find _ _) as [y|] eqn:EF; [|contradiction]. apply find_some in EF as [HY _]. apply filter_In in HY as [HY _]. revert H. apply IH. destruct x as [k cs|k w]; [|contradiction]. destruct fuel as [|n]; [exfalso; exact (height_none _ HH)|]. pose proof (height_child _ _ _ _ HH HY). lia.
Qed.
Theorem C69_complete_walk : forall v k cs, ~ In OutOfFuel (map fst (lint_tree v (TNode k cs))).
Proof.
  intros v k cs. rewrite (lint_strip v (TNode k cs) (TNode k (strips cs)) eq_refl). pose proof (strip_height (TNode k cs)) as HH. cbn [strip] in HH. apply Forall_inv in HH. set (fuel := height (TNode k cs)) in *. clearbody fuel.
  change (flat_map strip cs) with (strips cs) in HH. set (t := TNode k (strips cs)) in *. clearbody t.
  assert (HT : forall t, ~ In OutOfFuel (ttrailing t)).
  { intros u H. unfold ttrailing in H. apply in_flat_map in H as (g & _ & H). apply in_flat_map in H as ([x c] & _ & H). cbn [snd] in H. destruct c as [c|]; [|contradiction]. destruct (existsb _ _); cbn in H; intuition discriminate. }
  assert (HD : forall {A} (f : A -> bool) l x, In x (drop_while f l) -> In x l) by (intros A f l x; induction l as [|y l IHl]; [auto|]; cbn [drop_while]; destruct (f y); [right; auto|auto]).
  assert (HL : forall t, (height t <= fuel)%nat -> ~ In OutOfFuel (flat_map (fun g => flat_map (tkey_value (tlint fuel v)) (nodes (is_kind KEY_VALUE) (kids g))) (tlines t))).
  { intros u HU H. apply in_flat_map in H as (g & HG & H). apply in_flat_map in H as (x & HX & H). apply filter_In in HX as [HX _]. apply filter_In in HG as [HG _].
    assert (HK : In g (kids u)) by (unfold theader in HG; destruct (kind_eqb (tkind_of u) ROOT); [exact HG|]; do 2 apply HD in HG; exact HG).
    unfold tkey_value in H. destruct (find _ _) as [y|] eqn:EF; [|contradiction]. apply find_some in EF as [HY _]. apply filter_In in HY as [HY _]. revert H. apply tlint_fuel.
    assert (HS : forall a b, In a (kids b) -> (height a <= height b)%nat). { intros a [kb cb|kb w] HI; [|contradiction]. pose proof (height_child kb cb a (height (TNode kb cb) - 1)) as HC. pose proof (height_pos (TNode kb cb)). cbn [kids] in HI. specialize (HC ltac:(lia) HI). lia. }
    pose proof (HS _ _ HK). pose proof (HS _ _ HX). pose proof (HS _ _ HY). lia. }
  unfold troot. intros H. apply in_app_or in H as [H|H]; [exact (HT _ H)|]. apply in_app_or in H as [H|H]; [exact (HL t HH H)|]. apply in_flat_map in H as (u & HU & H). apply filter_In in HU as [HU _].
  assert (HHU : (height u <= fuel)%nat). { destruct t as [kb cb|kb w]; [|contradiction]. destruct fuel as [|n]; [exfalso; exact (height_none _ HH)|]. pose proof (height_child _ _ _ _ HH HU). lia. }
  unfold ttable in H. apply in_app_or in H as [H|H]; [exact (HT _ H)|exact (HL u HHU H)].
Qed.
Print Assumptions C69_complete_walk.
