(** The reports about missing commas and about the last comma of an inline table (C69). *)
From Coq Require Import String Ascii List NArith Bool Arith Lia.
From Verif Require Import Base SyntaxKind TextModel LexerModel ParserModel ParserBuild TomlTextModel AstModel FormatterModel FormatterProps LintRulesModel.
Import ListNotations.
Open Scope N_scope.
Open Scope list_scope.

Notation group_items := (items_with_comma (is_kind KEY_VALUE)).
Notation group_last := (fun g => match g with GDangling _ => None | GItems group => last_comma (group_items group) end).
Lemma last_of_groups gs : find_map group_last (rev gs) = last_comma (flat_map group_items (item_groups gs)).
Proof.
  induction gs as [|g gs IH] using rev_ind; [reflexivity|]. rewrite rev_app_distr. cbn [rev app find_map].
  unfold item_groups in *. rewrite flat_map_app. destruct g as [g|g]; cbn [flat_map app]; [rewrite app_nil_r; exact IH|].
  rewrite flat_map_app. cbn [flat_map]. rewrite app_nil_r. destruct (group_items g) as [|p ps] eqn:E using rev_ind; [rewrite app_nil_r; exact IH|].
  unfold last_comma. rewrite app_assoc, !rev_app_distr. destruct p as [x c]. reflexivity.
Qed.
Lemma has_last e : has_last_key_value_trailing_comma e = match last_comma (key_values_with_comma e) with Some b => b | None => false end.
Proof. unfold has_last_key_value_trailing_comma. rewrite last_of_groups. reflexivity. Qed.

(** C69: for TOML 1.0.0 the rule for inline tables reports the comma behind the last key/value, at its place, exactly when there is one, whether
    or not the inline table goes over several lines, and whatever groups its key/values are in. *)
Theorem C69_last_comma : forall e s, In (ForbiddenInlineTableLastComma, s) (inline_table_version V1_0_0 e) <->
  exists before item comma, key_values_with_comma e = before ++ [(item, Some comma)] /\ s = espan_of comma.
Proof.
  intros e s. unfold inline_table_version. change (negb (is_v1_0_0 V1_0_0)) with false. cbv iota. rewrite has_last. unfold last_comma. rewrite in_app_iff. split.
  - intros [H|H]; [destruct (has_newlines_between_braces e); [destruct H as [H|[]]; discriminate|destruct H]|].
    destruct (key_values_with_comma e) as [|[x c] l _] eqn:E using rev_ind; [destruct H|]. rewrite rev_app_distr in H. cbn [rev app] in H.
    destruct c as [c|]; [|destruct H]. destruct H as [H|[]]. injection H as <-. exists l, x, c. auto.
  - intros (before & item & comma & E & ->). right. rewrite E, rev_app_distr. left. reflexivity.
Qed.
Print Assumptions C69_last_comma.
(** Its reports are among those of the document: the lint of an inline table holds them. *)
Theorem C69_last_comma_reported : forall fuel e before item comma, ekind_of e = INLINE_TABLE -> key_values_with_comma e = before ++ [(item, Some comma)] ->
  In (ForbiddenInlineTableLastComma, espan_of comma) (lint_value (S fuel) V1_0_0 e).
Proof.
  intros fuel e before item comma HK HE. cbn [lint_value]. rewrite HK. apply in_app_iff. right. apply in_app_iff. left. apply C69_last_comma. exists before, item, comma. auto.
Qed.
Print Assumptions C69_last_comma_reported.
Definition comma_reports (s : String.string) : list (rule_kind * span) :=
  match parse chars 200 (lines s) with Done (t, []) => lint_tree V1_0_0 t | _ => [] end.
Example C69_last_comma_example :
  map fst (comma_reports "x = {|a = 1,||b = 2,|}") = [InlineTableMustSingleLine; ForbiddenInlineTableLastComma] /\
  map fst (comma_reports "x = {a = 1, b = 2,}") = [ForbiddenInlineTableLastComma] /\ comma_reports "x = {a = 1, b = 2}" = [].
Proof. vm_compute. repeat split. Qed.

(** C69: the rule for missing commas reports the end of an item exactly when it has no comma and another item follows. *)
Theorem C69_missing_comma : forall k items r, In r (missing_comma k items) <->
  exists before item next after, items = before ++ (item, None) :: next :: after /\ r = (k, MkSpan (send (espan_of item)) (send (espan_of item))).
Proof.
  intros k items r. induction items as [|[x c] items IH]; cbn [missing_comma].
  - split; [intros []|]. intros (b & i & n & a & E & _). destruct b; discriminate.
  - rewrite in_app_iff, IH. clear IH. split.
    + intros [H|(b & i & n & a & -> & ->)]; [|exists ((x, c) :: b), i, n, a; auto]. destruct items as [|n a]; [destruct H|]. destruct c as [c|]; [destruct H|]. destruct H as [<- |[]]. exists [], x, n, a. auto.
    + intros (b & i & n & a & E & ->). destruct b as [|p b]; cbn [app] in E; injection E; [intros -> -> -> | intros -> _]; [left; left; reflexivity|]. right. exists b, i, n, a. auto.
Qed.
Print Assumptions C69_missing_comma.
(** The lint of an array, and that of an inline table, hold these reports; in every version. *)
Theorem C69_missing_comma_reported : forall fuel v e before item next after,
  (ekind_of e = ARRAY -> values_with_comma e = before ++ (item, None) :: next :: after -> In (MissingArrayComma, MkSpan (send (espan_of item)) (send (espan_of item))) (lint_value (S fuel) v e)) /\
  (ekind_of e = INLINE_TABLE -> key_values_with_comma e = before ++ (item, None) :: next :: after -> In (MissingInlineTableComma, MkSpan (send (espan_of item)) (send (espan_of item))) (lint_value (S fuel) v e)).
Proof.
  intros fuel v e b i n a. split; intros HK HE; cbn [lint_value]; rewrite HK; apply in_app_iff; left; apply C69_missing_comma; exists b, i, n, a; auto.
Qed.
Print Assumptions C69_missing_comma_reported.
Example C69_missing_comma_example :
  (comma_reports "x = [1, 2 3]" = [(MissingArrayComma, MkSpan 9 9)]) /\
  (comma_reports "x = {a = 1 b = 2}" = [(MissingInlineTableComma, MkSpan 10 10)]) /\
  (map fst (comma_reports "x = [[1 2] [3 4]]") = [MissingArrayComma; MissingArrayComma; MissingArrayComma]).
Proof. vm_compute. repeat split. Qed.

(** C69: the rule for commas behind the key/values of a table reports each such comma, the sign itself without the comments around it, and nothing
    else. *)
Theorem C69_trailing_comma : forall e r, In r (trailing_comma e) <->
  exists group item comma sign, In group (item_groups (key_value_groups e)) /\ In (item, Some comma) (items_with_comma (is_kind KEY_VALUE) group) /\
    token COMMA comma = Some sign /\ r = (ForbiddenKeyValueTrailingComma, espan_of sign).
Proof.
  intros e r. unfold trailing_comma, comma_token. rewrite in_flat_map. split.
  - intros (g & HG & H). apply in_flat_map in H as ([x c] & HX & H). cbn [snd] in H. destruct c as [c|]; [|destruct H]. destruct (token COMMA c) as [t|] eqn:ET; [|destruct H]. destruct H as [<- |[]]. exists g, x, c, t. auto.
  - intros (g & x & c & t & HG & HX & ET & ->). exists g. split; [exact HG|]. apply in_flat_map. exists (x, Some c). split; [exact HX|]. cbn [snd]. rewrite ET. left. reflexivity.
Qed.
Print Assumptions C69_trailing_comma.
(** The lint of a table holds these reports, and that of the document holds those of its key/values before the first header. *)
Theorem C69_trailing_comma_reported : forall fuel v e r, In r (trailing_comma e) -> In r (lint_table fuel v e) /\ In r (lint_root fuel v e).
Proof. intros fuel v e r H. split; apply in_app_iff; left; exact H. Qed.
Print Assumptions C69_trailing_comma_reported.
Example C69_trailing_comma_example :
  (comma_reports "a = 1 , # c|b = 2" = [(ForbiddenKeyValueTrailingComma, MkSpan 6 7)]) /\ (map fst (comma_reports "[t]|a = 1,") = [ForbiddenKeyValueTrailingComma]).
Proof. vm_compute. repeat split. Qed.
