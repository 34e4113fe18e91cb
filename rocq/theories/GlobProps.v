(** * Selecting files and their options (C24) *)
From Coq Require Import String Ascii List NArith Bool.
From Verif Require Import Base GlobModel.
Import ListNotations.
Open Scope N_scope.
Open Scope list_scope.

(** ** Which files *)
(** the text patterns are matched against: relative to the configuration's directory [base] if the file is below it *)
Definition text_of (base : option path) (doc : path) (text : str) : Prop :=
  match base with
  | Some dir => (exists rest, doc = dir ++ rest /\ text = show rest) \/ ((forall rest, doc <> dir ++ rest) /\ text = show doc)
  | None => text = show doc
  end.
(** [dir] is the directory of the configuration file; for [x/.config/tombi.toml] it is [x] *)
Definition base_of (canonicalize : path -> path) (config_path : option path) : option path :=
  match config_path with Some c => config_base_dir (canonicalize c) | None => None end.
Definition any_match (glob_match : str -> str -> bool) (ps : list str) (text : str) : Prop := exists p, In p ps /\ glob_match p text = true.
(** included: no include list, or one of its patterns matches; not excluded: no pattern of the exclude list matches *)
Definition included (glob_match : str -> str -> bool) (f : files_options) (text : str) : Prop :=
  match include f with Some ps => any_match glob_match ps text | None => True end.
Definition excluded (glob_match : str -> str -> bool) (f : files_options) (text : str) : Prop :=
  match exclude f with Some ps => any_match glob_match ps text | None => False end.

Lemma strip_spec root : forall p, match strip_prefix root p with Some rest => p = root ++ rest | None => forall rest, p <> root ++ rest end.
Proof.
  induction root as [|r root IH]; intros p; [reflexivity|]. destruct p as [|c p]; cbn [strip_prefix]; [discriminate|].
  destruct (str_eqb r c) eqn:E.
  - apply str_eqb_eq in E. subst. specialize (IH p). destruct (strip_prefix root p); [subst; reflexivity|]. intros rest H. injection H as H. exact (IH rest H).
  - apply str_eqb_neq in E. intros rest H. injection H as -> _. contradiction.
Qed.
Lemma relative_spec canonicalize doc cp : text_of (base_of canonicalize cp) doc (relative_document_text_path canonicalize doc cp).
Proof.
  unfold text_of, base_of, relative_document_text_path. destruct cp as [c|]; [|reflexivity]. destruct (config_base_dir (canonicalize c)) as [dir|]; [|reflexivity].
  pose proof (strip_spec dir doc) as H. destruct (strip_prefix dir doc) as [rest|]; [left; eauto|right; auto].
Qed.
Lemma text_unique base doc a b : text_of base doc a -> text_of base doc b -> a = b.
Proof.
  unfold text_of. destruct base as [dir|]; [|congruence]. intros [(r1 & E1 & ->)|[N1 ->]] [(r2 & E2 & ->)|[N2 ->]]; try congruence.
  rewrite E1 in E2. apply app_inv_head in E2. congruence.
Qed.
Lemma existsb_any glob_match ps text : existsb (fun p => glob_match p text) ps = true <-> any_match glob_match ps text.
Proof. rewrite existsb_exists. reflexivity. Qed.
Lemma bool_prop b P : (b = true <-> P) -> (b = false <-> ~ P).
Proof. destruct b; intuition congruence. Qed.

(** A file is selected exactly if an include pattern matches and no exclude pattern does; otherwise the reason is told. *)
Theorem C24_selected : forall glob_match canonicalize doc config_path c text,
  text_of (base_of canonicalize config_path) (canonicalize doc) text ->
  let f := match c_files c with Some f => f | None => default_files end in
  (matches_file_patterns glob_match canonicalize doc config_path c = Matched <-> included glob_match f text /\ ~ excluded glob_match f text) /\
  (matches_file_patterns glob_match canonicalize doc config_path c = IncludeNotMatched <-> ~ included glob_match f text) /\
  (matches_file_patterns glob_match canonicalize doc config_path c = ExcludeMatched <-> included glob_match f text /\ excluded glob_match f text).
Proof.
  intros glob_match canonicalize doc cp c text HT f. rewrite (text_unique _ _ _ _ HT (relative_spec canonicalize (canonicalize doc) cp)). clear HT.
  unfold matches_file_patterns. fold f. set (t := relative_document_text_path canonicalize (canonicalize doc) cp).
  unfold included, excluded. destruct (include f) as [ps|]; destruct (exclude f) as [qs|];
    try (pose proof (existsb_any glob_match ps t) as HP; destruct (existsb (fun p => glob_match p t) ps));
    try (pose proof (existsb_any glob_match qs t) as HQ; destruct (existsb (fun p => glob_match p t) qs));
    repeat split; intros; try discriminate; try tauto; try (intuition congruence).
Qed.
Print Assumptions C24_selected.

(** The directory patterns are relative to is the one the configuration file is in, except that a [.config/tombi.toml] counts for the
    directory above [.config]. *)
Theorem C24_base_dir : forall dir name,
  name <> lit "/" ->
  (name <> lit "tombi.toml" \/ (forall d, dir <> d ++ [lit ".config"]) -> config_base_dir (dir ++ [name]) = Some dir) /\
  (dir <> [] -> config_base_dir (dir ++ [lit ".config"; lit "tombi.toml"]) = Some dir).
Proof.
  assert (HR : forall (d : path) n, removelast (d ++ [n]) = d) by (intros; rewrite removelast_app by discriminate; apply app_nil_r).
  assert (HP : forall (d : path) n, n <> lit "/" -> parent (d ++ [n]) = Some d).
  { intros d n Hn. destruct d as [|x d]; cbn [app parent]; [rewrite (str_eqb_neq n _) || (destruct (str_eqb n (lit "/")) eqn:E; [apply str_eqb_eq in E; contradiction|]); reflexivity|].
    destruct (d ++ [n]) eqn:E; [destruct d; discriminate|]. rewrite <- E. change (x :: d ++ [n]) with ((x :: d) ++ [n]). rewrite HR. reflexivity. }
  intros dir name Hn. split.
  - intros H. unfold config_base_dir. rewrite (HP dir name Hn).
    destruct (is_name (file_name (dir ++ [name])) (lit "tombi.toml") && is_name (file_name dir) (lit ".config")) eqn:E; [|reflexivity].
    apply andb_true_iff in E as [E1 E2]. exfalso. destruct H as [H|H].
    + unfold file_name in E1. rewrite rev_app_distr in E1. cbn [rev app] in E1. destruct (_ || _) in E1; [discriminate|]. apply str_eqb_eq in E1. contradiction.
    + unfold file_name in E2. destruct (rev dir) as [|x r] eqn:ER; [discriminate|]. destruct (_ || _) in E2; [discriminate|]. apply str_eqb_eq in E2.
      apply (H (rev r)). rewrite <- (rev_involutive dir), ER. cbn [rev]. rewrite E2. reflexivity.
  - intros Hd. change [lit ".config"; lit "tombi.toml"] with ([lit ".config"] ++ [lit "tombi.toml"]). rewrite app_assoc. unfold config_base_dir. rewrite HP by discriminate.
    unfold file_name. rewrite !rev_app_distr. cbn [rev app]. change (str_eqb _ _ || _ || _) with false. cbn [is_name]. rewrite !str_eqb_refl. cbn [andb]. apply HP. discriminate.
Qed.
Print Assumptions C24_base_dir.

(** ** Which options *)
(** the overrides that concern a file *)
Definition concerns (glob_match : str -> str -> bool) (o : override_files) (text : str) : Prop :=
  any_match glob_match (o_include o) text /\ match o_exclude o with Some ps => ~ any_match glob_match ps text | None => True end.
(** the first override that concerns the file, if any *)
Definition first_override (glob_match : str -> str -> bool) (text : str) (l : list override_item) (o : option override_item) : Prop :=
  match o with
  | Some o => exists l1 l2, l = l1 ++ o :: l2 /\ concerns glob_match (files o) text /\ forall o', In o' l1 -> ~ concerns glob_match (files o') text
  | None => forall o', In o' l -> ~ concerns glob_match (files o') text
  end.
Definition base_format (c : config) : format_rules := match c_format c with Some (Some r) => r | _ => no_format_rules end.
Definition base_lint (c : config) : lint_rules := match c_lint c with Some (Some r) => r | _ => no_lint_rules end.

Lemma concerns_spec glob_match canonicalize doc cp o text : text_of (base_of canonicalize cp) (canonicalize doc) text ->
  matches_override_files glob_match canonicalize doc cp o = true <-> concerns glob_match o text.
Proof.
  intros HT. rewrite (text_unique _ _ _ _ HT (relative_spec canonicalize (canonicalize doc) cp)). unfold matches_override_files, concerns.
  set (t := relative_document_text_path canonicalize (canonicalize doc) cp).
  pose proof (existsb_any glob_match (o_include o) t) as HP. destruct (existsb (fun p => glob_match p t) (o_include o)).
  - destruct (o_exclude o) as [qs|]; [|tauto]. rewrite negb_true_iff. rewrite (bool_prop _ _ (existsb_any glob_match qs t)). tauto.
  - intuition congruence.
Qed.

(** The options of a file come from the first override that concerns it: none at all if that override is disabled, the base options
    and the override's otherwise; and the base options if no override concerns it. *)
Theorem C24_format_options : forall glob_match canonicalize doc config_path c l text o,
  text_of (base_of canonicalize config_path) (canonicalize doc) text -> overrides c = Some l -> first_override glob_match text l o ->
  get_format_options glob_match canonicalize c (Some doc) config_path =
    match o with
    | Some {| format := Some {| enabled := Some false |} |} => None
    | Some {| format := Some {| rules := Some r |} |} => Some (merge_format_rules (base_format c) r)
    | _ => Some (base_format c)
    end.
Proof.
  intros gm can doc cp c l text o HT HO HF. unfold get_format_options. rewrite HO. clear HO. revert HF. induction l as [|x l IH]; intros HF; cbn [format_loop].
  - destruct o as [o|]; [destruct HF as (l1 & l2 & E & _); destruct l1; discriminate|]. reflexivity.
  - pose proof (concerns_spec gm can doc cp (files x) text HT) as HC. destruct (matches_override_files gm can doc cp (files x)).
    + destruct o as [o|]; [|exfalso; apply (HF x (or_introl eq_refl)); tauto]. destruct HF as (l1 & l2 & E & H1 & H2). destruct l1 as [|y l1].
      * injection E as -> ->. destruct o as [fo [[en ru]|] li]; cbn [format enabled]; [|reflexivity]. destruct en as [[]|]; destruct ru; reflexivity.
      * injection E as -> _. exfalso. apply (H2 y (or_introl eq_refl)). tauto.
    + apply IH. destruct o as [o|].
      * destruct HF as (l1 & l2 & E & H1 & H2). destruct l1 as [|y l1]; injection E as -> ->; [intuition congruence|]. exists l1, l2. split; [reflexivity|]. split; [exact H1|]. intros o' Ho. apply H2. right. exact Ho.
      * intros o' Ho. apply HF. right. exact Ho.
Qed.
Print Assumptions C24_format_options.
Theorem C24_lint_options : forall glob_match canonicalize doc config_path c l text o,
  text_of (base_of canonicalize config_path) (canonicalize doc) text -> overrides c = Some l -> first_override glob_match text l o ->
  get_lint_options glob_match canonicalize c (Some doc) config_path =
    match o with
    | Some {| lint := Some {| enabled := Some false |} |} => None
    | Some {| lint := Some {| rules := Some r |} |} => Some (merge_lint_rules (base_lint c) r)
    | _ => Some (base_lint c)
    end.
Proof.
  intros gm can doc cp c l text o HT HO HF. unfold get_lint_options. rewrite HO. clear HO. revert HF. induction l as [|x l IH]; intros HF; cbn [lint_loop].
  - destruct o as [o|]; [destruct HF as (l1 & l2 & E & _); destruct l1; discriminate|]. reflexivity.
  - pose proof (concerns_spec gm can doc cp (files x) text HT) as HC. destruct (matches_override_files gm can doc cp (files x)).
    + destruct o as [o|]; [|exfalso; apply (HF x (or_introl eq_refl)); tauto]. destruct HF as (l1 & l2 & E & H1 & H2). destruct l1 as [|y l1].
      * injection E as -> ->. destruct o as [fo fm [[en ru]|]]; cbn [lint enabled]; [|reflexivity]. destruct en as [[]|]; destruct ru; reflexivity.
      * injection E as -> _. exfalso. apply (H2 y (or_introl eq_refl)). tauto.
    + apply IH. destruct o as [o|].
      * destruct HF as (l1 & l2 & E & H1 & H2). destruct l1 as [|y l1]; injection E as -> ->; [intuition congruence|]. exists l1, l2. split; [reflexivity|]. split; [exact H1|]. intros o' Ho. apply H2. right. exact Ho.
      * intros o' Ho. apply HF. right. exact Ho.
Qed.
Print Assumptions C24_lint_options.
(** Without a path (standard input) or without overrides, the options are the base options. *)
Theorem C24_no_overrides : forall glob_match canonicalize doc config_path c, doc = None \/ overrides c = None ->
  get_format_options glob_match canonicalize c doc config_path = Some (base_format c) /\ get_lint_options glob_match canonicalize c doc config_path = Some (base_lint c).
Proof. intros gm can doc cp c [-> | H]; [split; reflexivity|]. unfold get_format_options, get_lint_options. rewrite H. destruct doc; split; reflexivity. Qed.
Print Assumptions C24_no_overrides.

(** ** Field by field *)
Inductive format_field := ArrayBracketSpaceWidth | ArrayCommaSpaceWidth | CommentStyle | DateTimeDelimiter | GroupBlankLinesLimit | IndentStyle | IndentSubTables | IndentTableKeyValuePairs | IndentWidth | InlineTableBraceSpaceWidth | InlineTableCommaSpaceWidth | KeyValueEqualsSignAlignment | KeyQuoteStyle | StringQuoteStyle | TrailingCommentAlignment | KeyValueEqualsSignSpaceWidth | LineEnding | LineWidth | TableBlankLines | TrailingCommentSpaceWidth.
Definition format_value (f : format_field) (r : format_rules) : option N :=
  match f with
  | ArrayBracketSpaceWidth => array_bracket_space_width r
  | ArrayCommaSpaceWidth => array_comma_space_width r
  | CommentStyle => comment_style r
  | DateTimeDelimiter => date_time_delimiter r
  | GroupBlankLinesLimit => group_blank_lines_limit r
  | IndentStyle => indent_style r
  | IndentSubTables => indent_sub_tables r
  | IndentTableKeyValuePairs => indent_table_key_value_pairs r
  | IndentWidth => indent_width r
  | InlineTableBraceSpaceWidth => inline_table_brace_space_width r
  | InlineTableCommaSpaceWidth => inline_table_comma_space_width r
  | KeyValueEqualsSignAlignment => key_value_equals_sign_alignment r
  | KeyQuoteStyle => key_quote_style r
  | StringQuoteStyle => string_quote_style r
  | TrailingCommentAlignment => trailing_comment_alignment r
  | KeyValueEqualsSignSpaceWidth => key_value_equals_sign_space_width r
  | LineEnding => line_ending r
  | LineWidth => line_width r
  | TableBlankLines => table_blank_lines r
  | TrailingCommentSpaceWidth => trailing_comment_space_width r
  end.
Inductive lint_field := KeyEmpty | DottedKeysOutOfOrder | TablesOutOfOrder.
Definition lint_value (f : lint_field) (r : lint_rules) : option N := match f with KeyEmpty => key_empty r | DottedKeysOutOfOrder => dotted_keys_out_of_order r | TablesOutOfOrder => tables_out_of_order r end.

(** Every option is the base's if the base sets it, and otherwise the override's: the override only fills gaps. *)
Theorem C24_merged_fields : (forall f a b, format_value f (merge_format_rules a b) = match format_value f a with Some x => Some x | None => format_value f b end) /\
  (forall f a b, lint_value f (merge_lint_rules a b) = match lint_value f a with Some x => Some x | None => lint_value f b end).
Proof. split; intros f a b; destruct f; cbv [format_value lint_value merge_format_rules merge_lint_rules or]; cbn; match goal with |- _ = match ?o with _ => _ end => destruct o end; reflexivity. Qed.
Print Assumptions C24_merged_fields.
(** So an override does not override: an option that both set has the base's value. *)
Theorem C24_override_wins_refuted : exists glob_match c doc r b o x y,
  first_override glob_match (show doc) [o] (Some o) /\ overrides c = Some [o] /\
  base_format c = b /\ line_width b = Some x /\ (exists e, format o = Some {| enabled := e; rules := Some r |}) /\ line_width r = Some y /\ x <> y /\
  exists res, get_format_options glob_match (fun p => p) c (Some doc) None = Some res /\ line_width res = Some x.
Proof.
  pose (w := fun n => merge_format_rules {| line_width := Some n; array_bracket_space_width := None; array_comma_space_width := None; comment_style := None; date_time_delimiter := None;
    group_blank_lines_limit := None; indent_style := None; indent_sub_tables := None; indent_table_key_value_pairs := None; indent_width := None; inline_table_brace_space_width := None;
    inline_table_comma_space_width := None; key_value_equals_sign_alignment := None; key_quote_style := None; string_quote_style := None; trailing_comment_alignment := None;
    key_value_equals_sign_space_width := None; line_ending := None; table_blank_lines := None; trailing_comment_space_width := None |} no_format_rules).
  pose (o := {| files := {| o_include := [lit "a.toml"]; o_exclude := None |}; format := Some {| enabled := None; rules := Some (w 100) |}; lint := None |}).
  exists str_eqb, {| c_files := None; c_format := Some (Some (w 80)); c_lint := None; overrides := Some [o] |}, [lit "a.toml"], (w 100), (w 80), o, 80, 100.
  split.
  { exists [], []. split; [reflexivity|]. split; [|intros o' []]. split; [|exact I]. exists (lit "a.toml"). split; [left; reflexivity|reflexivity]. }
  repeat split; try reflexivity; try discriminate; try (exists None; reflexivity).
  eexists. split; vm_compute; reflexivity.
Qed.
Print Assumptions C24_override_wins_refuted.

(** ** The command line and the editor *)
(** What the walk selects, whatever the order of its threads: a pattern that is empty never matches, and no include pattern at all
    includes everything. *)
Theorem C24_walk : forall glob_match root o visited p,
  In p (walk glob_match root o visited) <->
  In p visited /\
  (exists text, text_of (Some root) p text /\
   (or_empty (include o) = [] \/ exists q, In q (or_empty (include o)) /\ q <> [] /\ glob_match q text = true) /\
   forall q, In q (or_empty (exclude o)) -> q <> [] -> glob_match q text = false).
Proof.
  intros gm root o visited p. unfold walk. rewrite filter_In. apply and_iff_compat_l.
  assert (HT : text_of (Some root) p (path_for_patterns p root)).
  { unfold text_of, path_for_patterns. pose proof (strip_spec root p) as H. destruct (strip_prefix root p); [left; eauto|right; auto]. }
  assert (HM : forall ps, matches_any_pattern gm (path_for_patterns p root) ps = true <-> exists q, In q ps /\ q <> [] /\ gm q (path_for_patterns p root) = true).
  { intros ps. unfold matches_any_pattern. rewrite existsb_exists. split.
    - intros (q & Hq & H). apply filter_In in Hq as [Hq Hn]. exists q. split; [exact Hq|]. split; [destruct q; [discriminate|discriminate]|exact H].
    - intros (q & Hq & Hn & H). exists q. split; [apply filter_In; split; [exact Hq|destruct q; [contradiction|reflexivity]]|exact H]. }
  rewrite andb_true_iff, negb_true_iff. rewrite (bool_prop _ _ (HM (or_empty (exclude o)))). split.
  - intros [H1 H2]. exists (path_for_patterns p root). split; [exact HT|]. split.
    + destruct (or_empty (include o)) as [|x l] eqn:E; [left; reflexivity|]. right. apply HM. exact H1.
    + intros q Hq Hn. destruct (gm q (path_for_patterns p root)) eqn:E; [|reflexivity]. exfalso. apply H2. eauto.
  - intros (text & Ht & H1 & H2). rewrite (text_unique _ _ _ _ Ht HT) in *. split.
    + destruct H1 as [H1|H1]; [rewrite H1; reflexivity|]. apply HM in H1. destruct (or_empty (include o)); [reflexivity|exact H1].
    + intros (q & Hq & Hn & H). rewrite (H2 q Hq Hn) in H. discriminate.
Qed.
Print Assumptions C24_walk.

(** The walk of a project and the editor agree on which of its files are selected (partial: the include list is not the empty list and
    no pattern is empty). *)
Theorem C24_walk_agrees_partial : forall glob_match canonicalize config_path c f root visited p,
  c_files c = Some f -> base_of canonicalize (Some config_path) = Some root -> canonicalize p = p -> In p visited ->
  include f <> Some [] -> ~ In [] (or_empty (include f)) -> ~ In [] (or_empty (exclude f)) ->
  In p (walk glob_match root f visited) <-> matches_file_patterns glob_match canonicalize p (Some config_path) c = Matched.
Proof.
  intros gm can cp c f root visited p HF HB HC HV HI HN1 HN2. rewrite C24_walk.
  pose proof (relative_spec can p (Some cp)) as HT. rewrite HB in HT.
  assert (HT' : text_of (base_of can (Some cp)) (can p) (relative_document_text_path can p (Some cp))) by (rewrite HB, HC; exact HT).
  destruct (C24_selected gm can p (Some cp) c _ HT') as [HS _]. rewrite HF in HS. rewrite HS. clear HS HT'. set (t := relative_document_text_path can p (Some cp)) in *. split.
  - intros (_ & text & Ht & H1 & H2). rewrite (text_unique _ _ _ _ Ht HT) in *. split.
    + unfold included. destruct (include f) as [ps|]; [|exact I]. cbn [or_empty] in *. destruct H1 as [->|(q & Hq & _ & H)]; [contradiction|]. exists q. auto.
    + unfold excluded. destruct (exclude f) as [qs|]; [|tauto]. cbn [or_empty] in *. intros (q & Hq & H). rewrite (H2 q Hq) in H; [discriminate|]. intros ->. contradiction.
  - intros [H1 H2]. split; [exact HV|]. exists t. split; [exact HT|]. unfold included, excluded in *. split.
    + destruct (include f) as [ps|]; [|left; reflexivity]. cbn [or_empty] in *. destruct H1 as (q & Hq & H). right. exists q. split; [exact Hq|]. split; [intros ->; contradiction|exact H].
    + intros q Hq Hn. destruct (exclude f) as [qs|]; [|destruct Hq]. cbn [or_empty] in Hq. destruct (gm q t) eqn:E; [|reflexivity]. exfalso. apply H2. exists q. auto.
Qed.
Print Assumptions C24_walk_agrees_partial.
(** With [include = []] the command line processes every file and the editor none. *)
Theorem C24_empty_include_refuted : forall glob_match root p config_path c visited,
  c_files c = Some {| include := Some []; exclude := None |} -> In p visited ->
  In p (walk glob_match root {| include := Some []; exclude := None |} visited) /\
  matches_file_patterns glob_match (fun p => p) p config_path c = IncludeNotMatched.
Proof.
  intros gm root p cp c visited HF HV. split.
  - unfold walk. apply filter_In. split; [exact HV|reflexivity].
  - unfold matches_file_patterns. rewrite HF. reflexivity.
Qed.
Print Assumptions C24_empty_include_refuted.

(** A file named on the command line is processed unless an exclude pattern matches; include patterns play no role. *)
Theorem C24_named_file : forall glob_match is_file is_dir below parse root o argument,
  is_glob_pattern argument = false -> is_file (parse argument) = true ->
  search_argument glob_match is_file is_dir below parse root o argument =
    [if existsb (fun q => glob_match q (path_for_patterns (parse argument) root)) (filter (fun q => negb (str_eqb q [])) (or_empty (exclude o)))
     then Skipped (parse argument) else Found (parse argument)].
Proof.
  intros gm isf isd below parse root o arg HG HF. unfold search_argument. rewrite HG, HF.
  assert (HE : forall ps, filter (fun q : str => negb (str_eqb q [])) ps = filter (fun p => match p with [] => false | _ => true end) ps).
  { intros ps. induction ps as [|q ps IH]; [reflexivity|]. cbn [filter]. rewrite IH. destruct q; reflexivity. }
  destruct (exclude o) as [ps|]; cbn [or_empty]; [|reflexivity]. rewrite HE. unfold matches_any_pattern. destruct (existsb _ _); reflexivity.
Qed.
Print Assumptions C24_named_file.
(** A relative name is matched as it was typed, so an exclude pattern that the editor applies can be missed: below the project
    directory /p, in /p/d, the file a.toml is excluded by "d/a.toml" in the editor and processed by the command line. *)
Theorem C24_named_file_missed_refuted :
  let root := [lit "/"; lit "p"] in
  let o := {| include := Some [lit "d/a.toml"]; exclude := Some [lit "d/a.toml"] |} in
  let c := {| c_files := Some o; c_format := None; c_lint := None; overrides := None |} in
  let cwd := root ++ [lit "d"] in
  let canonicalize := fun p => match p with x :: _ => if str_eqb x (lit "/") then p else cwd ++ p | [] => cwd end in
  matches_file_patterns str_eqb canonicalize [lit "a.toml"] (Some (root ++ [lit "tombi.toml"])) c = ExcludeMatched /\
  search_argument str_eqb (fun _ => true) (fun _ => false) (fun _ => []) (fun s => [s]) root o (lit "a.toml") = [Found [lit "a.toml"]].
Proof. vm_compute. split; reflexivity. Qed.
Print Assumptions C24_named_file_missed_refuted.

(** an override that disables formatting below [vendor/], before one that would fill in options *)
Example C24_example :
  let o1 := {| files := {| o_include := [lit "vendor/x.toml"]; o_exclude := None |}; format := Some {| enabled := Some false; rules := None |}; lint := None |} in
  let o2 := {| files := {| o_include := [lit "a.toml"; lit "vendor/x.toml"]; o_exclude := None |}; format := Some {| enabled := None; rules := None |}; lint := None |} in
  let c := {| c_files := None; c_format := None; c_lint := None; overrides := Some [o1; o2] |} in
  let doc := [lit "/"; lit "p"; lit "vendor"; lit "x.toml"] in
  let cp := [lit "/"; lit "p"; lit ".config"; lit "tombi.toml"] in
  text_of (base_of (fun p => p) (Some cp)) doc (lit "vendor/x.toml") /\
  first_override str_eqb (lit "vendor/x.toml") [o1; o2] (Some o1) /\
  get_format_options str_eqb (fun p => p) c (Some doc) (Some cp) = None.
Proof.
  split; [|split; [|vm_compute; reflexivity]].
  - left. exists [lit "vendor"; lit "x.toml"]. split; reflexivity.
  - exists [], [{| files := {| o_include := [lit "a.toml"; lit "vendor/x.toml"]; o_exclude := None |}; format := Some {| enabled := None; rules := None |}; lint := None |}].
    split; [reflexivity|]. split; [|intros o' []]. split; [|exact I]. exists (lit "vendor/x.toml"). split; [left; reflexivity|reflexivity].
Qed.
