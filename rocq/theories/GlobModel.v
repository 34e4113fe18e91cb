(** * Selecting files and their options: crates/tombi-glob/src, crates/tombi-config/src *)
From Coq Require Import String Ascii List NArith Bool.
From Verif Require Import Base.
Import ListNotations.
Open Scope N_scope.
Open Scope list_scope.

(** ** Paths *)
(** [std::path::Path] as its components; an absolute path begins with the component "/".  Simplified: a path is its components, so
    redundant separators and "." inside a path are taken as already removed, and a path is valid Unicode. *)
Notation path := (list (list N)) (only parsing).
(** [Path::to_string_lossy] *)
Fixpoint join (p : path) : str :=
  match p with
  | [] => []
  | [c] => c
  | c :: p => c ++ 47 :: join p
  end.
Definition show (p : path) : str :=
  match p with
  | c :: rest => if str_eqb c (lit "/") then lit "/" ++ join rest else join p
  | [] => []
  end.
(** [Path::strip_prefix] ([Path::starts_with] is whether it succeeds) *)
Fixpoint strip_prefix (root p : path) : option path :=
  match root, p with
  | [], _ => Some p
  | r :: root, c :: p => if str_eqb r c then strip_prefix root p else None
  | _ :: _, [] => None
  end.
(** [Path::parent] *)
Definition parent (p : path) : option path :=
  match p with
  | [] => None
  | [c] => if str_eqb c (lit "/") then None else Some []
  | _ => Some (removelast p)
  end.
(** [Path::file_name] *)
Definition file_name (p : path) : option str :=
  match rev p with
  | c :: _ => if str_eqb c (lit "/") || str_eqb c (lit ".") || str_eqb c (lit "..") then None else Some c
  | [] => None
  end.
Definition is_name (n : option str) (s : str) : bool := match n with Some n => str_eqb n s | None => false end.
(** crates/tombi-config/src/level.rs:13-23 *)
Definition config_base_dir (config_path : path) : option path :=
  match parent config_path with
  | Some dir => if is_name (file_name config_path) (lit "tombi.toml") && is_name (file_name dir) (lit ".config") then parent dir else Some dir
  | None => None
  end.

(** ** The configuration *)
(** The values of the options are kept as numbers: they are only passed on here. *)
(** crates/tombi-config/src/format.rs:23-233 *)
Record format_rules := {
  array_bracket_space_width : option N;
  array_comma_space_width : option N;
  comment_style : option N;
  date_time_delimiter : option N;
  group_blank_lines_limit : option N;
  indent_style : option N;
  indent_sub_tables : option N;
  indent_table_key_value_pairs : option N;
  indent_width : option N;
  inline_table_brace_space_width : option N;
  inline_table_comma_space_width : option N;
  key_value_equals_sign_alignment : option N;
  key_quote_style : option N;
  string_quote_style : option N;
  trailing_comment_alignment : option N;
  key_value_equals_sign_space_width : option N;
  line_ending : option N;
  line_width : option N;
  table_blank_lines : option N;
  trailing_comment_space_width : option N
}.
Definition no_format_rules : format_rules := {|
  array_bracket_space_width := None;
  array_comma_space_width := None;
  comment_style := None;
  date_time_delimiter := None;
  group_blank_lines_limit := None;
  indent_style := None;
  indent_sub_tables := None;
  indent_table_key_value_pairs := None;
  indent_width := None;
  inline_table_brace_space_width := None;
  inline_table_comma_space_width := None;
  key_value_equals_sign_alignment := None;
  key_quote_style := None;
  string_quote_style := None;
  trailing_comment_alignment := None;
  key_value_equals_sign_space_width := None;
  line_ending := None;
  line_width := None;
  table_blank_lines := None;
  trailing_comment_space_width := None
|}.
(** [Option::or] *)
Definition or {A} (a b : option A) : option A := match a with Some _ => a | None => b end.
(** [FormatRules::merge], crates/tombi-config/src/format.rs:305-354 *)
Definition merge_format_rules (self other : format_rules) : format_rules := {|
  array_bracket_space_width := or self.(array_bracket_space_width) other.(array_bracket_space_width);
  array_comma_space_width := or self.(array_comma_space_width) other.(array_comma_space_width);
  comment_style := or self.(comment_style) other.(comment_style);
  date_time_delimiter := or self.(date_time_delimiter) other.(date_time_delimiter);
  group_blank_lines_limit := or self.(group_blank_lines_limit) other.(group_blank_lines_limit);
  indent_style := or self.(indent_style) other.(indent_style);
  indent_sub_tables := or self.(indent_sub_tables) other.(indent_sub_tables);
  indent_table_key_value_pairs := or self.(indent_table_key_value_pairs) other.(indent_table_key_value_pairs);
  indent_width := or self.(indent_width) other.(indent_width);
  inline_table_brace_space_width := or self.(inline_table_brace_space_width) other.(inline_table_brace_space_width);
  inline_table_comma_space_width := or self.(inline_table_comma_space_width) other.(inline_table_comma_space_width);
  key_value_equals_sign_alignment := or self.(key_value_equals_sign_alignment) other.(key_value_equals_sign_alignment);
  key_quote_style := or self.(key_quote_style) other.(key_quote_style);
  string_quote_style := or self.(string_quote_style) other.(string_quote_style);
  trailing_comment_alignment := or self.(trailing_comment_alignment) other.(trailing_comment_alignment);
  key_value_equals_sign_space_width := or self.(key_value_equals_sign_space_width) other.(key_value_equals_sign_space_width);
  line_ending := or self.(line_ending) other.(line_ending);
  line_width := or self.(line_width) other.(line_width);
  table_blank_lines := or self.(table_blank_lines) other.(table_blank_lines);
  trailing_comment_space_width := or self.(trailing_comment_space_width) other.(trailing_comment_space_width)
|}.
(** crates/tombi-config/src/lint.rs:32-72 *)
Record lint_rules := {key_empty : option N; dotted_keys_out_of_order : option N; tables_out_of_order : option N}.
Definition no_lint_rules : lint_rules := {|key_empty := None; dotted_keys_out_of_order := None; tables_out_of_order := None|}.
(** [LintRules::merge], crates/tombi-config/src/lint.rs:74-86 *)
Definition merge_lint_rules (self other : lint_rules) : lint_rules := {|
  key_empty := or self.(key_empty) other.(key_empty);
  dotted_keys_out_of_order := or self.(dotted_keys_out_of_order) other.(dotted_keys_out_of_order);
  tables_out_of_order := or self.(tables_out_of_order) other.(tables_out_of_order)
|}.

(** crates/tombi-config/src/files.rs:10-44; the default includes all [.toml] files *)
Record files_options := { include : option (list str); exclude : option (list str) }.
Definition default_files : files_options := {| include := Some [lit "**/*.toml"]; exclude := None |}.
(** crates/tombi-config/src/overrides.rs:10-69; [enabled] is [None] if not set *)
Record override_files := { o_include : list str; o_exclude : option (list str) }.
Record override_options (R : Type) := { enabled : option bool; rules : option R }.
Arguments enabled {R}. Arguments rules {R}.
Record override_item := { files : override_files; format : option (override_options format_rules); lint : option (override_options lint_rules) }.
(** crates/tombi-config/src/lib.rs:57-84: [files], [format.rules], [lint.rules], [overrides] *)
Record config := { c_files : option files_options; c_format : option (option format_rules); c_lint : option (option lint_rules);
                   overrides : option (list override_item) }.
(** [Config::merge_format], crates/tombi-config/src/lib.rs:161-175; [FormatOptions] is its rules *)
Definition merge_format (c : config) (o : option (override_options format_rules)) : format_rules :=
  let base := match c_format c with Some (Some r) => r | _ => no_format_rules end in
  match o with Some {| rules := Some r |} => merge_format_rules base r | _ => base end.
(** [Config::merge_lint], crates/tombi-config/src/lib.rs:177-194 *)
Definition merge_lint (c : config) (o : option (override_options lint_rules)) : lint_rules :=
  let base := match c_lint c with Some (Some r) => r | _ => no_lint_rules end in
  match o with Some {| rules := Some r |} => merge_lint_rules base r | _ => base end.

Section glob.
(** [fast_glob::glob_match], and [Path::canonicalize] (the path itself if it fails) *)
Context (glob_match : str -> str -> bool) (canonicalize : path -> path).

(** crates/tombi-glob/src/file_match.rs:54-75 and crates/tombi-glob/src/lib.rs:111-133; the argument is already canonical *)
Definition relative_document_text_path (doc : path) (config_path : option path) : str :=
  match config_path with
  | Some c =>
      match config_base_dir (canonicalize c) with
      | Some dir => match strip_prefix dir doc with Some rel => show rel | None => show doc end
      | None => show doc
      end
  | None => show doc
  end.
Inductive match_result := Matched | IncludeNotMatched | ExcludeMatched.
(** crates/tombi-glob/src/file_match.rs:13-52 *)
Definition matches_file_patterns (doc : path) (config_path : option path) (c : config) : match_result :=
  let text := relative_document_text_path (canonicalize doc) config_path in
  let f := match c_files c with Some f => f | None => default_files end in
  match include f with
  | Some ps => if existsb (fun p => glob_match p text) ps then
                 match exclude f with
                 | Some ps => if existsb (fun p => glob_match p text) ps then ExcludeMatched else Matched
                 | None => Matched
                 end
               else IncludeNotMatched
  | None => match exclude f with
            | Some ps => if existsb (fun p => glob_match p text) ps then ExcludeMatched else Matched
            | None => Matched
            end
  end.
(** crates/tombi-glob/src/lib.rs:74-108 *)
Definition matches_override_files (doc : path) (config_path : option path) (f : override_files) : bool :=
  let text := relative_document_text_path (canonicalize doc) config_path in
  if existsb (fun p => glob_match p text) (o_include f) then
    match o_exclude f with
    | Some ps => negb (existsb (fun p => glob_match p text) ps)
    | None => true
    end
  else false.
(** crates/tombi-glob/src/lib.rs:17-43 *)
Fixpoint format_loop (c : config) (doc : path) (config_path : option path) (l : list override_item) : option format_rules :=
  match l with
  | [] => Some (merge_format c None)
  | o :: l =>
      if matches_override_files doc config_path (files o) then
        match format o with
        | Some f => match enabled f with Some false => None | _ => Some (merge_format c (Some f)) end
        | None => Some (merge_format c None)
        end
      else format_loop c doc config_path l
  end.
Definition get_format_options (c : config) (doc : option path) (config_path : option path) : option format_rules :=
  match doc, overrides c with
  | Some doc, Some l => format_loop c doc config_path l
  | _, _ => Some (merge_format c None)
  end.
(** crates/tombi-glob/src/lib.rs:45-71 *)
Fixpoint lint_loop (c : config) (doc : path) (config_path : option path) (l : list override_item) : option lint_rules :=
  match l with
  | [] => Some (merge_lint c None)
  | o :: l =>
      if matches_override_files doc config_path (files o) then
        match lint o with
        | Some f => match enabled f with Some false => None | _ => Some (merge_lint c (Some f)) end
        | None => Some (merge_lint c None)
        end
      else lint_loop c doc config_path l
  end.
Definition get_lint_options (c : config) (doc : option path) (config_path : option path) : option lint_rules :=
  match doc, overrides c with
  | Some doc, Some l => lint_loop c doc config_path l
  | _, _ => Some (merge_lint c None)
  end.

(** ** Searching *)
(** crates/tombi-glob/src/pattern.rs:9-15 *)
Definition path_for_patterns (p root : path) : str := match strip_prefix root p with Some rel => show rel | None => show p end.
(** crates/tombi-glob/src/pattern.rs:18-26 *)
Definition matches_any_pattern (text : str) (patterns : list str) : bool :=
  existsb (fun p => glob_match p text) (filter (fun p => match p with [] => false | _ => true end) patterns).
Definition or_empty {A} (l : option (list A)) : list A := match l with Some l => l | None => [] end.
(** the visitor of [WalkDir::walk], crates/tombi-glob/src/walk_dir.rs:87-127: [visited] are the files the [ignore] crate hands over,
    in the order in which its threads happen to do so *)
Definition walk (root : path) (o : files_options) (visited : list path) : list path :=
  filter (fun p =>
    let text := path_for_patterns p root in
    let inc := or_empty (include o) in
    (match inc with [] => true | _ => matches_any_pattern text inc end) && negb (matches_any_pattern text (or_empty (exclude o)))) visited.
(** crates/tombi-glob/src/file_search.rs:20-24 *)
Inductive entry := Found (p : path) | Skipped (p : path) | NotFound (p : path).
(** crates/tombi-glob/src/file_search.rs:143-150 *)
Definition is_glob_pattern (s : str) : bool := existsb (fun c => (c =? 42) || (c =? 63) || (c =? 91) || (c =? 93)) s.
(** crates/tombi-glob/src/file_search.rs:66-107, one argument of the command line.  [is_file], [is_dir] and [files_below] (the files
    the walk visits) are the file system; failures of the walk are not modelled. *)
Definition search_argument (is_file is_dir : path -> bool) (files_below : path -> list path) (parse : str -> path)
    (root : path) (o : files_options) (argument : str) : list entry :=
  if is_glob_pattern argument then
    map Found (walk root {| include := Some [argument]; exclude := exclude o |} (files_below root))
  else
    let p := parse argument in
    if is_file p then
      if match exclude o with Some ps => matches_any_pattern (path_for_patterns p root) ps | None => false end then [Skipped p] else [Found p]
    else if is_dir p then map Found (walk p o (files_below p))
    else [NotFound p].
End glob.
