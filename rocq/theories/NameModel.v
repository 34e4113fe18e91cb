(** * Names of options: crates/tombi-x-keyword, crates/tombi-severity-level, crates/tombi-toml-version *)
From Coq Require Import String Ascii List NArith Bool.
From Verif Require Import Base.
Import ListNotations.
Open Scope N_scope.
Open Scope list_scope.

(** a [match] on string literals: the arms in order *)
Fixpoint arms {A} (l : list (str * A)) (s : str) : option A :=
  match l with
  | [] => None
  | (n, a) :: l => if str_eqb s n then Some a else arms l s
  end.
(** serde's [rename_all = "kebab-case"] on a variant's name, serde_derive/src/internals/case.rs [RenameRule::apply_to_variant]: a
    separator before each upper case letter but the first, all in lower case *)
Fixpoint kebab_from (first : bool) (s : str) : str :=
  match s with
  | [] => []
  | c :: s =>
      let up := (65 <=? c) && (c <=? 90) in
      (if up && negb first then [45] else []) ++ [if up then c + 32 else c] ++ kebab_from false s
  end.
Definition kebab (s : str) : str := kebab_from true s.

(** crates/tombi-x-keyword/src/lib.rs:14-40 [ArrayValuesOrder] *)
Inductive array_order := AAscending | ADescending | AVersionSort.
Definition array_order_ident o := match o with AAscending => lit "Ascending" | ADescending => lit "Descending" | AVersionSort => lit "VersionSort" end.
Definition show_array_order o := match o with AAscending => lit "ascending" | ADescending => lit "descending" | AVersionSort => lit "version-sort" end.
Definition read_array_order : str -> option array_order :=
  arms [(lit "ascending", AAscending); (lit "descending", ADescending); (lit "version-sort", AVersionSort)].

(** lib.rs:50-66 [ArrayValuesOrderBy] *)
Definition show_order_by (s : str) : str := s.
Definition read_order_by (s : str) : option str := Some s.

(** lib.rs:74-108 [TableKeysOrder] *)
Inductive table_order := TAscending | TDescending | TSchema | TVersionSort.
Definition table_order_ident o := match o with TAscending => lit "Ascending" | TDescending => lit "Descending" | TSchema => lit "Schema" | TVersionSort => lit "VersionSort" end.
Definition show_table_order o := match o with TAscending => lit "ascending" | TDescending => lit "descending" | TSchema => lit "schema" | TVersionSort => lit "version-sort" end.
Definition read_table_order : str -> option table_order :=
  arms [(lit "ascending", TAscending); (lit "descending", TDescending); (lit "schema", TSchema); (lit "version-sort", TVersionSort)].

(** lib.rs:110-141 [TableKeysOrderGroupKind] *)
Inductive group_kind := Keys | AdditionalKeys | PatternKeys.
Definition show_group_kind o := match o with Keys => lit "Keys" | AdditionalKeys => lit "Additional Keys" | PatternKeys => lit "Pattern Keys" end.
Definition read_group_kind : str -> option group_kind :=
  arms [(lit "properties", Keys); (lit "additionalProperties", AdditionalKeys); (lit "patternProperties", PatternKeys)].

(** lib.rs:143-263 [StringFormat], [TomlDateTimeType] *)
Inductive string_format := Email | Hostname | Uri | UriReference | Uuid | Ipv4 | Ipv6 | DateTime | DateTimeLocal | Date | Time | TimeLocal | Regex | JsonPointer.
Inductive date_time_type := OffsetDateTime | LocalDateTime | LocalDate | LocalTime.
Definition format_ident f :=
  match f with
  | Email => lit "Email" | Hostname => lit "Hostname" | Uri => lit "Uri" | UriReference => lit "UriReference" | Uuid => lit "Uuid" | Ipv4 => lit "Ipv4" | Ipv6 => lit "Ipv6"
  | DateTime => lit "DateTime" | DateTimeLocal => lit "DateTimeLocal" | Date => lit "Date" | Time => lit "Time" | TimeLocal => lit "TimeLocal" | Regex => lit "Regex" | JsonPointer => lit "JsonPointer"
  end.
(** lib.rs:218-263: each variant's [name], [aliases] and [toml_date_time_type] *)
Definition define_string_formats : list (string_format * str * list str * option date_time_type) :=
  [ (Email, lit "email", [], None); (Hostname, lit "hostname", [], None); (Uri, lit "uri", [], None); (UriReference, lit "uri-reference", [], None);
    (Uuid, lit "uuid", [], None); (Ipv4, lit "ipv4", [], None); (Ipv6, lit "ipv6", [], None); (DateTime, lit "date-time", [], Some OffsetDateTime);
    (DateTimeLocal, lit "date-time-local", [lit "partial-date-time"], Some LocalDateTime); (Date, lit "date", [], Some LocalDate); (Time, lit "time", [], None);
    (TimeLocal, lit "time-local", [lit "partial-time"], Some LocalTime); (Regex, lit "regex", [], None); (JsonPointer, lit "json-pointer", [], None) ].
Definition format_eqb (a b : string_format) : bool := str_eqb (format_ident a) (format_ident b).
(** lib.rs:170-173 [ALL], 175-180 [as_str], 182-187 [aliases], 189-194 [toml_date_time_type], 203-212 [from_str] *)
Definition all_formats : list string_format := map (fun x => fst (fst (fst x))) define_string_formats.
Definition row (f : string_format) := find (fun x => format_eqb (fst (fst (fst x))) f) define_string_formats.
Definition format_as_str f : str := match row f with Some (_, n, _, _) => n | None => [] end.
Definition format_aliases f : list str := match row f with Some (_, _, a, _) => a | None => [] end.
Definition format_date_time_type f : option date_time_type := match row f with Some (_, _, _, t) => t | None => None end.
Definition read_format : str -> option string_format :=
  arms (flat_map (fun x => let '(f, n, a, _) := x in (n, f) :: map (fun a => (a, f)) a) define_string_formats).

(** crates/tombi-severity-level/src/lib.rs:1-9 [SeverityLevel], 39-41 the defaults *)
Inductive severity := Off | Warn | Error.
Definition severity_ident s := match s with Off => lit "Off" | Warn => lit "Warn" | Error => lit "Error" end.
(** what serde's derive writes and reads for an enum of unit variants *)
Definition show_severity s := kebab (severity_ident s).
Definition read_severity : str -> option severity := arms (map (fun s => (kebab (severity_ident s), s)) [Off; Warn; Error]).

(** crates/tombi-toml-version/src/lib.rs:3-19, 44-69 [TomlVersion]; the order is that of the derive *)
Inductive toml_version := V1_0_0 | V1_1_0_Preview | V1_1_0.
Definition show_version v := match v with V1_0_0 => lit "v1.0.0" | V1_1_0_Preview => lit "v1.1.0-preview" | V1_1_0 => lit "v1.1.0" end.
Definition read_version : str -> option toml_version := arms [(lit "v1.0.0", V1_0_0); (lit "v1.1.0-preview", V1_1_0_Preview); (lit "v1.1.0", V1_1_0)].
Definition version_rank v : N := match v with V1_0_0 => 0 | V1_1_0_Preview => 1 | V1_1_0 => 2 end.
Definition latest := V1_1_0.
