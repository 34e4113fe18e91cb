(** * What a Rust value says, and which documents can be written

    Written without the serializer: what serde's data model means in TOML (serde.rs, "Serde data model" and "Enum
    representations"; the default representation of enums is the externally tagged one, which is also what
    rust/serde_tombi/src/de.rs reads). *)
From Coq Require Import String Ascii List NArith ZArith Bool Sorting.Permutation.
From Verif Require Import Base SyntaxKind TextModel TomlTextModel NumberModel NumberSpec DateTimeModel DateTimeSpec TomlGrammar TomlStringGrammar Regex TextTreeModel DocTreeSpec SerdeModel.
Import ListNotations.
Open Scope N_scope.
Open Scope list_scope.

(** * Values *)
(** A value that is not there: [None] *)
Inductive absent : sval -> Prop :=
| absent_none : absent SNone
| absent_some v : absent v -> absent (SSome v).
(** names that mean something to tombi *)
Definition ordinary (name : str) : Prop :=
  name <> OFFSET_DATE_TIME_NAME /\ name <> LOCAL_DATE_TIME_NAME /\ name <> LOCAL_DATE_NAME /\ name <> LOCAL_TIME_NAME /\ name <> INLINE_NAME.
Definition said (s : TextTreeModel.scalar) : data := DScalar (code s).
(** the names of the fields of a map: strings, characters and unit variants *)
Inductive names : sval -> str -> Prop :=
| names_str s : names (SStr s) s
| names_char c : names (SChar c) [c]
| names_variant s : names (SUnitVariant s) s.
Inductive means : sval -> data -> Prop :=
| means_bool b : means (SBool b) (said (VBoolean b))
| means_int z : in_i64 z -> means (SInt z) (said (VInteger z))
| means_uint n : means (SUint n) (said (VInteger (Z.of_N n)))
| means_float f : means (SFloat f) (said (VFloat f))
| means_char c : means (SChar c) (said (VString [c]))
| means_str s : means (SStr s) (said (VString s))
| means_some v d : means v d -> means (SSome v) d
| means_unit_variant s : means (SUnitVariant s) (said (VString s))
| means_newtype name v d : ordinary name -> means v d -> means (SNewtypeStruct name v) d
| means_inline v d : means v d -> means (SNewtypeStruct INLINE_NAME v) d
| means_offset_date_time d t o : valid_date d -> valid_time t -> valid_offset o ->
    means (SNewtypeStruct OFFSET_DATE_TIME_NAME (SStr (print_offset_date_time (d, t, o)))) (said (VOffsetDateTime (d, t, o)))
| means_local_date_time d t : valid_date d -> valid_time t ->
    means (SNewtypeStruct LOCAL_DATE_TIME_NAME (SStr (print_local_date_time (d, t)))) (said (VLocalDateTime (d, t)))
| means_local_date d : valid_date d -> means (SNewtypeStruct LOCAL_DATE_NAME (SStr (print_date d))) (said (VLocalDate d))
| means_local_time t : valid_time t -> means (SNewtypeStruct LOCAL_TIME_NAME (SStr (print_time t))) (said (VLocalTime t))
| means_seq vs ds : means_all vs ds -> means (SSeq vs) (DArray ds)
| means_map kvs es : means_fields kvs es -> NoDup (map fst es) -> means (SMap kvs) (DTable es)
| means_newtype_variant name v d : means v d -> means (SNewtypeVariant name v) (DTable [(name, d)])
| means_tuple_variant name vs ds : means_all vs ds -> means (STupleVariant name vs) (DTable [(name, DArray ds)])
| means_struct_variant name kvs es : means_fields kvs es -> NoDup (map fst es) -> means (SStructVariant name kvs) (DTable [(name, DTable es)])
with means_all : list sval -> list data -> Prop :=
| means_nil : means_all [] []
| means_cons v d vs ds : means v d -> means_all vs ds -> means_all (v :: vs) (d :: ds)
with means_fields : list (sval * sval) -> list (str * data) -> Prop :=
| fields_nil : means_fields [] []
| fields_absent k s v kvs es : names k s -> absent v -> means_fields kvs es -> means_fields ((k, v) :: kvs) es
| fields_cons k s v d kvs es : names k s -> means v d -> means_fields kvs es -> means_fields ((k, v) :: kvs) ((s, d) :: es).

(** no enum variant with something in it, and every integer fits into 64 bits *)
Inductive untagged : sval -> Prop :=
| un_bool b : untagged (SBool b) | un_int z : untagged (SInt z) | un_float f : untagged (SFloat f)
| un_char c : untagged (SChar c) | un_str s : untagged (SStr s) | un_none : untagged SNone | un_unit_variant s : untagged (SUnitVariant s)
| un_uint n : n < 2 ^ 63 -> untagged (SUint n)
| un_some v : untagged v -> untagged (SSome v)
| un_newtype name v : untagged v -> untagged (SNewtypeStruct name v)
| un_seq vs : (forall v, In v vs -> untagged v) -> untagged (SSeq vs)
| un_map kvs : (forall k v, In (k, v) kvs -> untagged v) -> untagged (SMap kvs).

(** * Documents *)
Fixpoint doc_data (v : dvalue) : data :=
  match v with
  | DvScalar s => said s
  | DvArray _ vs => DArray (map doc_data vs)
  | DvTable _ es => DTable (map (fun e => (k_value (fst e), doc_data (snd e))) es)
  end.
(** the same data, but for the order of the keys of a table *)
Inductive alike : data -> data -> Prop :=
| alike_scalar x : alike (DScalar x) (DScalar x)
| alike_array l l' : Forall2 alike l l' -> alike (DArray l) (DArray l')
| alike_table es es' es'' : Permutation es es' -> Forall2 (fun e e' => fst e = fst e' /\ alike (snd e) (snd e')) es' es'' -> alike (DTable es) (DTable es'').

(** * Documents whose text says what they say *)
Section Writable.
(** [f64]'s [Display], and [str::parse::<f64>] *)
Context (show : list N -> str) (parse_f64 : str -> option (list N)).
(** The text of a string is its characters: none of them may need an escape. *)
Definition plain_string (s : str) : Prop := Forall basic_unescaped s.
Definition bare_name (s : str) : Prop := s <> [] /\ Forall (fun c => 65 <= c <= 90 \/ 97 <= c <= 122 \/ 48 <= c <= 57 \/ c = 95 \/ c = 45) s.
(** four digits, a hyphen, two digits, a hyphen and two digits *)
Definition date_like (s : str) : Prop := lang g_full_date s.
Definition key_ok (k : dkey) : Prop :=
  match k_kind k with
  | KBare => bare_name (k_value k) /\ forall a b, k_value k = a ++ b -> date_like a -> b = []
  | KBasic => plain_string (k_value k)
  | KLiteral => False
  end.
Definition scalar_ok (s : TextTreeModel.scalar) : Prop :=
  match s with
  | VString s => plain_string s
  | VInteger z => in_i64 z
  | VFloat f => TomlGrammar.scalar FLOAT (show f) /\ try_from_float parse_f64 (show f) = FOk f
  | VBoolean _ => True
  | VOffsetDateTime (d, t, o) => valid_date d /\ valid_time t /\ valid_offset o
  | VLocalDateTime (d, t) => valid_date d /\ valid_time t
  | VLocalDate d => valid_date d
  | VLocalTime t => valid_time t
  end.
Definition distinct (es : list (dkey * dvalue)) : Prop := NoDup (map (fun e => k_value (fst e)) es).
(** values on one line *)
Inductive inline_ok : dvalue -> Prop :=
| inline_scalar s : scalar_ok s -> inline_ok (DvScalar s)
| inline_array vs : (forall v, In v vs -> inline_ok v) -> inline_ok (DvArray KArray vs)
| inline_table es : distinct es -> (forall k v, In (k, v) es -> key_ok k) -> (forall k v, In (k, v) es -> inline_ok v) -> inline_ok (DvTable KInline es).
Definition row_ok (r : dvalue) : Prop :=
  exists k es, r = DvTable k es /\ distinct es /\ forall k v, In (k, v) es -> key_ok k /\ inline_ok v.
(** tables with headers, with tables and arrays of tables in them; in the latter, only values on one line *)
Inductive table_ok : list (dkey * dvalue) -> Prop :=
| table_entries es : distinct es ->
    (forall k v, In (k, v) es -> key_ok k) ->
    (forall k v, In (k, v) es -> has_header v = false -> inline_ok v) ->
    (forall k sub, In (k, DvTable KTable sub) es -> table_ok sub) ->
    (forall k rows, In (k, DvArray KArrayOfTable rows) es -> rows <> [] /\ forall r, In r rows -> row_ok r) ->
    table_ok es.
(** * Values whose document can be written *)
(** the names that can be keys: bare ones, and among the others those with a single quote *)
Definition name_ok (s : str) : Prop := (bare_name s /\ forall a b, s = a ++ b -> date_like a -> b = []) \/ (In 39 s /\ plain_string s).
(** a field that may be absent, with a name that is a key *)
Definition field_ok (ok : sval -> Prop) (kv : sval * sval) : Prop := exists s, names (fst kv) s /\ name_ok s /\ (absent (snd kv) \/ ok (snd kv)).
Inductive small : sval -> Prop :=
| small_bool b : small (SBool b)
| small_int z : in_i64 z -> small (SInt z)
| small_uint n : n < 2 ^ 63 -> small (SUint n)
| small_float f : scalar_ok (VFloat f) -> small (SFloat f)
| small_char c : plain_string [c] -> small (SChar c)
| small_str s : plain_string s -> small (SStr s)
| small_unit_variant s : plain_string s -> small (SUnitVariant s)
| small_some v : small v -> small (SSome v)
| small_newtype name v : ordinary name -> small v -> small (SNewtypeStruct name v)
| small_offset_date_time d t o : valid_date d -> valid_time t -> valid_offset o -> small (SNewtypeStruct OFFSET_DATE_TIME_NAME (SStr (print_offset_date_time (d, t, o))))
| small_local_date_time d t : valid_date d -> valid_time t -> small (SNewtypeStruct LOCAL_DATE_TIME_NAME (SStr (print_local_date_time (d, t))))
| small_local_date d : valid_date d -> small (SNewtypeStruct LOCAL_DATE_NAME (SStr (print_date d)))
| small_local_time t : valid_time t -> small (SNewtypeStruct LOCAL_TIME_NAME (SStr (print_time t))).
(** inside [Inline]: anything, lists and structs of any depth included *)
Inductive inlined : sval -> Prop :=
| inlined_small v : small v -> inlined v
| inlined_some v : inlined v -> inlined (SSome v)
| inlined_newtype name v : ordinary name -> inlined v -> inlined (SNewtypeStruct name v)
| inlined_again v : inlined v -> inlined (SNewtypeStruct INLINE_NAME v)
| inlined_list vs : (forall v, In v vs -> inlined v) -> inlined (SSeq vs)
| inlined_map kvs : (forall kv, In kv kvs -> field_ok inlined kv) -> inlined (SMap kvs).
(** on one line: scalars, what is in an [Inline], and lists that begin with a scalar and go on with anything on one line and with
    structs of these; and structs with values on one line *)
Inductive on_line : sval -> Prop :=
| line_small v : small v -> on_line v
| line_some v : on_line v -> on_line (SSome v)
| line_newtype name v : ordinary name -> on_line v -> on_line (SNewtypeStruct name v)
| line_inline v : inlined v -> on_line (SNewtypeStruct INLINE_NAME v)
| line_list v vs : small v -> (forall x, In x vs -> on_line x \/ a_row x) -> on_line (SSeq (v :: vs))
with a_row : sval -> Prop :=
| row_some v : a_row v -> a_row (SSome v)
| row_newtype name v : ordinary name -> a_row v -> a_row (SNewtypeStruct name v)
| row_map kvs : (forall kv, In kv kvs -> field_ok on_line kv) -> a_row (SMap kvs).
(** lists of at least one such struct *)
Inductive a_list : sval -> Prop :=
| list_some v : a_list v -> a_list (SSome v)
| list_newtype name v : ordinary name -> a_list v -> a_list (SNewtypeStruct name v)
| list_rows v vs : (forall x, In x (v :: vs) -> a_row x) -> a_list (SSeq (v :: vs)).
(** structs of all these, and of such structs *)
Inductive a_table : sval -> Prop :=
| table_some v : a_table v -> a_table (SSome v)
| table_newtype name v : ordinary name -> a_table v -> a_table (SNewtypeStruct name v)
| table_map kvs : (forall kv, In kv kvs -> field_ok (fun v => on_line v \/ a_table v \/ a_list v) kv) -> a_table (SMap kvs).
End Writable.
(** brackets and braces inside each other *)
Fixpoint inline_depth (v : dvalue) : nat :=
  match v with
  | DvScalar _ => 0
  | DvArray _ vs => S (fold_right (fun v m => Nat.max (inline_depth v) m) 0 vs)
  | DvTable _ es => S (fold_right (fun e m => Nat.max (inline_depth (snd e)) m) 0 es)
  end%nat.
(** the same in the values of a table, of the tables in it, and of its arrays of tables *)
Fixpoint depth_of (v : dvalue) : nat :=
  match v with
  | DvTable KTable es => fold_right (fun e m => Nat.max (depth_of (snd e)) m) 0%nat es
  | DvArray KArrayOfTable rows => fold_right (fun r m => Nat.max (match r with DvTable _ es => fold_right (fun e m => Nat.max (inline_depth (snd e)) m) 0%nat es | _ => 0%nat end) m) 0%nat rows
  | v => inline_depth v
  end.
(** the lists and maps of a value inside each other *)
Fixpoint value_depth (v : sval) : nat :=
  match v with
  | SSome v | SNewtypeStruct _ v | SNewtypeVariant _ v => value_depth v
  | SSeq vs | STupleVariant _ vs => S (fold_right (fun v m => Nat.max (value_depth v) m) 0%nat vs)
  | SMap kvs | SStructVariant _ kvs => S (fold_right (fun e m => Nat.max (value_depth (snd e)) m) 0%nat kvs)
  | _ => 0%nat
  end.
