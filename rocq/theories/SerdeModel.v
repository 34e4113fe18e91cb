(** Model of serde_tombi's serializer: a Rust value becomes a document (rust/serde_tombi/src/ser.rs), the document a text
    (rust/serde_tombi/src/document.rs), and the text is formatted.
    A Rust value is what its [Serialize] says to the serializer, call by call (serde's data model).  Left out: schemas and
    configuration files (the formatter then sorts nothing and has its default options), 128-bit integers (serde's own
    default refuses them), and the accessors in errors. *)
From Coq Require Import String Ascii List NArith ZArith Bool.
From Verif Require Import Base SyntaxKind TextModel TomlTextModel NumberModel DateTimeModel ParserModel FormatterModel TextTreeModel.
Import ListNotations.
Open Scope N_scope.
Open Scope list_scope.

(** * Documents *)
(** crates/tombi-document/src/key.rs:6-27.  Equality of keys is that of their values (:40-46). *)
Inductive dkey_kind := KBare | KBasic | KLiteral.
Record dkey := DKey { k_kind : dkey_kind; k_value : str }.
(** crates/tombi-document/src/value/table.rs:5-10, value/array.rs:5-21 *)
Inductive table_kind := KTable | KInline | KKeyValue.
Inductive array_kind := KArrayOfTable | KArray.
(** crates/tombi-document/src/value.rs:88-100.  The kinds of strings and integers are always [BasicString] and [Decimal]
    here (ser.rs:198-202, :229-233), so they are left out. *)
Inductive dvalue :=
| DvScalar (s : scalar)
| DvArray (k : array_kind) (vs : list dvalue)
| DvTable (k : table_kind) (es : list (dkey * dvalue)).
(** crates/tombi-document/src/key.rs:48-61, for a basic string *)
Definition has_quote (s : str) : bool := existsb (fun c => N.eqb c 39 || N.eqb c 34) s.
Definition key_of (s : str) : dkey := DKey (if has_quote s then KBasic else KBare) s.
(** [IndexMap::insert] (crates/tombi-document/src/value/table.rs:62-64): a new key goes to the end, an old one keeps its
    place and gets the new value. *)
Fixpoint insert (k : dkey) (v : dvalue) (es : list (dkey * dvalue)) : list (dkey * dvalue) :=
  match es with
  | [] => [(k, v)]
  | (k', v') :: es => if str_eqb (k_value k) (k_value k') then (k', v) :: es else (k', v') :: insert k v es
  end.

(** * Values *)
(** The calls of serde's [Serializer]: [SInt] is for i8 to i64, [SUint] for u8 to u64, [SFloat] for f32 and f64 (with the bits),
    [SSeq] for sequences, tuples and tuple structs, [SMap] for maps and, with names as keys, for structs. *)
Inductive sval :=
| SBool (b : bool) | SInt (z : Z) | SUint (n : N) | SFloat (f : list N) | SChar (c : char) | SStr (s : str) | SBytes (bs : list N)
| SNone | SSome (v : sval) | SUnit | SUnitStruct (name : str) | SUnitVariant (variant : str)
| SNewtypeStruct (name : str) (v : sval) | SNewtypeVariant (variant : str) (v : sval)
| SSeq (vs : list sval) | STupleVariant (variant : str) (vs : list sval)
| SMap (kvs : list (sval * sval)) | SStructVariant (variant : str) (kvs : list (sval * sval)).

(** rust/serde_tombi/src/ser/error.rs *)
Inductive ser_error :=
| RootMustBeTable | KeyMustBeString | KeyRequired | ArrayValueRequired | TomlMustBeUtf8 | SerializeUnit | SerializeUnitStruct | DateTimeParseFailed.
(** [SPanic] is one of the [unreachable!()]. *)
Inductive sres (A : Type) := SOk (a : A) | SErr (e : ser_error) | SPanic.
Arguments SOk {A} _. Arguments SErr {A} _. Arguments SPanic {A}.
Definition sbind {A B} (r : sres A) (f : A -> sres B) : sres B := match r with SOk a => f a | SErr e => SErr e | SPanic => SPanic end.

(** crates/tombi-date-time/src/lib.rs:17-20, rust/serde_tombi/src/lib.rs:109 *)
Definition OFFSET_DATE_TIME_NAME : str := lit "$__tombi_private_OffsetDateTime".
Definition LOCAL_DATE_TIME_NAME : str := lit "$__tombi_private_LocalDateTime".
Definition LOCAL_DATE_NAME : str := lit "$__tombi_private_LocalDate".
Definition LOCAL_TIME_NAME : str := lit "$__tombi_private_LocalTime".
Definition INLINE_NAME : str := lit "serde_tombi::Inline".

(** [v as i64] of a u64 (ser.rs:216-218) *)
Definition as_i64 (n : N) : Z := if n <? 2 ^ 63 then Z.of_N n else (Z.of_N n - 2 ^ 64)%Z.

(** rust/serde_tombi/src/ser.rs:507-523 *)
Fixpoint force_inline (v : dvalue) : dvalue :=
  match v with
  | DvTable _ es => DvTable KInline (map (fun e => (fst e, force_inline (snd e))) es)
  | DvArray _ vs => DvArray KArray (map force_inline vs)
  | v => v
  end.
(** The state of rust/serde_tombi/src/ser.rs:397-402 [SerializeArray]: the kind so far and the values *)
Definition array_state := (array_kind * list dvalue)%type.
(** rust/serde_tombi/src/ser.rs:421-445: an element *)
Definition push_element (st : array_state) (v : dvalue) : array_state :=
  match v with
  | DvScalar _ => (KArray, snd st ++ [v])
  | DvArray _ vs => (fst st, snd st ++ [match fst st with KArray => DvArray KArray vs | KArrayOfTable => v end])
  | DvTable _ es => (fst st, snd st ++ [match fst st with KArray => DvTable KInline es | KArrayOfTable => v end])
  end.
Definition as_date_time {A} (f : A -> scalar) (from_str : str -> dt_result A) (v : sval) : sres (option dvalue) :=
  match v with
  | SStr s => match from_str s with DTOk a => SOk (Some (DvScalar (f a))) | _ => SErr DateTimeParseFailed end
  | _ => SPanic
  end.
(** rust/serde_tombi/src/ser.rs:160-394 ([ValueSerializer]), :404-457 ([SerializeArray]), :532-592 ([SerializeTable]),
    :633-832 ([DateTimeSerializer]).  [Ok(None)] is a value that is left out. *)
Fixpoint serialize (v : sval) : sres (option dvalue) :=
  match v with
  | SBool b => SOk (Some (DvScalar (VBoolean b)))
  | SInt z => SOk (Some (DvScalar (VInteger z)))
  | SUint n => SOk (Some (DvScalar (VInteger (as_i64 n))))
  | SFloat f => SOk (Some (DvScalar (VFloat f)))
  | SChar c => SOk (Some (DvScalar (VString [c])))
  | SStr s => SOk (Some (DvScalar (VString s)))
  | SBytes _ => SErr TomlMustBeUtf8
  | SNone => SOk None
  | SSome v => serialize v
  | SUnit => SErr SerializeUnit
  | SUnitStruct _ => SErr SerializeUnitStruct
  | SUnitVariant variant => SOk (Some (DvScalar (VString variant)))
  | SNewtypeStruct name v =>
      if str_eqb name OFFSET_DATE_TIME_NAME then as_date_time VOffsetDateTime offset_date_time_from_str v
      else if str_eqb name LOCAL_DATE_TIME_NAME then as_date_time VLocalDateTime local_date_time_from_str v
      else if str_eqb name LOCAL_DATE_NAME then as_date_time VLocalDate local_date_from_str v
      else if str_eqb name LOCAL_TIME_NAME then as_date_time VLocalTime local_time_from_str v
      else if str_eqb name INLINE_NAME then sbind (serialize v) (fun o => SOk (option_map force_inline o))
      else serialize v
  | SNewtypeVariant _ v => serialize v
  | SSeq vs | STupleVariant _ vs =>
      (fix elements (st : array_state) (vs : list sval) : sres (option dvalue) :=
         match vs with
         | [] => SOk (Some (DvArray (fst st) (snd st)))
         | v :: vs => sbind (serialize v) (fun o => match o with Some x => elements (push_element st x) vs | None => SErr ArrayValueRequired end)
         end) (KArrayOfTable, []) vs
  | SMap kvs | SStructVariant _ kvs =>
      (fix entries (es : list (dkey * dvalue)) (kvs : list (sval * sval)) : sres (option dvalue) :=
         match kvs with
         | [] => SOk (Some (DvTable KTable (fold_left (fun es e => insert (fst e) (snd e) es) es [])))
         | (k, v) :: kvs => sbind (serialize k) (fun ok =>
             match ok with
             | Some (DvScalar (VString s)) => sbind (serialize v) (fun o => match o with Some x => entries (es ++ [(key_of s, x)]) kvs | None => entries es kvs end)
             | Some _ => SErr KeyMustBeString
             | None => SErr KeyRequired
             end)
         end) [] kvs
  end.
(** rust/serde_tombi/src/ser.rs:86-98 *)
Definition to_document (v : sval) : sres dvalue :=
  sbind (serialize v) (fun o => match o with
    | Some (DvTable k es) => SOk (DvTable k es)
    | Some _ => SErr RootMustBeTable
    | None => SOk (DvTable KTable [])
    end).

(** * The text of a document *)
Definition bracketed (open close : str) (s : str) : str := open ++ s ++ close.
Fixpoint join (sep : str) (l : list str) : str := match l with [] => [] | [s] => s | s :: l => s ++ sep ++ join sep l end.
(** crates/tombi-document/src/key.rs:69-77 *)
Definition key_text (k : dkey) : str :=
  match k_kind k with KBare => k_value k | KBasic => [34] ++ k_value k ++ [34] | KLiteral => [39] ++ k_value k ++ [39] end.
Definition path_text (ks : list dkey) : str := join [46] (map key_text ks).
(** [i64]'s [Display] *)
Definition print_integer (z : Z) : str := if (z <? 0)%Z then [45] ++ decimal (Z.abs_N z) else decimal (Z.abs_N z).
Section Text.
(** [f64]'s [Display] *)
Context (show : list N -> str).
(** rust/serde_tombi/src/document.rs:51-60 *)
Definition scalar_text (s : scalar) : str :=
  match s with
  | VString s => bracketed [34] [34] s
  | VInteger z => print_integer z
  | VFloat f => show f
  | VBoolean b => lit (if b then "true" else "false")
  | VOffsetDateTime x => print_offset_date_time x
  | VLocalDateTime x => print_local_date_time x
  | VLocalDate d => print_date d
  | VLocalTime t => print_time t
  end.
(** the two kinds that are written under a header *)
Definition has_header (v : dvalue) : bool := match v with DvTable KTable _ | DvArray KArrayOfTable _ => true | _ => false end.
Definition is_key_value (v : dvalue) : bool := match v with DvTable KKeyValue _ => true | _ => false end.
(** rust/serde_tombi/src/document.rs:44-61 (values), :63-144 (tables), :169-218 (arrays), :17-42 (key/values).  With [inside],
    a table of key/values gets braces, as in :146-167 [inline_table_entry_to_toml_string]. *)
Fixpoint text (inside : bool) (v : dvalue) (parents : list dkey) : str :=
  match v with
  | DvScalar s => scalar_text s
  | DvArray KArray vs => bracketed [91] [93] (join [44; 32] (map (fun v => text false v parents) vs))
  | DvArray KArrayOfTable vs =>
      flat_map (fun v => bracketed [91; 91] [93; 93; 10] (path_text parents) ++
        match v with
        | DvTable _ es => flat_map (fun e =>
            (if is_key_value (snd e) then text false (snd e) (parents ++ [fst e])
             else key_text (fst e) ++ lit " = " ++ text false (snd e) (parents ++ [fst e])) ++ [10]) es
        | _ => []
        end) vs
  | DvTable KTable es =>
      let plain := flat_map (fun e => if has_header (snd e) then []
        else (if is_key_value (snd e) then text false (snd e) [fst e] else key_text (fst e) ++ lit " = " ++ text false (snd e) []) ++ [10]) es in
      let below := flat_map (fun e => if has_header (snd e) then text false (snd e) (parents ++ [fst e]) else []) es in
      if match es with [e] => has_header (snd e) | _ => false end then below
      else (match parents with [] => [] | _ => bracketed [91] [93; 10] (path_text parents) end) ++ plain ++ below
  | DvTable KInline es =>
      bracketed [123] [125] (join [44; 32] (map (fun e => key_text (fst e) ++ lit " = " ++ text true (snd e) []) es))
  | DvTable KKeyValue es =>
      if inside then bracketed [123] [125] (join [44; 32] (map (fun e => key_text (fst e) ++ lit " = " ++ text true (snd e) []) es))
      else flat_map (fun e =>
        (if is_key_value (snd e) then text false (snd e) (parents ++ [fst e])
         else path_text (parents ++ [fst e]) ++ lit " = " ++ text false (snd e) []) ++ [10]) es
  end.
(** rust/serde_tombi/src/ser.rs:109-154: the text is formatted with the default options; text that is not valid TOML is a panic
    ([unreachable!("Document must be valid TOML.")]). *)
Definition to_string (cfg : defs) (le : line_ending_option) (gr : str -> N) (seg : str -> list str) (stack : nat) (edited : bool) (v : sval) : sres str :=
  sbind (to_document v) (fun d => match format_source cfg le gr seg stack edited (text false d []) with Done (Some out) => SOk out | _ => SPanic end).
End Text.
