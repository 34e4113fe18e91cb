(** From the text to the document tree: the tokens of the document that was read are decoded, and the tree is built from
    them (crates/tombi-document-tree/src/{root,key,value}.rs, value/*.rs).  Left out, as in [DocTreeModel]: ranges, comments
    and their directives.  A document with a token that has no value (the tree then carries an error for it, and an
    [Incomplete] value or the text of the key in its place) is [None] here. *)
From Coq Require Import String Ascii List NArith ZArith Bool.
From Verif Require Import Base SyntaxKind TextModel TomlTextModel NumberModel DateTimeModel ParserModel AstModel FormatterModel.
From Verif Require DocTreeModel.
Import ListNotations.
Open Scope N_scope.
Open Scope list_scope.

(** The values of crates/tombi-document-tree/src/value.rs:27-40 that are no arrays and tables.  A float is whatever the
    standard library makes of its text. *)
Inductive scalar :=
| VString (s : str) | VInteger (z : Z) | VFloat (f : list N) | VBoolean (b : bool)
| VOffsetDateTime (x : date * time * offset) | VLocalDateTime (x : date * time) | VLocalDate (d : date) | VLocalTime (t : time).

Section Tree.
(** [str::parse::<f64>], with the bits of the result; the version of TOML *)
Context (parse_f64 : str -> option (list N)) (version : toml_version).
Definition ok_string (d : decoded) : option str := match d with DOk s => Some s | _ => None end.
Definition ok_token {A} (r : token_result A) : option A := match r with TROk a => Some a | TRErr _ => None end.
(** crates/tombi-document-tree/src/value/{string,integer,float,boolean,offset_date_time,local_date_time,local_date,local_time}.rs *)
Definition literal_value (k : kind) (w : str) : option scalar :=
  match k with
  | BASIC_STRING => option_map VString (ok_string (try_from_basic_string w version))
  | LITERAL_STRING => option_map VString (ok_string (try_from_literal_string w))
  | MULTI_LINE_BASIC_STRING => option_map VString (ok_string (try_from_multi_line_basic_string w version))
  | MULTI_LINE_LITERAL_STRING => option_map VString (ok_string (try_from_multi_line_literal_string w))
  | INTEGER_BIN | INTEGER_OCT | INTEGER_DEC | INTEGER_HEX =>
      match integer_of_token k w with Some (IOk z) => Some (VInteger z) | _ => None end
  | FLOAT => match try_from_float parse_f64 w with FOk f => Some (VFloat f) | _ => None end
  | BOOLEAN => option_map VBoolean (try_from_boolean w)
  | OFFSET_DATE_TIME => option_map VOffsetDateTime (ok_token (try_new_offset_date_time version w))
  | LOCAL_DATE_TIME => option_map VLocalDateTime (ok_token (try_new_local_date_time version w))
  | LOCAL_DATE => option_map VLocalDate (ok_token (try_new_local_date version w))
  | LOCAL_TIME => option_map VLocalTime (ok_token (try_new_local_time version w))
  | _ => None
  end.
(** crates/tombi-document-tree/src/key.rs:106-145, crates/tombi-ast/src/impls/key.rs:27-40 *)
Definition key_value (k : fkey) : option str :=
  ok_string match fst k with
            | BARE_KEY => try_from_bare_key (snd k)
            | BASIC_STRING => try_from_basic_string (snd k) version
            | _ => try_from_literal_string (snd k)
            end.
(** [DocTreeModel] keeps a scalar as a list of numbers: one for each. *)
Definition sign_abs (z : Z) : list N := [if (z <? 0)%Z then 1 else 0; Z.abs_N z].
Definition date_code (d : date) : list N := [year d; month d; day d].
Definition time_code (t : time) : list N := [hour t; minute t; second t; nanosecond t].
Definition offset_code (o : offset) : list N := match o with OffZ => [] | OffCustom m => sign_abs m end.
Definition code (s : scalar) : list N :=
  match s with
  | VString s => 1 :: s
  | VInteger z => 2 :: sign_abs z
  | VFloat f => 3 :: f
  | VBoolean b => [4; if b then 1 else 0]
  | VOffsetDateTime (d, t, o) => 5 :: date_code d ++ time_code t ++ offset_code o
  | VLocalDateTime (d, t) => 6 :: date_code d ++ time_code t
  | VLocalDate d => 7 :: date_code d
  | VLocalTime t => 8 :: time_code t
  end.

Definition both {A B} (a : option A) (b : option B) : option (A * B) :=
  match a, b with Some a, Some b => Some (a, b) | _, _ => None end.
(** The values and key/values as [DocTreeModel] takes them. *)
Definition syn_item (f : fval -> option DocTreeModel.syn_value) (i : item fval) : option (list str * DocTreeModel.syn_value) :=
  match i with Item _ ks _ v _ => both (opt_all key_value ks) (f v) end.
Fixpoint syn_value (v : fval) : option DocTreeModel.syn_value :=
  match v with
  | FLit _ k w _ => option_map (fun s => DocTreeModel.SynScalar (code s)) (literal_value k w)
  | FBox table _ _ gs _ =>
      option_map (fun l : list (list (list str * DocTreeModel.syn_value)) =>
          if table then DocTreeModel.SynInline (concat l) else DocTreeModel.SynArray (map snd (concat l)))
        (opt_all (fun g => match g with
           | GD _ _ => Some []
           | GI _ its => opt_all (fun i => match i with Item _ ks _ v _ => both (opt_all key_value ks) (syn_value v) end) its
           end) gs)
  end.
Definition syn_body (gs : list (group (item fval))) : option (list (list str * DocTreeModel.syn_value)) :=
  opt_all (syn_item syn_value) (items_of gs).
Definition syn_section (t : ftable) : option DocTreeModel.section :=
  match opt_all key_value (t_keys t), syn_body (t_groups t) with
  | Some h, Some b => Some {| DocTreeModel.s_array := t_array t; DocTreeModel.s_header := h; DocTreeModel.s_body := b |}
  | _, _ => None
  end.
Definition syntax_of (d : fdoc) : option DocTreeModel.document :=
  match syn_body (d_groups d), opt_all syn_section (d_tables d) with
  | Some b, Some ss => Some {| DocTreeModel.d_body := b; DocTreeModel.d_sections := ss |}
  | _, _ => None
  end.
(** crates/tombi-document-tree/src/root.rs:38-116: the tree of a text and the conflicts in it.  [None] for a text with errors
    or with a token that has no value. *)
Definition tree_of_text (seg : str -> list str) (stack : nat) (source : str) : option (DocTreeModel.value * list DocTreeModel.error) :=
  match read seg stack source with
  | Done (Some (_, d)) => option_map DocTreeModel.build_document (syntax_of d)
  | _ => None
  end.
End Tree.
