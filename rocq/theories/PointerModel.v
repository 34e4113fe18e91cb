(** Model of the JSON pointers in schema references:
    crates/tombi-schema-store/src/schema/referable_schema.rs:1146-1222 [resolve_json_pointer_node] and
    [percent_decode], over the values of a parsed JSON document.

    Simplifications:
    - the document is the value of the [tombi_json::ValueNode] (its ranges play no part here);
    - [String::from_utf8_lossy] is decoding when the bytes are valid UTF-8; what it makes of other bytes is
      the argument [lossy]. *)
From Coq Require Import String Ascii List NArith Bool Arith Lia.
From Verif Require Import Base JsonModel.
From Verif Require TomlTextModel.
Import ListNotations.
Open Scope N_scope.
Open Scope list_scope.

(** [char::encode_utf8] (the standard library) *)
Definition encode_utf8 (c : char) : list N :=
  if c <? 0x80 then [c]
  else if c <? 0x800 then [0xC0 + c / 64; 0x80 + c mod 64]
  else if c <? 0x10000 then [0xE0 + c / 4096; 0x80 + (c / 64) mod 64; 0x80 + c mod 64]
  else [0xF0 + c / 262144; 0x80 + (c / 4096) mod 64; 0x80 + (c / 64) mod 64; 0x80 + c mod 64].

(** [std::str::from_utf8]: strict decoding. Over-long forms, surrogates and numbers above 0x10FFFF are
    rejected after the bytes are put together; the standard library rejects them by the range of the
    second byte, which is the same condition *)
Definition continuation (b : N) : bool := in_range 0x80 0xBF b.
Definition decodes_to (lo hi c : N) : bool := in_range lo hi c && negb (in_range 0xD800 0xDFFF c).
Fixpoint decode_utf8 (bs : list N) : option str :=
  match bs with
  | [] => Some []
  | a :: r =>
      if a <? 0x80 then option_map (cons a) (decode_utf8 r)
      else if in_range 0xC0 0xDF a then
        match r with
        | b :: r =>
            let c := (a - 0xC0) * 64 + (b - 0x80) in
            if continuation b && decodes_to 0x80 0x7FF c then option_map (cons c) (decode_utf8 r) else None
        | _ => None
        end
      else if in_range 0xE0 0xEF a then
        match r with
        | b :: b' :: r =>
            let c := (a - 0xE0) * 4096 + (b - 0x80) * 64 + (b' - 0x80) in
            if continuation b && continuation b' && decodes_to 0x800 0xFFFF c
            then option_map (cons c) (decode_utf8 r) else None
        | _ => None
        end
      else if in_range 0xF0 0xF7 a then
        match r with
        | b :: b' :: b'' :: r =>
            let c := (a - 0xF0) * 262144 + (b - 0x80) * 4096 + (b' - 0x80) * 64 + (b'' - 0x80) in
            if continuation b && continuation b' && continuation b'' && decodes_to 0x10000 0x10FFFF c
            then option_map (cons c) (decode_utf8 r) else None
        | _ => None
        end
      else None
  end.

(** referable_schema.rs:1184-1218: the bytes that [percent_decode] collects. After a [%] up to two
    hexadecimal digits are taken; two give a byte, fewer are copied with the [%] *)
Fixpoint percent_bytes (s : str) : list N :=
  match s with
  | [] => []
  | c :: s =>
      if N.eqb c 37 then
        match s with
        | a :: s' =>
            match TomlTextModel.hex_value a with
            | Some x =>
                match s' with
                | b :: s'' =>
                    match TomlTextModel.hex_value b with
                    | Some y => (16 * x + y) :: percent_bytes s''
                    | None => 37 :: encode_utf8 a ++ percent_bytes s'
                    end
                | [] => 37 :: encode_utf8 a
                end
            | None => 37 :: percent_bytes s
            end
        | [] => [37]
        end
      else encode_utf8 c ++ percent_bytes s
  end.

(** [str::split('/')] *)
Fixpoint split_slash (s : str) : list str :=
  match s with
  | [] => [[]]
  | c :: s =>
      if N.eqb c 47 then [] :: split_slash s
      else match split_slash s with p :: ps => (c :: p) :: ps | [] => [[c]] end
  end.
(** [str::replace(pattern, with)] for a pattern of the two characters [p], [q] and one character [r] *)
Fixpoint replace2 (p q r : char) (s : str) : str :=
  match s with
  | [] => []
  | c :: t =>
      match t with
      | d :: s' => if N.eqb c p && N.eqb d q then r :: replace2 p q r s' else c :: replace2 p q r t
      | [] => [c]
      end
  end.
(** referable_schema.rs:1165 *)
Definition unescape (s : str) : str := replace2 126 48 126 (replace2 126 49 47 s).

(** [str::parse::<usize>] on a 64-bit target: an optional [+], at least one digit, below 2^64 *)
Definition all_digits (s : str) : bool := match s with [] => false | _ => forallb is_ascii_digit s end.
Definition digits_number (s : str) : N := fold_left (fun n d => 10 * n + (d - 48)) s 0.
Definition parse_usize (s : str) : option N :=
  let ds := match s with c :: s' => if N.eqb c 43 then s' else s | [] => s end in
  if all_digits ds then let n := digits_number ds in if n <? 2 ^ 64 then Some n else None else None.

(** [IndexMap::get] of crates/tombi-json/src/node.rs:285-287 [ObjectNode::get] *)
Fixpoint member (k : str) (es : list (str * jvalue)) : option jvalue :=
  match es with
  | [] => None
  | (k', v) :: es => if str_eqb k k' then Some v else member k es
  end.

(** referable_schema.rs:1164-1179: one segment after the other *)
Definition enter (segment : str) (v : jvalue) : option jvalue :=
  match v with
  | JObject es => member (unescape segment) es
  | JArray items => match parse_usize (unescape segment) with Some n => nth_error items (N.to_nat n) | None => None end
  | _ => None
  end.
Fixpoint walk (segments : list str) (v : jvalue) : option jvalue :=
  match segments with
  | [] => Some v
  | s :: segments => match enter s v with Some w => walk segments w | None => None end
  end.
Definition nonempty (s : str) : bool := match s with [] => false | _ => true end.

Section Pointer.
  Context (lossy : list N -> str).
  (** referable_schema.rs:1184-1222 [percent_decode] *)
  Definition percent_decode (s : str) : str :=
    let bs := percent_bytes s in match decode_utf8 bs with Some t => t | None => lossy bs end.
  (** referable_schema.rs:1146-1181 [resolve_json_pointer_node] *)
  Definition resolve_pointer (doc : jvalue) (pointer : str) : option jvalue :=
    match pointer with
    | c :: path =>
        if N.eqb c 35 then
          match path with
          | [] => Some doc
          | _ => walk (filter nonempty (split_slash (percent_decode path))) doc
          end
        else None
    | [] => None
    end.
End Pointer.
