(** What a JSON pointer in a URI fragment denotes, after RFC 6901 and RFC 3986; nothing here mentions the
    model of the code. *)
From Coq Require Import List NArith Bool.
From Verif Require Import Base JsonModel.
Import ListNotations.
Open Scope N_scope.
Open Scope list_scope.

(** RFC 6901, section 3: a reference token is written with [~0] for a tilde and [~1] for a slash *)
Definition escape_char (c : char) : str :=
  if N.eqb c 126 then [126; 48] else if N.eqb c 47 then [126; 49] else [c].
Definition escape (t : str) : str := flat_map escape_char t.
(** a pointer is each of its tokens after a slash *)
Definition pointer_text (ts : list str) : str := flat_map (fun t => 47 :: escape t) ts.

(** RFC 6901, section 4: an array index is [0], or digits without a leading zero *)
Definition digit (c : char) : Prop := 48 <= c <= 57.
Inductive array_index : str -> N -> Prop :=
| index_first d : digit d -> d <> 48 -> array_index [d] (d - 48)
| index_more t n d : array_index t n -> digit d -> array_index (t ++ [d]) (10 * n + (d - 48)).
Definition index_of (t : str) (n : N) : Prop := (t = [48] /\ n = 0) \/ array_index t n.

(** [denotes ts v w]: within [v], the tokens [ts] lead to [w] *)
Inductive denotes : list str -> jvalue -> jvalue -> Prop :=
| denotes_here v : denotes [] v v
| denotes_member t ts entries v w : In (t, v) entries -> denotes ts v w -> denotes (t :: ts) (JObject entries) w
| denotes_element t n ts items v w :
    index_of t n -> nth_error items (N.to_nat n) = Some v -> denotes ts v w -> denotes (t :: ts) (JArray items) w.

(** RFC 3629: the bytes of a character in UTF-8, as groups of six bits *)
Inductive utf8 : char -> list N -> Prop :=
| utf8_one a : a < 128 -> utf8 a [a]
| utf8_two a b : 2 <= a < 32 -> b < 64 -> utf8 (a * 64 + b) [192 + a; 128 + b]
| utf8_three a b c : a < 16 -> b < 64 -> c < 64 -> 2048 <= (a * 64 + b) * 64 + c ->
    utf8 ((a * 64 + b) * 64 + c) [224 + a; 128 + b; 128 + c]
| utf8_four a b c d : a < 8 -> b < 64 -> c < 64 -> d < 64 -> 65536 <= ((a * 64 + b) * 64 + c) * 64 + d ->
    utf8 (((a * 64 + b) * 64 + c) * 64 + d) [240 + a; 128 + b; 128 + c; 128 + d].

(** RFC 3986, section 2.1: a byte as [%] and two hexadecimal digits of either case *)
Inductive hex_digit : char -> N -> Prop :=
| hex_decimal n : n < 10 -> hex_digit (48 + n) n
| hex_upper n : 10 <= n < 16 -> hex_digit (55 + n) n
| hex_lower n : 10 <= n < 16 -> hex_digit (87 + n) n.
Inductive escaped_bytes : list N -> str -> Prop :=
| escaped_nil : escaped_bytes [] []
| escaped_cons h l x y bytes e :
    hex_digit h x -> hex_digit l y -> escaped_bytes bytes e -> escaped_bytes ((16 * x + y) :: bytes) (37 :: h :: l :: e).
(** [fragment s e]: [e] is a way to write the text [s] in a URI: each character other than [%] stands for
    itself or for its escaped bytes, and [%] is escaped *)
Inductive fragment : str -> str -> Prop :=
| fragment_nil : fragment [] []
| fragment_plain c s e : c <> 37 -> fragment s e -> fragment (c :: s) (c :: e)
| fragment_escaped c bytes b s e : utf8 c bytes -> escaped_bytes bytes b -> fragment s e -> fragment (c :: s) (b ++ e).

(** the keys of each object of the value are distinct, and each array has fewer than 2^64 elements *)
Inductive regular : jvalue -> Prop :=
| regular_null : regular JNull
| regular_bool b : regular (JBool b)
| regular_number n : regular (JNumber n)
| regular_string s : regular (JString s)
| regular_array items : Forall regular items -> N.of_nat (length items) < 2 ^ 64 -> regular (JArray items)
| regular_object entries :
    NoDup (map fst entries) -> Forall (fun e => regular (snd e)) entries -> regular (JObject entries).

(** a token that reads as a number although it is not an index of RFC 6901: it begins with a plus sign or
    with a zero that is not all of it *)
Definition odd_index (t : str) : Prop := exists c rest, t = c :: rest /\ (c = 43 \/ (c = 48 /\ rest <> [])).
