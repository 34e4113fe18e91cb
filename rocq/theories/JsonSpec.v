(** Specification of JSON texts (RFC 8259), independent of the lexer and the parser. *)
From Coq Require Import String Ascii List NArith ZArith Bool.
From Verif Require Import Base TextModel LexerModel LexerSpec NumberSpec JsonModel.
Import ListNotations.
Open Scope N_scope.
Open Scope list_scope.

(** * Numbers: [ -? int frac? exp? ] *)
Definition jdigits (s : str) : Prop := s <> [] /\ Forall (fun c => 48 <= c <= 57) s.
(** zero, or digits that do not start with zero *)
Definition jint_text (s : str) : Prop := jdigits s /\ (hd 0 s = 48 -> s = [48]).
(** the text of a fraction and its digits *)
Inductive jfrac_text : str -> str -> Prop :=
| JF_none : jfrac_text [] []
| JF_some f : jdigits f -> jfrac_text (46 :: f) f.
(** the text of an exponent and its value *)
Inductive jexp_text : str -> Z -> Prop :=
| JX_none : jexp_text [] 0
| JX_plain e f : e = 101 \/ e = 69 -> jdigits f -> jexp_text (e :: f) (Z.of_N (positional 10 f))
| JX_plus e f : e = 101 \/ e = 69 -> jdigits f -> jexp_text (e :: 43 :: f) (Z.of_N (positional 10 f))
| JX_minus e f : e = 101 \/ e = 69 -> jdigits f -> jexp_text (e :: 45 :: f) (- Z.of_N (positional 10 f)).
(** [jnumber_text zeros w neg m x]: the text [w] denotes plus or minus [m * 10^x]; [zeros] allows zeros
    at the start of a number that has a fraction or an exponent *)
Inductive jnumber_text (zeros : bool) : str -> bool -> N -> Z -> Prop :=
| JNumberText (neg : bool) i f fd x xv :
    jfrac_text f fd -> jexp_text x xv ->
    jint_text i \/ (zeros = true /\ jdigits i /\ (f <> [] \/ x <> [])) ->
    jnumber_text zeros ((if neg then [45] else []) ++ i ++ f ++ x) neg
      (positional 10 (i ++ fd)) (xv - Z.of_nat (length fd)).

(** The [Number] of plus or minus [m * 10^x]: the nearest [f64], as an integer if it is whole and in
    the range of [i64]; zero if it is too large for an [f64]. *)
Definition jnumber_value (neg : bool) (m : N) (x : Z) : jnumber :=
  match f64_of_decimal neg m x with
  | Inf _ => JInteger 0
  | v => number_from_f64 v
  end.

(** * Strings *)
Definition jescapes : list (char * char) :=
  [(34, 34); (92, 92); (47, 47); (98, 8); (102, 12); (110, 10); (114, 13); (116, 9)].
Definition jhex_digit (c : char) : Prop := 48 <= c <= 57 \/ 65 <= c <= 70 \/ 97 <= c <= 102.
(** four hexadecimal digits and their value *)
Definition jhex4 (s : str) (n : N) : Prop := length s = 4%nat /\ Forall jhex_digit s /\ n = positional 16 s.
(** the characters between the quotes and what they denote *)
Inductive jchars : str -> str -> Prop :=
| JC_nil : jchars [] []
| JC_plain c s v : 32 <= c -> c <> 34 -> c <> 92 -> jchars s v -> jchars (c :: s) (c :: v)
| JC_escape e x s v : In (e, x) jescapes -> jchars s v -> jchars (92 :: e :: s) (x :: v)
| JC_unicode h n s v : jhex4 h n -> n < 0xD800 \/ 0xDFFF < n -> jchars s v ->
    jchars ([92; 117] ++ h ++ s) (n :: v)
| JC_pair h1 n1 h2 n2 s v :
    jhex4 h1 n1 -> 0xD800 <= n1 <= 0xDBFF -> jhex4 h2 n2 -> 0xDC00 <= n2 <= 0xDFFF -> jchars s v ->
    jchars ([92; 117] ++ h1 ++ [92; 117] ++ h2 ++ s) (0x10000 + (n1 - 0xD800) * 1024 + (n2 - 0xDC00) :: v).
Inductive jstring_text : str -> str -> Prop :=
| JStringText s v : jchars s v -> jstring_text ([34] ++ s ++ [34]) v.

(** * White space *)
(** RFC 8259: any sequence of space, tab, line feed and carriage return *)
Definition jws_rfc (s : str) : Prop := Forall (fun c => c = 32 \/ c = 9 \/ c = 10 \/ c = 13) s.
(** What tombi skips: spaces, tabs, CR LF, and LF followed by any number of CRs *)
Inductive jws_tombi : str -> Prop :=
| JW_nil : jws_tombi []
| JW_space s : jws_tombi s -> jws_tombi (32 :: s)
| JW_tab s : jws_tombi s -> jws_tombi (9 :: s)
| JW_crlf s : jws_tombi s -> jws_tombi (13 :: 10 :: s)
| JW_lf k s : jws_tombi s -> jws_tombi (10 :: repeat 13 k ++ s).

(** * Values *)
Record dialect := Dialect {
  d_ws : str -> Prop;           (* white space *)
  d_zeros : bool;               (* zeros at the start of numbers with a fraction or an exponent *)
  d_trailing_comma : bool;      (* a comma after the last item or member *)
  d_distinct : bool             (* the names of an object are distinct *)
}.
(** RFC 8259, without and with the advice that names be distinct *)
Definition rfc : dialect := Dialect jws_rfc false false false.
Definition rfc_distinct : dialect := Dialect jws_rfc false false true.
(** the texts that tombi reads *)
Definition tombi_json : dialect := Dialect jws_tombi true true true.

(** The lines and columns of [text] in a source that starts with [before ++ text]. *)
Definition jplace (before text : str) : range := MkRange (position_after before) (position_after (before ++ text)).
Definition jname (p : (str * range) * jnode) : str := fst (fst p).

(** [jvalue_text D d before text n]: [text], which follows [before] in the source, is a value of nesting
    depth at most [d] and denotes [n].  [jitems_text] and [jmembers_text]: at least one item or member,
    with the white space and the commas after them. *)
Inductive jvalue_text (D : dialect) : nat -> str -> str -> jnode -> Prop :=
| JV_null d b : jvalue_text D d b (lit "null") (JNullNode (jplace b (lit "null")))
| JV_true d b : jvalue_text D d b (lit "true") (JBoolNode true (jplace b (lit "true")))
| JV_false d b : jvalue_text D d b (lit "false") (JBoolNode false (jplace b (lit "false")))
| JV_number d b w neg m x : jnumber_text (d_zeros D) w neg m x ->
    jvalue_text D d b w (JNumberNode (jnumber_value neg m x) (jplace b w))
| JV_string d b w v : jstring_text w v -> jvalue_text D d b w (JStringNode v (jplace b w))
| JV_array_empty d b s : d_ws D s ->
    jvalue_text D (S d) b ([91] ++ s ++ [93]) (JArrayNode [] (jplace b ([91] ++ s ++ [93])))
| JV_array d b s w ns : d_ws D s -> jitems_text D d (b ++ [91] ++ s) w ns ->
    jvalue_text D (S d) b ([91] ++ s ++ w ++ [93]) (JArrayNode ns (jplace b ([91] ++ s ++ w ++ [93])))
| JV_object_empty d b s : d_ws D s ->
    jvalue_text D (S d) b ([123] ++ s ++ [125]) (JObjectNode [] (jplace b ([123] ++ s ++ [125])))
| JV_object d b s w ps : d_ws D s -> jmembers_text D d (b ++ [123] ++ s) w ps ->
    (d_distinct D = true -> NoDup (map jname ps)) ->
    jvalue_text D (S d) b ([123] ++ s ++ w ++ [125]) (JObjectNode ps (jplace b ([123] ++ s ++ w ++ [125])))
with jitems_text (D : dialect) : nat -> str -> str -> list jnode -> Prop :=
| JI_last d b w n s : jvalue_text D d b w n -> d_ws D s -> jitems_text D d b (w ++ s) [n]
| JI_last_comma d b w n s1 s2 : jvalue_text D d b w n -> d_ws D s1 -> d_ws D s2 -> d_trailing_comma D = true ->
    jitems_text D d b (w ++ s1 ++ [44] ++ s2) [n]
| JI_more d b w n s1 s2 u ns : jvalue_text D d b w n -> d_ws D s1 -> d_ws D s2 ->
    jitems_text D d (b ++ w ++ s1 ++ [44] ++ s2) u ns ->
    jitems_text D d b (w ++ s1 ++ [44] ++ s2 ++ u) (n :: ns)
with jmembers_text (D : dialect) : nat -> str -> str -> list ((str * range) * jnode) -> Prop :=
| JM_last d b k p s : jmember_text D d b k p -> d_ws D s -> jmembers_text D d b (k ++ s) [p]
| JM_last_comma d b k p s1 s2 : jmember_text D d b k p -> d_ws D s1 -> d_ws D s2 -> d_trailing_comma D = true ->
    jmembers_text D d b (k ++ s1 ++ [44] ++ s2) [p]
| JM_more d b k p s1 s2 u ps : jmember_text D d b k p -> d_ws D s1 -> d_ws D s2 ->
    jmembers_text D d (b ++ k ++ s1 ++ [44] ++ s2) u ps ->
    jmembers_text D d b (k ++ s1 ++ [44] ++ s2 ++ u) (p :: ps)
with jmember_text (D : dialect) : nat -> str -> str -> ((str * range) * jnode) -> Prop :=
| JMember d b k key s1 s2 w n : jstring_text k key -> d_ws D s1 -> d_ws D s2 ->
    jvalue_text D d (b ++ k ++ s1 ++ [58] ++ s2) w n ->
    jmember_text D d b (k ++ s1 ++ [58] ++ s2 ++ w) ((key, jplace b k), n).

(** A whole text: a value between white space. *)
Inductive json_text (D : dialect) (d : nat) : str -> jnode -> Prop :=
| JsonText s1 w s2 n : d_ws D s1 -> jvalue_text D d s1 w n -> d_ws D s2 -> json_text D d (s1 ++ w ++ s2) n.

(** every carriage return is followed by a line feed *)
Definition cr_before_lf (s : str) : Prop := forall a b, s = a ++ [13] ++ b -> hd 0 b = 10.
