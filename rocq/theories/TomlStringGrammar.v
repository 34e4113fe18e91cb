(** TOML strings and their values (toml.abnf and the String section of the TOML specification),
    written independently of the decoder.  [body]s are the texts between the delimiters. *)
From Coq Require Import String Ascii List NArith Bool.
From Verif Require Import Base.
Import ListNotations.
Open Scope N_scope.
Open Scope list_scope.

(** wschar = space / tab *)
Definition wschar (c : char) : Prop := c = 32 \/ c = 9.
(** newline = LF / CRLF *)
Definition newline (s : str) : Prop := s = [10] \/ s = [13; 10].
(** non-ascii = %x80-D7FF / %xE000-10FFFF *)
Definition non_ascii (c : char) : Prop := 0x80 <= c <= 0xD7FF \/ 0xE000 <= c <= 0x10FFFF.

(** basic-unescaped = wschar / %x21 / %x23-5B / %x5D-7E / non-ascii *)
Definition basic_unescaped (c : char) : Prop :=
  wschar c \/ c = 0x21 \/ 0x23 <= c <= 0x5B \/ 0x5D <= c <= 0x7E \/ non_ascii c.
(** literal-char = %x09 / %x20-26 / %x28-7E / non-ascii *)
Definition literal_char (c : char) : Prop :=
  c = 9 \/ 0x20 <= c <= 0x26 \/ 0x28 <= c <= 0x7E \/ non_ascii c.

(** HEXDIG with its value *)
Inductive hexdig : char -> N -> Prop :=
| hex_09 d : d <= 9 -> hexdig (48 + d) d
| hex_AF d : 10 <= d <= 15 -> hexdig (55 + d) d
| hex_af d : 10 <= d <= 15 -> hexdig (87 + d) d.
Inductive hexnum : str -> N -> Prop :=
| hexnum_nil : hexnum [] 0
| hexnum_snoc s n c d : hexnum s n -> hexdig c d -> hexnum (s ++ [c]) (16 * n + d).

(** Unicode scalar value *)
Definition scalar_value (n : N) : Prop := n <= 0xD7FF \/ 0xE000 <= n <= 0x10FFFF.

(** The escape sequences: the text after the backslash and the character denoted; [v11] tells whether
    the escapes added by TOML v1.1.0 are allowed. *)
Inductive escape (v11 : bool) : str -> char -> Prop :=
| esc_b : escape v11 [98] 8
| esc_t : escape v11 [116] 9
| esc_n : escape v11 [110] 10
| esc_f : escape v11 [102] 12
| esc_r : escape v11 [114] 13
| esc_quote : escape v11 [34] 34
| esc_backslash : escape v11 [92] 92
| esc_u h n : hexnum h n -> length h = 4%nat -> scalar_value n -> escape v11 (117 :: h) n
| esc_U h n : hexnum h n -> length h = 8%nat -> scalar_value n -> escape v11 (85 :: h) n
| esc_e : v11 = true -> escape v11 [101] 27
| esc_x h n : v11 = true -> hexnum h n -> length h = 2%nat -> escape v11 (120 :: h) n.

(** A basic string body and its value. *)
Inductive basic_body (v11 : bool) : str -> str -> Prop :=
| bb_nil : basic_body v11 [] []
| bb_char c b s : basic_unescaped c -> basic_body v11 b s -> basic_body v11 (c :: b) (c :: s)
| bb_escape e x b s : escape v11 e x -> basic_body v11 b s -> basic_body v11 (92 :: e ++ b) (x :: s).

(** A literal string body (it is its own value). *)
Definition literal_body (b : str) : Prop := Forall literal_char b.

(** Whitespace and newlines trimmed after a line-ending backslash. *)
Inductive trimmed : str -> Prop :=
| tr_nil : trimmed []
| tr_ws c s : wschar c -> trimmed s -> trimmed (c :: s)
| tr_nl n s : newline n -> trimmed s -> trimmed (n ++ s).
Definition starts_trimmable (s : str) : Prop :=
  match s with c :: _ => wschar c \/ c = 10 \/ c = 13 | [] => False end.

(** A multi-line basic string body and its value; the number counts the quotation marks that
    immediately precede, of which at most two may stand unescaped in a row. *)
Inductive ml_basic_body (v11 : bool) : nat -> str -> str -> Prop :=
| mb_nil n : ml_basic_body v11 n [] []
| mb_char n c b s : basic_unescaped c -> ml_basic_body v11 0 b s -> ml_basic_body v11 n (c :: b) (c :: s)
| mb_escape n e x b s : escape v11 e x -> ml_basic_body v11 0 b s -> ml_basic_body v11 n (92 :: e ++ b) (x :: s)
| mb_newline n nl b s : newline nl -> ml_basic_body v11 0 b s -> ml_basic_body v11 n (nl ++ b) (nl ++ s)
| mb_quote n b s : (n < 2)%nat -> ml_basic_body v11 (S n) b s -> ml_basic_body v11 n (34 :: b) (34 :: s)
| mb_trim n ws nl t b s : Forall wschar ws -> newline nl -> trimmed t -> ~ starts_trimmable b ->
    ml_basic_body v11 0 b s -> ml_basic_body v11 n (92 :: ws ++ nl ++ t ++ b) s.

(** A multi-line literal string body (it is its own value). *)
Inductive ml_literal_body : nat -> str -> Prop :=
| ml_nil n : ml_literal_body n []
| ml_char n c b : literal_char c -> ml_literal_body 0 b -> ml_literal_body n (c :: b)
| ml_newline n nl b : newline nl -> ml_literal_body 0 b -> ml_literal_body n (nl ++ b)
| ml_quote n b : (n < 2)%nat -> ml_literal_body (S n) b -> ml_literal_body n (39 :: b).

(** "A newline immediately following the opening delimiter will be trimmed." *)
Inductive after_delimiter : str -> str -> Prop :=
| ad_nl n b : newline n -> after_delimiter (n ++ b) b
| ad_none b : (forall n r, newline n -> b <> n ++ r) -> after_delimiter b b.

(** unquoted-key = 1*( ALPHA / DIGIT / %x2D / %x5F ) *)
Definition unquoted_key_char (c : char) : Prop := 65 <= c <= 90 \/ 97 <= c <= 122 \/ 48 <= c <= 57 \/ c = 45 \/ c = 95.
(** simple-key = quoted-key / unquoted-key, with its value *)
Inductive simple_key (v11 : bool) : str -> str -> Prop :=
| key_bare s : s <> [] -> Forall unquoted_key_char s -> simple_key v11 s s
| key_basic b s : basic_body v11 b s -> simple_key v11 ([34] ++ b ++ [34]) s
| key_literal b : literal_body b -> simple_key v11 ([39] ++ b ++ [39]) b.
