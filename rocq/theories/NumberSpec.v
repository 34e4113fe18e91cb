(** What the number literals of TOML mean, written independently of the conversions. *)
From Coq Require Import String Ascii List NArith ZArith Bool.
From Verif Require Import Base SyntaxKind Regex TomlGrammar.
Import ListNotations.
Open Scope N_scope.
Open Scope list_scope.

(** The digit a character stands for. *)
Definition digit_of (c : char) : N :=
  if c <=? 57 then c - 48 else if c <=? 70 then c - 55 else c - 87.
(** Positional value: the sum of digit times base to the power of the number of digits to its right;
    underscores count for nothing. *)
Fixpoint digit_count (s : str) : N :=
  match s with [] => 0 | c :: s' => if N.eqb c 95 then digit_count s' else 1 + digit_count s' end.
Fixpoint positional (base : N) (s : str) : N :=
  match s with
  | [] => 0
  | c :: s' => if N.eqb c 95 then positional base s' else digit_of c * base ^ digit_count s' + positional base s'
  end.

(** [int_literal k w z]: [w] is a TOML integer literal of kind [k] and denotes the integer [z]. *)
Inductive int_literal : kind -> str -> Z -> Prop :=
| IL_dec ds : lang g_unsigned_dec_int ds -> int_literal INTEGER_DEC ds (Z.of_N (positional 10 ds))
| IL_plus ds : lang g_unsigned_dec_int ds -> int_literal INTEGER_DEC (43 :: ds) (Z.of_N (positional 10 ds))
| IL_minus ds : lang g_unsigned_dec_int ds -> int_literal INTEGER_DEC (45 :: ds) (- Z.of_N (positional 10 ds))
| IL_hex ds : lang (RSeq g_hexdig (g_run g_hexdig)) ds -> int_literal INTEGER_HEX (lit "0x" ++ ds) (Z.of_N (positional 16 ds))
| IL_oct ds : lang (RSeq g_digit0_7 (g_run g_digit0_7)) ds -> int_literal INTEGER_OCT (lit "0o" ++ ds) (Z.of_N (positional 8 ds))
| IL_bin ds : lang (RSeq g_digit0_1 (g_run g_digit0_1)) ds -> int_literal INTEGER_BIN (lit "0b" ++ ds) (Z.of_N (positional 2 ds)).

(** 64-bit two's complement *)
Definition in_i64 (z : Z) : Prop := (- 9223372036854775808 <= z <= 9223372036854775807)%Z.

(** The texts [str::parse::<f64>] accepts, from the documentation of the standard library. *)
Definition ci (a b : char) : re := RCls (fun c => N.eqb c a || N.eqb c b).
Definition r_digits1 : re := RPlus g_digit.
Definition r_digits0 : re := RStar g_digit.
Definition r_exp : re := RSeq (ci 101 69) (RSeq (ROpt g_sign) r_digits1).
Definition r_number : re :=
  RSeq (RAlt r_digits1 (RAlt (RSeq r_digits1 (RSeq (RChr 46) r_digits0)) (RSeq r_digits0 (RSeq (RChr 46) r_digits1))))
       (ROpt r_exp).
Definition r_inf : re := RSeq (ci 105 73) (RSeq (ci 110 78) (ci 102 70)).
Definition r_infinity : re :=
  RSeq r_inf (RSeq (ci 105 73) (RSeq (ci 110 78) (RSeq (ci 105 73) (RSeq (ci 116 84) (ci 121 89))))).
Definition r_nan : re := RSeq (ci 110 78) (RSeq (ci 97 65) (ci 110 78)).
Definition rust_float : re := RSeq (ROpt g_sign) (RAlt r_inf (RAlt r_infinity (RAlt r_nan r_number))).
