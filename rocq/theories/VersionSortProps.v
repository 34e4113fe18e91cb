(** Final theorems about version sort (C11, C38). *)
From Coq Require Import String Ascii List NArith Bool Arith Lia.
From Verif Require Import Base NumberSpec VersionSortModel VersionSortProofs VersionSortMore.
Import ListNotations.
Open Scope N_scope.
Open Scope list_scope.

(** * C11: a total preorder, as [slice::sort_by] requires *)
Theorem C11_total_preorder :
  (forall a, version_sort a a = Eq) /\
  (forall a b, version_sort b a = CompOpp (version_sort a b)) /\
  (forall a b c, version_sort a b <> Gt -> version_sort b c <> Gt -> version_sort a c <> Gt).
Proof. exact (conj version_sort_refl (conj version_sort_antisym version_sort_trans)). Qed.
Print Assumptions C11_total_preorder.
Theorem C11_equal_is_interchangeable : forall a b c, version_sort a b = Eq -> version_sort a c = version_sort b c.
Proof. exact version_sort_eq_cong. Qed.
Print Assumptions C11_equal_is_interchangeable.
(** A chain through all the kinds of chunks. *)
Example C11_example : map (fun '(a, b) => version_sort (lit a) (lit b))
  [("~=1", "_x"); ("_x", ".x"); (".x", "007"); ("007", "7"); ("7", "10"); ("10", "a9"); ("a9", "a10"); ("a-b", "a_b")]%string = [Lt; Lt; Lt; Lt; Lt; Lt; Lt; Eq].
Proof. vm_compute. reflexivity. Qed.

(** * C38 *)
(** Numbers compare by value.  FULL STATEMENT (false): without the bounds, see [C38_large_numbers_refuted]. *)
Theorem C38_numbers_by_value_partial : forall p w1 w2 r1 r2,
  ~ ends_digit p -> numbers_fit p -> w1 <> [] -> w2 <> [] -> digits w1 -> digits w2 -> ~ starts_digit r1 -> ~ starts_digit r2 ->
  positional 10 w2 < 2 ^ 64 -> positional 10 w1 < positional 10 w2 ->
  version_sort (p ++ w1 ++ r1) (p ++ w2 ++ r2) = Lt.
Proof. exact version_sort_number. Qed.
Print Assumptions C38_numbers_by_value_partial.

(** Only texts that differ in [_] against [-] compare equal.  FULL STATEMENT (false): without [numbers_fit]. *)
Theorem C38_equal_texts_partial : forall a b, numbers_fit a -> numbers_fit b ->
  (version_sort a b = Eq <-> same_but_separators a b).
Proof. exact (fun a b Ha Hb => conj (version_sort_eq_text a b Ha Hb) (version_sort_text_eq a b)). Qed.
Print Assumptions C38_equal_texts_partial.
(** This direction holds without a bound. *)
Theorem C38_separators_alike : forall a b, same_but_separators a b -> version_sort a b = Eq.
Proof. exact version_sort_text_eq. Qed.
Print Assumptions C38_separators_alike.

(** A number of 2^64 or more ends the comparison: it comes before smaller numbers, and what follows is ignored. *)
Theorem C38_large_numbers_refuted :
  version_sort (lit "a18446744073709551616") (lit "a5") = Lt /\
  (version_sort (lit "a18446744073709551616b") (lit "a") = Eq /\ ~ same_but_separators (lit "a18446744073709551616b") (lit "a")).
Proof. split; [vm_compute; reflexivity|]. split; [vm_compute; reflexivity|]. intros H. vm_compute in H. discriminate. Qed.
Print Assumptions C38_large_numbers_refuted.

Lemma short_fits s : (length s < 20)%nat -> numbers_fit s.
Proof.
  intros H p w r -> Hw. rewrite !app_length in H. pose proof (DateTimeProofs.positional_bound10 w Hw) as B.
  assert (K : 10 ^ N.of_nat (length w) <= 10 ^ 19) by (apply N.pow_le_mono_r; lia). 
  assert (10 ^ 19 < 2 ^ 64) by (vm_compute; reflexivity). lia.
Qed.
Example C38_example : numbers_fit (lit "py-3.") /\ ~ ends_digit (lit "py-3.") /\
  version_sort (lit "py-3." ++ lit "9" ++ lit "rc") (lit "py-3." ++ lit "10" ++ lit "a") = Lt /\
  same_but_separators (lit "py-3") (lit "py_3").
Proof.
  split; [apply short_fits; simpl; lia|]. split; [unfold ends_digit; simpl; lia|]. split; vm_compute; reflexivity.
Qed.
