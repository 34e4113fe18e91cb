(** Characters, texts and small list facts used by every model file. *)
From Coq Require Import String Ascii List NArith Bool Lia.
Import ListNotations.
Open Scope N_scope.

(** A Rust [char] is a Unicode scalar value; a Rust [str]/[String] is the list of its chars. *)
Notation char := N (only parsing).
Notation str := (list N) (only parsing).

(** ASCII literals. *)
Definition lit (s : string) : str := List.map N_of_ascii (list_ascii_of_string s).

(** A Rust [char] excludes the surrogates and stops at 0x10FFFF. *)
Definition is_scalar (c : char) : Prop :=
  c <= 0x10FFFF /\ ~ (0xD800 <= c <= 0xDFFF).

Definition eq_char (a b : char) : bool := N.eqb a b.
Definition in_range (lo hi c : char) : bool := (lo <=? c) && (c <=? hi).

(** [char::len_utf8]. *)
Definition len_utf8 (c : char) : N :=
  if c <? 0x80 then 1 else if c <? 0x800 then 2 else if c <? 0x10000 then 3 else 4.

(** [str::len]: length in bytes. *)
Fixpoint len_bytes (s : str) : N :=
  match s with
  | [] => 0
  | c :: s' => len_utf8 c + len_bytes s'
  end.

(** [char::is_ascii_digit]. *)
Definition is_ascii_digit (c : char) : bool := in_range 48 57 c.

Fixpoint str_eqb (a b : str) : bool :=
  match a, b with
  | [], [] => true
  | x :: a', y :: b' => N.eqb x y && str_eqb a' b'
  | _, _ => false
  end.

Fixpoint take_while {A} (p : A -> bool) (l : list A) : list A :=
  match l with
  | [] => []
  | x :: l' => if p x then x :: take_while p l' else []
  end.

Fixpoint drop_while {A} (p : A -> bool) (l : list A) : list A :=
  match l with
  | [] => []
  | x :: l' => if p x then drop_while p l' else l
  end.

(** Lemmas. *)
Lemma str_eqb_eq a b : str_eqb a b = true <-> a = b.
Proof.
  revert b; induction a as [|x a IH]; destruct b as [|y b]; simpl; split; intro H;
    try discriminate; try reflexivity.
  - apply andb_true_iff in H as [H1 H2]. apply N.eqb_eq in H1. apply IH in H2. congruence.
  - inversion H; subst. rewrite N.eqb_refl. simpl. apply IH. reflexivity.
Qed.

Lemma str_eqb_refl a : str_eqb a a = true.
Proof. apply str_eqb_eq; reflexivity. Qed.

Lemma str_eqb_neq a b : str_eqb a b = false <-> a <> b.
Proof.
  split; intros H.
  - intros ->. rewrite str_eqb_refl in H. discriminate.
  - destruct (str_eqb a b) eqn:E; [|reflexivity]. apply str_eqb_eq in E. contradiction.
Qed.

Lemma take_drop_while {A} (p : A -> bool) l : take_while p l ++ drop_while p l = l.
Proof. induction l as [|x l IH]; simpl; [reflexivity|]. destruct (p x); simpl; congruence. Qed.

Lemma take_while_all {A} (p : A -> bool) l : forallb p (take_while p l) = true.
Proof. induction l as [|x l IH]; simpl; [reflexivity|]. destruct (p x) eqn:E; simpl; [|reflexivity]. rewrite E; exact IH. Qed.

Lemma drop_while_head {A} (p : A -> bool) l :
  match drop_while p l with [] => True | x :: _ => p x = false end.
Proof. induction l as [|x l IH]; simpl; [exact I|]. destruct (p x) eqn:E; [exact IH|exact E]. Qed.

Lemma take_while_app {A} (p : A -> bool) l1 l2 :
  forallb p l1 = true ->
  take_while p (l1 ++ l2) = l1 ++ take_while p l2.
Proof.
  induction l1 as [|x l1 IH]; simpl; [reflexivity|].
  intros H; apply andb_true_iff in H as [H1 H2]. rewrite H1, IH; auto.
Qed.

Lemma drop_while_app {A} (p : A -> bool) l1 l2 :
  forallb p l1 = true ->
  drop_while p (l1 ++ l2) = drop_while p l2.
Proof.
  induction l1 as [|x l1 IH]; simpl; [reflexivity|].
  intros H; apply andb_true_iff in H as [H1 H2]. rewrite H1; auto.
Qed.

Lemma len_bytes_app a b : len_bytes (a ++ b) = len_bytes a + len_bytes b.
Proof. induction a as [|x a IH]; simpl; [reflexivity|]. rewrite IH; lia. Qed.

Lemma len_utf8_pos c : 1 <= len_utf8 c.
Proof. unfold len_utf8. repeat (destruct (_ <? _)); lia. Qed.

Lemma len_bytes_ge_length s : N.of_nat (List.length s) <= len_bytes s.
Proof. induction s as [|c s IH]; simpl List.length; cbn [len_bytes]; [lia|]. pose proof (len_utf8_pos c). lia. Qed.

Lemma len_bytes_zero s : len_bytes s = 0 -> s = [].
Proof. destruct s as [|c s]; [reflexivity|]. cbn [len_bytes]. pose proof (len_utf8_pos c). lia. Qed.
