(** Regular expressions: syntax, denotation and a derivative matcher.
    The lexer's patterns use only anchored patterns [^r$] (a whole-text match) and one
    pattern [^r] (a prefix match); greedy/leftmost order is irrelevant for them. *)
From Coq Require Import List NArith Bool Lia.
From Verif Require Import Base.
Import ListNotations.
Open Scope N_scope.

Inductive re :=
| REmp
| REps
| RCls (p : char -> bool)
| RSeq (a b : re)
| RAlt (a b : re)
| RStar (a : re).

Definition ROpt (r : re) : re := RAlt r REps.
Definition RPlus (r : re) : re := RSeq r (RStar r).
Fixpoint RRep (n : nat) (r : re) : re :=
  match n with O => REps | S n => RSeq r (RRep n r) end.
Definition RChr (c : char) : re := RCls (fun x => N.eqb x c).

(** Denotation: the language of a regular expression. *)
Inductive lang : re -> str -> Prop :=
| LEps : lang REps []
| LCls p c : p c = true -> lang (RCls p) [c]
| LSeq a b u v : lang a u -> lang b v -> lang (RSeq a b) (u ++ v)
| LAltL a b u : lang a u -> lang (RAlt a b) u
| LAltR a b u : lang b u -> lang (RAlt a b) u
| LStar0 a : lang (RStar a) []
| LStarS a u v : lang a u -> lang (RStar a) v -> lang (RStar a) (u ++ v).

Fixpoint nullable (r : re) : bool :=
  match r with
  | REmp => false
  | REps => true
  | RCls _ => false
  | RSeq a b => nullable a && nullable b
  | RAlt a b => nullable a || nullable b
  | RStar _ => true
  end.

Definition seq_ (a b : re) : re := match a with REmp => REmp | REps => b | _ => RSeq a b end.
Definition alt_ (a b : re) : re := match a, b with REmp, _ => b | _, REmp => a | _, _ => RAlt a b end.

Fixpoint deriv (c : char) (r : re) : re :=
  match r with
  | REmp => REmp
  | REps => REmp
  | RCls p => if p c then REps else REmp
  | RSeq a b =>
      if nullable a then alt_ (seq_ (deriv c a) b) (deriv c b) else seq_ (deriv c a) b
  | RAlt a b => alt_ (deriv c a) (deriv c b)
  | RStar a => seq_ (deriv c a) (RStar a)
  end.

(** [Regex::is_match] of [^r$]. *)
Fixpoint full_match (r : re) (s : str) : bool :=
  match s with
  | [] => nullable r
  | c :: s' => full_match (deriv c r) s'
  end.

(** [Regex::is_match] of [^r]: some prefix matches. *)
Fixpoint prefix_match (r : re) (s : str) : bool :=
  nullable r ||
  match s with
  | [] => false
  | c :: s' => prefix_match (deriv c r) s'
  end.

(** Correctness of the matcher. *)
Lemma nullable_spec r : nullable r = true <-> lang r [].
Proof.
  induction r; simpl.
  - split; intros H; [discriminate|inversion H].
  - split; intros H; [constructor|reflexivity].
  - split; intros H; [discriminate|inversion H].
  - rewrite andb_true_iff, IHr1, IHr2. split.
    + intros [H1 H2]. change (@nil char) with (@nil char ++ []). constructor; auto.
    + intros H. inversion H; subst.
      match goal with E : _ ++ _ = [] |- _ => apply app_eq_nil in E as [-> ->] end. auto.
  - rewrite orb_true_iff, IHr1, IHr2. split.
    + intros [H|H]; [apply LAltL|apply LAltR]; auto.
    + intros H; inversion H; subst; auto.
  - split; intros H; [constructor|reflexivity].
Qed.

Lemma lang_seq_inv a b s : lang (RSeq a b) s <-> exists u v, s = u ++ v /\ lang a u /\ lang b v.
Proof.
  split.
  - intros H. inversion H; subst. eauto.
  - intros (u & v & -> & H1 & H2). constructor; auto.
Qed.

Lemma lang_alt_inv a b s : lang (RAlt a b) s <-> lang a s \/ lang b s.
Proof.
  split.
  - intros H. inversion H; subst; auto.
  - intros [H|H]; [apply LAltL|apply LAltR]; auto.
Qed.

Lemma lang_eps_inv s : lang REps s <-> s = [].
Proof. split; [intros H; inversion H; auto | intros ->; constructor]. Qed.

Lemma lang_cls_inv p s : lang (RCls p) s <-> exists c, s = [c] /\ p c = true.
Proof. split; [intros H; inversion H; eauto | intros (c & -> & H); constructor; auto]. Qed.

Lemma seq_spec a b s : lang (seq_ a b) s <-> lang (RSeq a b) s.
Proof.
  destruct a; simpl; try reflexivity.
  - rewrite lang_seq_inv. split; [intros H; inversion H|intros (u & v & _ & H & _); inversion H].
  - rewrite lang_seq_inv. split.
    + intros H. exists [], s. repeat split; auto; constructor.
    + intros (u & v & -> & H1 & H2). apply lang_eps_inv in H1 as ->. exact H2.
Qed.

Lemma lang_emp s : ~ lang REmp s.
Proof. intro H; inversion H. Qed.

Lemma alt_spec a b s : lang (alt_ a b) s <-> lang (RAlt a b) s.
Proof.
  rewrite lang_alt_inv.
  destruct a; destruct b; simpl; rewrite ?lang_alt_inv; try tauto;
    pose proof (lang_emp s); tauto.
Qed.

Lemma lang_star_inv a c s :
  lang (RStar a) (c :: s) ->
  exists u v, s = u ++ v /\ lang a (c :: u) /\ lang (RStar a) v.
Proof.
  intros H. remember (RStar a) as r eqn:Er. remember (c :: s) as w eqn:Ew.
  revert c s Ew. induction H; intros c0 s0 Ew; try discriminate.
  inversion Er; subst a0.
  destruct u as [|x u]; simpl in Ew.
  - apply IHlang2; auto.
  - inversion Ew; subst. exists u, v. auto.
Qed.

Lemma deriv_spec c r s : lang (deriv c r) s <-> lang r (c :: s).
Proof.
  revert s; induction r; intros s; simpl.
  - split; intro H; inversion H.
  - split; intro H; inversion H.
  - destruct (p c) eqn:E; split; intros H.
    + inversion H; subst. constructor; auto.
    + inversion H; subst. constructor.
    + inversion H.
    + inversion H; subst. congruence.
  - assert (HD : lang (RSeq (deriv c r1) r2) s <-> exists u v, s = u ++ v /\ lang r1 (c :: u) /\ lang r2 v).
    { split.
      - intros H; inversion H; subst. exists u, v. rewrite <- IHr1. auto.
      - intros (u & v & -> & H1 & H2). constructor; auto. apply IHr1; auto. }
    assert (HR : lang (RSeq r1 r2) (c :: s) <->
                 ((exists u v, s = u ++ v /\ lang r1 (c :: u) /\ lang r2 v) \/ (nullable r1 = true /\ lang r2 (c :: s)))).
    { split.
      - intros H; inversion H as [| |a b u v Hu Hv Ha Hb| | | |]; subst.
        destruct u as [|x u]; simpl in *.
        + right. subst. split; auto. apply nullable_spec; auto.
        + left. inversion Hb; subst. eauto.
      - intros [(u & v & -> & H1 & H2)|[H1 H2]].
        + change (c :: u ++ v) with ((c :: u) ++ v). constructor; auto.
        + change (c :: s) with ([] ++ c :: s). constructor; auto. apply nullable_spec; auto. }
    destruct (nullable r1) eqn:En.
    + rewrite alt_spec, HR. split; intros H.
      * inversion H; subst.
        -- left. apply HD. apply seq_spec. auto.
        -- right. split; auto. apply IHr2; auto.
      * destruct H as [H|[_ H]].
        -- apply LAltL. apply seq_spec. apply HD. auto.
        -- apply LAltR. apply IHr2. auto.
    + rewrite seq_spec, HR, HD. split; intros H; auto. destruct H as [H|[H _]]; [auto|discriminate].
  - rewrite alt_spec. split; intros H; inversion H; subst;
      try (apply LAltL; apply IHr1; assumption); try (apply LAltR; apply IHr2; assumption).
  - rewrite seq_spec. split; intros H.
    + inversion H; subst. change (c :: u ++ v) with ((c :: u) ++ v). constructor; auto. apply IHr; auto.
    + apply lang_star_inv in H as (u & v & -> & H1 & H2). constructor; auto. apply IHr; auto.
Qed.

Theorem full_match_spec r s : full_match r s = true <-> lang r s.
Proof.
  revert r; induction s as [|c s IH]; intros r; simpl.
  - apply nullable_spec.
  - rewrite IH. apply deriv_spec.
Qed.

Theorem prefix_match_spec r s :
  prefix_match r s = true <-> exists u v, s = u ++ v /\ lang r u.
Proof.
  revert r; induction s as [|c s IH]; intros r; simpl.
  - rewrite orb_false_r, nullable_spec. split.
    + intros H. exists [], []. auto.
    + intros (u & v & H1 & H2). symmetry in H1. apply app_eq_nil in H1 as [-> ->]. exact H2.
  - rewrite orb_true_iff, nullable_spec, IH. split.
    + intros [H|(u & v & -> & H)].
      * exists [], (c :: s). auto.
      * exists (c :: u), v. split; auto. apply deriv_spec; auto.
    + intros (u & v & H1 & H2). destruct u as [|x u]; simpl in H1.
      * auto.
      * inversion H1; subst. right. exists u, v. split; auto. apply deriv_spec; auto.
Qed.
