(** * C33: names of options round-trip *)
From Coq Require Import String Ascii List NArith Bool Lia.
From Verif Require Import Base NameModel.
Import ListNotations.
Open Scope N_scope.
Open Scope list_scope.

(** ** Specification *)
(** Each option has a name that reads back as that option, nothing else does, and different options have different names. *)
Definition names_round_trip {A} (show : A -> str) (read : str -> option A) : Prop :=
  (forall a, read (show a) = Some a) /\ (forall s a, read s = Some a -> s = show a) /\ (forall a b, show a = show b -> a = b).

Lemma arms_in {A} (l : list (str * A)) s a : arms l s = Some a -> In (s, a) l.
Proof.
  induction l as [|[n b] l IH]; [discriminate|]. cbn [arms]. destruct (str_eqb s n) eqn:E; [|intros H; right; auto]. intros H. injection H as <-. apply str_eqb_eq in E. subst. left. reflexivity.
Qed.
Lemma round_trip {A} (show : A -> str) (read : str -> option A) :
  (forall a, read (show a) = Some a) -> (forall s a, read s = Some a -> s = show a) -> names_round_trip show read.
Proof. intros H1 H2. split; [exact H1|]. split; [exact H2|]. intros a b HE. pose proof (H1 a) as Ha. rewrite HE, H1 in Ha. congruence. Qed.
Ltac inv_arms := intros s a HA; apply arms_in in HA; repeat (destruct HA as [HA|HA]; [injection HA as <- <-; reflexivity|]); destruct HA.

Theorem C33_array_order : names_round_trip show_array_order read_array_order /\ (forall o, show_array_order o = kebab (array_order_ident o)).
Proof. split; [apply round_trip; [intros []; reflexivity|inv_arms]|intros []; reflexivity]. Qed.
Print Assumptions C33_array_order.
Theorem C33_order_by : names_round_trip show_order_by read_order_by.
Proof. apply round_trip; [reflexivity|]. intros s a H. injection H as <-. reflexivity. Qed.
Print Assumptions C33_order_by.
Theorem C33_table_order : names_round_trip show_table_order read_table_order /\ (forall o, show_table_order o = kebab (table_order_ident o)).
Proof. split; [apply round_trip; [intros []; reflexivity|inv_arms]|intros []; reflexivity]. Qed.
Print Assumptions C33_table_order.
Theorem C33_severity : names_round_trip show_severity read_severity /\ show_severity Off = lit "off" /\ show_severity Warn = lit "warn" /\ show_severity Error = lit "error".
Proof. split; [apply round_trip; [intros []; reflexivity|inv_arms]|repeat split]. Qed.
Print Assumptions C33_severity.
Theorem C33_version : names_round_trip show_version read_version /\ (forall v, version_rank v <= version_rank latest) /\ (forall v w, version_rank v = version_rank w -> v = w).
Proof. split; [apply round_trip; [intros []; reflexivity|inv_arms]|]. split; [intros []; cbn; lia|intros [] []; cbn; try reflexivity; lia]. Qed.
Print Assumptions C33_version.
(** A string format reads back from its name and from each of its aliases, from nothing else, and no name or alias is shared; the name is
    also what serde writes; [ALL] lists every format once. *)
Theorem C33_string_format :
  (forall f, read_format (format_as_str f) = Some f)
  /\ (forall s f, read_format s = Some f <-> s = format_as_str f \/ In s (format_aliases f))
  /\ (forall f g, format_as_str f = format_as_str g -> f = g)
  /\ (forall f, format_as_str f = kebab (format_ident f))
  /\ (forall f, In f all_formats) /\ NoDup all_formats.
Proof.
  split; [intros []; reflexivity|]. split.
  { intros s f. split.
    - intros H. apply arms_in in H. cbn [flat_map define_string_formats map app] in H. repeat (destruct H as [H|H]; [injection H as <- <-; first [left; reflexivity|right; left; reflexivity]|]); destruct H.
    - intros [->|H]; [destruct f; reflexivity|]. destruct f; cbn in H; (destruct H as [<-|[]] || destruct H); reflexivity. }
  split; [intros f g H; assert (HR : read_format (format_as_str f) = Some f) by (destruct f; reflexivity); rewrite H in HR; destruct g; cbn in HR; congruence|].
  split; [intros []; reflexivity|]. split; [intros []; cbn; tauto|].
  repeat (constructor; [intros H; cbn in H; repeat (destruct H as [H|H]; [discriminate H|]); exact H|]). constructor.
Qed.
Print Assumptions C33_string_format.
(** The kinds of key groups print a title, not the name that is read. *)
Theorem C33_group_kind_refuted : ~ names_round_trip show_group_kind read_group_kind /\ (forall k, read_group_kind (show_group_kind k) = None).
Proof. split; [intros [H _]; specialize (H Keys); discriminate H|intros []; reflexivity]. Qed.
Print Assumptions C33_group_kind_refuted.
(** What does hold of them: different kinds have different titles, and each is read from one name only. *)
Theorem C33_group_kind_partial : (forall a b, show_group_kind a = show_group_kind b -> a = b) /\ (forall k, exists s, forall s', read_group_kind s' = Some k <-> s' = s).
Proof.
  split; [intros [] []; try reflexivity; discriminate|]. intros k. exists (match k with Keys => lit "properties" | AdditionalKeys => lit "additionalProperties" | PatternKeys => lit "patternProperties" end).
  intros s. split; [|intros ->; destruct k; reflexivity]. intros H. apply arms_in in H. repeat (destruct H as [H|H]; [injection H as <- <-; reflexivity|]). destruct H.
Qed.
Print Assumptions C33_group_kind_partial.
