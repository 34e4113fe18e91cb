(** * What the commands do to files, at every moment and whatever the order of the tasks (C58, C59) *)
From Coq Require Import String Ascii List NArith Bool Arith Lia.
From Verif Require Import Base ParserModel FormatterModel FormatterProps GlobModel CliModel CliSpec CliProofs.
Import ListNotations.
Open Scope N_scope.
Open Scope list_scope.

Ltac same_file := repeat match goal with
  | A : can_open _ _ _ _ ?p ?i, B : can_open _ _ _ _ ?p ?j |- _ => tryif constr_eq i j then fail else (assert (j = i) by (destruct A as [A _], B as [B _]; congruence); subst j)
  | A : forall i, ~ can_open _ _ _ _ ?p i, B : can_open _ _ _ _ ?p _ |- _ => exact (False_ind _ (A _ B))
  end.

(** ** C58: formatting files *)
Section C58.
Context (inode : path -> option ino) (readable writable : ino -> bool) (disabled : path -> bool) (format : path -> bytes -> formatting).
Local Notation takes := (takes inode readable writable disabled format).
Local Notation to_be_written := (to_be_written inode readable writable disabled format).
Local Notation counted := (counted inode readable writable disabled format).

(** With --check no file changes, whatever else happens. *)
Theorem C58_check : forall es d evs r, takes true es (starts es d) evs = Some r -> files r = d.
Proof. intros. eapply check_changes_nothing; [reflexivity|eassumption]. Qed.

(** At every moment, also if the program is ended there: files that were not asked for are as before, and each of the others is as
    before or holds the beginning of its formatted text.  Missing: that the beginning is never a proper one (see
    [C58_crash_refuted]). *)
Theorem C58_crash_partial : forall check es d evs r, distinct inode es -> takes check es (starts es d) evs = Some r ->
  forall i, files r i = d i \/
    exists p f rest, In (Found p) es /\ to_be_written check d p i f /\ f = files r i ++ rest.
Proof.
  intros check es d evs r HD H i.
  assert (G : (exists n p, nth_error es n = Some (Found p) /\ inode p = Some i) \/ (forall p, In (Found p) es -> inode p <> Some i)).
  { clear -es. induction es as [|e es IH]; [right; intros p []|]. destruct IH as [(n & p & H1 & H2)|IH]; [left; exists (S n), p; auto|].
    destruct e as [p|p|p]; try (right; intros q [E|HI]; [discriminate|]; now apply IH).
    destruct (inode p) as [j|] eqn:EJ.
    - destruct (N.eq_dec j i) as [-> |N]; [left; exists O, p; auto|]. right. intros q [E|HI]; [injection E as <-; congruence|]. now apply IH.
    - right. intros q [E|HI]; [injection E as <-; congruence|]. now apply IH. }
  destruct G as [(n & p & H1 & H2)|G]; [|left; eapply others_untouched; eassumption].
  destruct (run_ok _ _ _ _ _ _ es d evs r HD H) as [HL HK].
  assert (HT : exists t, nth_error (tasks r) n = Some t).
  { destruct (nth_error (tasks r) n) eqn:E; [eauto|]. apply nth_error_None in E. assert (n < length es)%nat by (apply nth_error_Some; congruence). lia. }
  destruct HT as [t Ht]. specialize (HK n _ t H1 Ht). cbn in HK. assert (HI : In (Found p) es) by (eapply nth_error_In; exact H1).
  assert (same : forall j f, to_be_written check d p j f -> j = i) by (intros j f Hw; apply opens_at in Hw; congruence).
  destruct t as [|read|source|f|off c rest|off c|o]; cbn in HK.
  - left. auto.
  - destruct HK as (_ & j & Hj & E & _). left. replace i with j; [assumption|]. rewrite (proj1 Hj) in H2. congruence.
  - destruct HK as (_ & j & Hj & E & _). left. replace i with j; [assumption|]. rewrite (proj1 Hj) in H2. congruence.
  - destruct HK as (j & Hj & E). left. now rewrite <- (same j f Hj).
  - destruct HK as (j & f & Hj & E & _). right. exists p, f, (c ++ rest). rewrite <- (same j f Hj). auto.
  - destruct HK as (j & f & Hj & E & _). right. exists p, f, c. rewrite <- (same j f Hj). auto.
  - destruct o; cbn in HK.
    + destruct HK as (j & f & Hj & (rest & E) & _). right. exists p, f, rest. rewrite <- (same j f Hj). auto.
    + left. now apply HK.
    + contradiction.
    + destruct HK as [(j & f & Hj & (rest & E) & _)|[_ HK]].
      * right. exists p, f, rest. rewrite <- (same j f Hj). auto.
      * left. auto.
Qed.

(** When the run is over, every file for which nothing failed is counted and written as if it had been alone. *)
Theorem C58_run : forall check es d evs r n p, distinct inode es -> takes check es (starts es d) evs = Some r -> over r = true ->
  nth_error es n = Some (Found p) -> no_failure n evs ->
  exists o, nth_error (tasks r) n = Some (Ended o) /\ counted check d p o /\
    (forall i f, to_be_written check d p i f -> files r i = f) /\
    (forall i, inode p = Some i -> (forall f, ~ to_be_written check d p i f) -> files r i = d i).
Proof.
  intros check es d evs r n p HD H HO HE HF. destruct (run_ok _ _ _ _ _ _ es d evs r HD H) as [HL HK].
  assert (HT : exists t, nth_error (tasks r) n = Some t).
  { destruct (nth_error (tasks r) n) eqn:E; [eauto|]. apply nth_error_None in E. assert (n < length es)%nat by (apply nth_error_Some; congruence). lia. }
  destruct HT as [t Ht]. specialize (HK n _ t HE Ht). rewrite (no_failure_clean _ _ HF) in HK. cbn in HK.
  unfold over in HO. rewrite forallb_forall in HO. pose proof (HO t (nth_error_In _ _ Ht)) as He. destruct t; try discriminate. cbn in HK.
  exists o. split; [assumption|]. destruct o; cbn in HK.
  - destruct HK as (j & f & Hj & _ & E). specialize (E eq_refl). split; [econstructor; exact Hj|]. split.
    + intros i f' Hi. pose proof (opens_at _ _ _ _ _ _ _ _ _ _ Hj) as E1. pose proof (opens_at _ _ _ _ _ _ _ _ _ _ Hi) as E2.
      rewrite E1 in E2. injection E2 as <-. destruct Hj as (_ & _ & _ & F1 & _), Hi as (_ & _ & _ & F2 & _). congruence.
    + intros i Hi HN. pose proof (opens_at _ _ _ _ _ _ _ _ _ _ Hj) as E1. rewrite E1 in Hi. injection Hi as <-. now destruct (HN f).
  - destruct HK as [HC HS]. split; [assumption|]. split; [|intros i Hi _; auto].
    intros i f Hi. exfalso. pose proof (opens_at _ _ _ _ _ _ _ _ _ _ Hi) as E. destruct Hi as (_ & F1 & F2 & F3 & F4).
    inversion HC; try congruence. destruct H1 as [H1 _]. rewrite H1 in E. injection E as ->. congruence.
  - contradiction.
  - destruct HK as [(j & f & _ & _ & E)|[HC HS]]; [discriminate|]. specialize (HC eq_refl). split; [assumption|]. split; [|intros i Hi _; auto].
    intros i f Hi. exfalso. pose proof (opens_at _ _ _ _ _ _ _ _ _ _ Hi) as E. destruct Hi as (F0 & F1 & F2 & F3 & F4).
    inversion HC.
    + now apply (H1 i).
    + destruct H1 as [H1 _]. rewrite H1 in E. injection E as ->. now apply (H2 f).
    + congruence.
Qed.

(** If nothing failed at all, the program ends with an error exactly if an entry of the search is one or some file has to be
    counted as one; and every file is counted once. *)
Theorem C58_exit_code : forall check es d evs r, distinct inode es -> takes check es (starts es d) evs = Some r -> over r = true -> (forall n, no_failure n evs) ->
  (exit_code r = 0 \/ exit_code r = 1) /\
  (exit_code r = 1 <-> exists e, In e es /\ match e with Found p => counted check d p Failure | Skipped _ => False | NotFound _ => True end) /\
  (count Success r + count NotNeeded r + count WasSkipped r + count Failure r = length es)%nat.
Proof.
  intros check es d evs r HD H HO HF. destruct (run_ok _ _ _ _ _ _ es d evs r HD H) as [HL HK].
  split; [unfold exit_code; destruct (Nat.ltb 0 (count Failure r)); auto|]. split.
  - assert (G : exit_code r = 1 <-> exists n, nth_error (tasks r) n = Some (Ended Failure)).
    { unfold exit_code, count. split.
      - destruct (Nat.ltb_spec 0 (length (filter (fun t => match outcome_of t with Some o' => outcome_eqb Failure o' | None => false end) (tasks r)))) as [L|]; [|discriminate].
        intros _. destruct (filter _ (tasks r)) as [|t ts] eqn:E; [cbn in L; lia|].
        assert (HI : In t (filter (fun t => match outcome_of t with Some o' => outcome_eqb Failure o' | None => false end) (tasks r))) by (rewrite E; now left).
        apply filter_In in HI. destruct HI as [HI HP]. unfold over in HO. rewrite forallb_forall in HO. specialize (HO t HI).
        destruct t as [| | | | | |o]; try discriminate. destruct o; try discriminate. apply In_nth_error in HI. exact HI.
      - intros [n Hn]. apply nth_error_In in Hn.
        assert (HI : In (Ended Failure) (filter (fun t => match outcome_of t with Some o' => outcome_eqb Failure o' | None => false end) (tasks r)))
          by (apply filter_In; auto).
        destruct (filter _ (tasks r)); [destruct HI|]. reflexivity. }
    rewrite G. clear G. split.
    + intros [n Hn]. assert (HE : exists e, nth_error es n = Some e).
      { destruct (nth_error es n) eqn:E; [eauto|]. apply nth_error_None in E. assert (n < length (tasks r))%nat by (apply nth_error_Some; congruence). lia. }
      destruct HE as [e HE]. exists e. split; [eapply nth_error_In; exact HE|]. specialize (HK n e _ HE Hn). destruct e as [p|p|p]; cbn in HK.
      * destruct (C58_run check es d evs r n p HD H HO HE (HF n)) as (o & H1 & H2 & _). rewrite Hn in H1. injection H1 as <-. assumption.
      * discriminate.
      * exact I.
    + intros (e & HI & He). apply In_nth_error in HI. destruct HI as [n HE]. exists n.
      assert (HT : exists t, nth_error (tasks r) n = Some t).
      { destruct (nth_error (tasks r) n) eqn:E; [eauto|]. apply nth_error_None in E. assert (n < length es)%nat by (apply nth_error_Some; congruence). lia. }
      destruct HT as [t Ht]. rewrite Ht. f_equal. specialize (HK n e t HE Ht). destruct e as [p|p|p]; cbn in HK; [|contradiction|assumption].
      destruct (C58_run check es d evs r n p HD H HO HE (HF n)) as (o & H1 & H2 & _). rewrite Ht in H1. injection H1 as ->. f_equal.
      inversion He; subst; inversion H2; subst; try reflexivity; exfalso;
        repeat match goal with
               | A : can_open _ _ _ _ p ?i, B : can_open _ _ _ _ p ?j |- _ => assert (i = j) by (destruct A as [A _], B as [B _]; congruence); subst; clear B
               | A : CliSpec.to_be_written _ _ _ _ _ _ _ _ _ _ |- _ => destruct A as (? & ? & ? & ? & ?)
               | A : forall i, ~ can_open _ _ _ _ p i, B : can_open _ _ _ _ p _ |- _ => exact (A _ B)
               end; try congruence.
  - rewrite <- HL. clear -HO. unfold count. unfold over in HO. induction (tasks r) as [|t ts IH]; [reflexivity|].
    cbn in HO. apply andb_true_iff in HO. destruct HO as [H1 H2]. specialize (IH H2). destruct t; try discriminate. cbn [filter outcome_of] in IH |- *. destruct o; cbn [outcome_eqb length] in IH |- *; lia.
Qed.

(** Every run ends: there is a bound on the number of steps, and as long as it is not over it can go on without a failure. *)
Theorem C58_ends : forall check es d, distinct inode es ->
  (exists bound, forall evs r, takes check es (starts es d) evs = Some r -> (length evs <= bound)%nat) /\
  (forall evs r, takes check es (starts es d) evs = Some r -> over r = false ->
     exists ev r', fails (snd ev) = false /\ take inode readable writable disabled format check es r ev = Some r').
Proof.
  intros check es d HD. split.
  - exists (total inode format d es (map start es)). intros evs r H. pose proof (runs_are_short _ _ _ _ _ _ d es HD evs r H). lia.
  - intros evs r H HO. eapply can_go_on; eassumption.
Qed.

(** If the formatter leaves its own output alone, then after a run with nothing failing and exit code 0 a run with --check of the same
    files has nothing to say. *)
Theorem C58_check_after_format : forall es d evs r evs' r', (forall p s f, format p s = Formatted f -> format p f = Formatted f) ->
  distinct inode es -> takes false es (starts es d) evs = Some r -> over r = true -> (forall n, no_failure n evs) -> exit_code r = 0 ->
  takes true es (starts es (files r)) evs' = Some r' -> over r' = true -> (forall n, no_failure n evs') -> exit_code r' = 0.
Proof.
  intros es d evs r evs' r' HI HD H HO HF HX H' HO' HF'.
  destruct (C58_exit_code true es (files r) evs' r' HD H' HO' HF') as ([E|E] & G & _); [assumption|]. exfalso.
  apply G in E. destruct E as (e & He & HC).
  destruct (C58_exit_code false es d evs r HD H HO HF) as (_ & G2 & _).
  assert (NF : ~ exists e, In e es /\ match e with Found p => counted false d p Failure | Skipped _ => False | NotFound _ => True end) by (rewrite <- G2, HX; discriminate).
  apply NF. exists e. split; [assumption|]. destruct e as [p|p|p]; [|contradiction|exact I].
  apply In_nth_error in He. destruct He as [n Hn]. destruct (C58_run false es d evs r n p HD H HO Hn (HF n)) as (o & H1 & H2 & H3 & H4).
  inversion H2; subst.
  - inversion HC; subst; congruence.
  - assumption.
  - exfalso. assert (E : files r i = d i).
    { apply H4; [apply H5|]. intros f (_ & _ & _ & F & N). congruence. }
    assert (CO : can_open inode readable writable true p i) by (destruct H5 as (A & B & _); repeat split; auto; discriminate).
    inversion HC; subst; same_file; try congruence; match goal with F : forall f, _ <> Formatted f |- _ => apply (F (d i)); congruence end.
  - assumption.
  - discriminate.
  - exfalso. destruct H0 as (_ & A & B & F & N). assert (E : files r i = f) by (apply H3; repeat split; auto; apply B).
    assert (CO : can_open inode readable writable true p i) by (destruct B as (B1 & B2 & _); repeat split; auto; discriminate).
    apply HI in F. inversion HC; subst; same_file; try congruence; match goal with G : forall f, _ <> Formatted f |- _ => apply (G (files r i)); congruence end.
Qed.

(** ** Standard input *)
(** The text is not lost: either it or its formatted form is written to standard output, and with a failure it is the text itself.
    Missing: that this also holds when formatting is switched off for the name of the input (see [C58_stdin_refuted]). *)
Theorem C58_stdin_partial : forall p source out o, disabled p = false -> format p source <> NotUtf8 ->
  stdin_run disabled format false p source = Some (out, o) -> (out = source \/ format p source = Formatted out) /\ (o = Failure -> out = source) /\
    (o = NotNeeded <-> format p source = Formatted source) /\ (forall f, format p source = Formatted f -> out = f).
Proof.
  intros p source out o HD HU. unfold stdin_run. rewrite HD. destruct (format p source) as [|f| |] eqn:E; try discriminate.
  - congruence.
  - destruct (bytes_eqb_spec source f) as [EQ|NE]; cbn; intro H; injection H as <- <-; repeat split; try congruence; auto.
  - intro H; injection H as <- <-. repeat split; try congruence; auto.
Qed.
End C58.
Print Assumptions C58_check.
Print Assumptions C58_crash_partial.
Print Assumptions C58_run.
Print Assumptions C58_exit_code.
Print Assumptions C58_ends.
Print Assumptions C58_check_after_format.
Print Assumptions C58_stdin_partial.

(** ** Runs with the formatter of the model *)
Definition tidy (_ : path) (s : bytes) : formatting :=
  match format_source default_defs LEAuto width chars 200 true s with Done (Some t) => Formatted t | Done None => Diagnostics | _ => FormatterPanics end.
Definition a_toml : path := [lit "a.toml"].
Definition a_toml_again : path := [lit "."; lit "a.toml"].
Definition b_toml : path := [lit "b.toml"].
Definition c_toml : path := [lit "c.toml"].
Definition path_eqb (p q : path) : bool := if list_eq_dec (list_eq_dec N.eq_dec) p q then true else false.
Definition inodes (p : path) : option ino :=
  if path_eqb p a_toml || path_eqb p a_toml_again then Some 1 else if path_eqb p b_toml then Some 2 else if path_eqb p c_toml then Some 3 else None.
Definition allowed (_ : ino) : bool := true.
Definition never (_ : path) : bool := false.
Definition a_text : bytes := lines "a=1|b=2|".
Definition a_formatted : bytes := lines "a = 1|b = 2|".
Definition the_disk : disk := fun i => if i =? 1 then a_text else if i =? 2 then lines "b = 2|" else if i =? 3 then lines "c = |" else [].
Definition three : list entry := [Found a_toml; Found b_toml; Found c_toml].
Definition goes (check : bool) (es : list entry) (evs : list (nat * event)) : option run := takes inodes allowed allowed never tidy check es (starts es the_disk) evs.
Definition schedule : list (nat * event) :=
  [(0, Open); (0, Read 3); (1, Open); (0, Read 100); (2, Open); (2, Read 100); (0, Read 1); (1, Read 100); (0, Format); (0, Truncate); (2, Read 1); (1, Read 1);
   (0, Buffer 4); (0, Write 2); (2, Format); (0, Write 10); (0, Buffer 100); (1, Format); (0, Write 100)]%nat.
Lemma three_distinct : distinct inodes three.
Proof.
  intros m n p q i Hm Hn Hp Hq.
  destruct m as [|[|[|[|m]]]]; try discriminate; destruct n as [|[|[|[|n]]]]; try discriminate; cbn in Hm, Hn; injection Hm as <-; injection Hn as <-; try reflexivity; vm_compute in Hp, Hq; congruence.
Qed.
Lemma schedule_clean : forall n, no_failure n schedule.
Proof. intros n e H. unfold schedule in H. repeat (destruct H as [H|H]; [injection H as <- <-; reflexivity|]). destruct H. Qed.
Lemma a_changes : to_be_written inodes allowed allowed never tidy false the_disk a_toml 1 a_formatted.
Proof.
  split; [reflexivity|]. split; [reflexivity|]. split; [repeat split|]. split; [vm_compute; reflexivity|]. vm_compute. discriminate.
Qed.
(** Three files are formatted at once: one is changed, one is formatted already, one is not valid. *)
Example C58_example : distinct inodes three /\ (forall n, no_failure n schedule) /\
  to_be_written inodes allowed allowed never tidy false the_disk a_toml 1 a_formatted /\ tidy a_toml a_formatted = Formatted a_formatted /\
  exists r, goes false three schedule = Some r /\ over r = true /\ tasks r = [Ended Success; Ended NotNeeded; Ended Failure] /\
    files r 1 = a_formatted /\ files r 2 = the_disk 2 /\ files r 3 = the_disk 3 /\ exit_code r = 1.
Proof.
  split; [apply three_distinct|]. split; [apply schedule_clean|].
  split; [exact a_changes|]. split; [vm_compute; reflexivity|].
  eexists. split; [vm_compute; reflexivity|]. repeat split; reflexivity.
Qed.
(** If the program is stopped between [set_len] and [write_all], the text is gone. *)
Theorem C58_crash_refuted : exists es d evs r p f, distinct inodes es /\ (forall n, no_failure n evs) /\ takes inodes allowed allowed never tidy false es (starts es d) evs = Some r /\
  to_be_written inodes allowed allowed never tidy false d p 1 f /\ files r 1 = [] /\ d 1 <> [] /\ f <> [].
Proof.
  exists [Found a_toml], the_disk, [(0, Open); (0, Read 100); (0, Read 1); (0, Format); (0, Truncate)]%nat. eexists. exists a_toml, a_formatted.
  split; [|split; [|split; [vm_compute; reflexivity|]]].
  - intros m n p q i Hm Hn _ _. destruct m as [|[|m]]; try discriminate; destruct n as [|[|n]]; try discriminate; reflexivity.
  - intros n e H. repeat (destruct H as [H|H]; [injection H as <- <-; reflexivity|]). destruct H.
  - split; [exact a_changes|]. repeat split; discriminate.
Qed.
(** The disk is full, the text is gone, and the program says that the file was formatted. *)
Theorem C58_failure_refuted : exists es d evs r p f, distinct inodes es /\ takes inodes allowed allowed never tidy false es (starts es d) evs = Some r /\ over r = true /\
  to_be_written inodes allowed allowed never tidy false d p 1 f /\ files r 1 = [] /\ d 1 <> [] /\ f <> [] /\ count Success r = 1%nat /\ exit_code r = 0.
Proof.
  exists [Found a_toml], the_disk, [(0, Open); (0, Read 100); (0, Read 1); (0, Format); (0, Truncate); (0, Buffer 100); (0, WriteFails)]%nat. eexists. exists a_toml, a_formatted.
  split; [|split; [vm_compute; reflexivity|]].
  - intros m n p q i Hm Hn _ _. destruct m as [|[|m]]; try discriminate; destruct n as [|[|n]]; try discriminate; reflexivity.
  - split; [reflexivity|]. split; [exact a_changes|]. repeat split; discriminate.
Qed.
(** A file that is named twice is read by the second task while the first one is writing it: a line is lost although nothing fails. *)
Theorem C58_twice_refuted : exists es d evs r p f, (forall n, no_failure n evs) /\ takes inodes allowed allowed never tidy false es (starts es d) evs = Some r /\ over r = true /\
  to_be_written inodes allowed allowed never tidy false d p 1 f /\ f = lines "a = 1|b = 2|" /\ files r 1 = lines "a = 1|" /\ exit_code r = 0.
Proof.
  exists [Found a_toml; Found a_toml_again], the_disk,
    [(0, Open); (1, Open); (0, Read 100); (0, Read 1); (0, Format); (0, Truncate); (0, Buffer 100); (0, Write 5); (1, Read 100); (1, Read 1); (1, Format);
     (0, Write 100); (1, Truncate); (1, Buffer 100); (1, Write 100)]%nat.
  eexists. exists a_toml, a_formatted. split; [|split; [vm_compute; reflexivity|]].
  - intros n e H. repeat (destruct H as [H|H]; [injection H as <- <-; reflexivity|]). destruct H.
  - split; [reflexivity|]. split; [exact a_changes|]. repeat split.
Qed.
(** With formatting switched off for the name of the input, nothing is written to standard output, and the exit code is 0. *)
Theorem C58_stdin_refuted : exists p source o, stdin_run (fun _ => true) tidy false p source = Some ([], o) /\ o <> Failure /\ tidy p source = Formatted source /\ source <> [].
Proof. exists b_toml, (lines "b = 2|"), NotNeeded. split; [reflexivity|]. split; [discriminate|]. split; [vm_compute; reflexivity|discriminate]. Qed.
Example C58_stdin_example : tidy a_toml a_text <> NotUtf8 /\ stdin_run never tidy false a_toml a_text = Some (a_formatted, Success) /\
  stdin_run never tidy false c_toml (lines "c = |") = Some (lines "c = |", Failure).
Proof. split; [vm_compute; discriminate|]. split; vm_compute; reflexivity. Qed.
Print Assumptions C58_example.
Print Assumptions C58_crash_refuted.
Print Assumptions C58_failure_refuted.
Print Assumptions C58_twice_refuted.
Print Assumptions C58_stdin_refuted.
Print Assumptions C58_stdin_example.

(** ** C59: linting files *)
(** The exit code of the lint command tells whether every file that was found and is not switched off can be read and has no errors,
    or, with --error-on-warnings, nothing to report at all. *)
Theorem C59_lint_exit_code : forall inode readable disabled lint error_on_warnings es d,
  lint_exit_code inode readable disabled lint error_on_warnings es d = 0 <->
  (forall e, In e es -> match e with
   | Found p => disabled p = true \/ exists i ds, inode p = Some i /\ readable i = true /\ lint p (d i) = Some ds /\
                  ~ In Error ds /\ (error_on_warnings = true -> ds = [])
   | Skipped _ => True
   | NotFound _ => False
   end).
Proof.
  intros inode readable disabled lint eow es d. unfold lint_exit_code.
  assert (G : forall e, outcome_eqb (lint_entry inode readable disabled lint eow d e) Failure = false <->
    match e with
    | Found p => disabled p = true \/ exists i ds, inode p = Some i /\ readable i = true /\ lint p (d i) = Some ds /\ ~ In Error ds /\ (eow = true -> ds = [])
    | Skipped _ => True
    | NotFound _ => False
    end).
  { intros [p|p|p]; cbn; [|split; [intro; exact I|reflexivity]|split; [discriminate|contradiction]].
    destruct (disabled p); [cbn; split; auto|]. destruct (inode p) as [i|]; [|split; [discriminate|intros [H|(i & ds & H & _)]; discriminate]].
    destruct (readable i) eqn:ER; [|split; [discriminate|intros [H|(j & ds & H1 & H2 & _)]; [discriminate|injection H1 as <-; congruence]]].
    unfold lint_text. destruct (lint p (d i)) as [ds|] eqn:EL.
    - assert (A : forallb (fun l => match l with Warning => true | Error => false end) ds = true <-> ~ In Error ds).
      { rewrite forallb_forall. split; [intros H HI; specialize (H _ HI); discriminate|]. intros H x HI. destruct x; [reflexivity|contradiction]. }
      split.
      + intro H. right. exists i, ds. repeat split; try assumption.
        * destruct ds as [|x ds]; [intros []|]. destruct eow; [discriminate|]. apply A. destruct (forallb _ (x :: ds)); [reflexivity|discriminate].
        * intros ->. destruct ds; [reflexivity|discriminate].
      + intros [H|(j & ds' & H1 & H2 & H3 & H4 & H5)]; [discriminate|]. injection H1 as <-. rewrite EL in H3. injection H3 as <-.
        destruct ds as [|x ds]; [reflexivity|]. destruct eow; [specialize (H5 eq_refl); discriminate|]. apply A in H4. now rewrite H4.
    - split; [discriminate|]. intros [H|(j & ds & H1 & _ & H3 & _)]; [discriminate|]. injection H1 as <-. congruence. }
  induction es as [|e es IH].
  - cbn. split; [intros _ e []|reflexivity].
  - cbn [map filter]. destruct (outcome_eqb (lint_entry inode readable disabled lint eow d e) Failure) eqn:E.
    + cbn. split; [discriminate|]. intro H. pose proof (proj2 (G e) (H e (or_introl eq_refl))). congruence.
    + rewrite IH. apply G in E. split.
      * intros H x [<- |HI]; [exact E|now apply H].
      * intros H x HI. apply H. now right.
Qed.
Example C59_example : lint_exit_code inodes allowed never (fun p _ => Some (if path_eqb p c_toml then [Warning] else [])) false three the_disk = 0 /\
  lint_exit_code inodes allowed never (fun p _ => Some (if path_eqb p c_toml then [Warning] else [])) true three the_disk = 1 /\
  lint_exit_code inodes allowed never (fun p _ => Some (if path_eqb p c_toml then [Warning; Error] else [])) false three the_disk = 1.
Proof. vm_compute. repeat split. Qed.
Print Assumptions C59_lint_exit_code.
