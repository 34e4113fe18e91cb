(** * Proofs about the command line *)
From Coq Require Import List NArith Bool Arith Lia.
From Verif Require Import Base GlobModel CliModel CliSpec.
Import ListNotations.
Open Scope N_scope.
Open Scope list_scope.

Lemma bytes_eqb_spec a b : reflect (a = b) (bytes_eqb a b).
Proof. unfold bytes_eqb. destruct (list_eq_dec N.eq_dec a b); constructor; assumption. Qed.
Lemma set_same d i c : set_file d i c i = c.
Proof. unfold set_file. now rewrite N.eqb_refl. Qed.
Lemma set_other d i c j : j <> i -> set_file d i c j = d j.
Proof. unfold set_file. intro H. apply N.eqb_neq in H. now rewrite H. Qed.
Lemma write_at_end data content : write_at (length content) data content = content ++ data.
Proof.
  unfold write_at. rewrite firstn_all, Nat.sub_diag, skipn_all2 by lia. cbn [repeat app]. now rewrite app_nil_r.
Qed.
Lemma nth_set_same {A} (l : list A) n a b : nth_error l n = Some b -> nth_error (set_nth n a l) n = Some a.
Proof. revert n; induction l; intros [|n] H; try discriminate; [reflexivity|]. cbn in *. now apply IHl. Qed.
Lemma nth_set_other {A} (l : list A) n m a : m <> n -> nth_error (set_nth n a l) m = nth_error l m.
Proof. revert n m; induction l; intros [|n] [|m] H; cbn; try reflexivity; [lia| ]. apply IHl. lia. Qed.
Lemma length_set {A} (l : list A) n a : length (set_nth n a l) = length l.
Proof. revert n; induction l; intros [|n]; cbn; auto. Qed.

Section Proofs.
Context (inode : path -> option ino) (readable writable : ino -> bool) (disabled : path -> bool) (format : path -> bytes -> formatting) (check : bool).
Local Notation step := (step inode readable writable disabled format check).
Local Notation take := (take inode readable writable disabled format check).
Local Notation takes := (takes inode readable writable disabled format check).
Local Notation can_open := (can_open inode readable writable check).
Local Notation to_be_written := (to_be_written inode readable writable disabled format check).
Local Notation counted := (counted inode readable writable disabled format check).
Local Notation distinct := (distinct inode).

Lemma can_open_b p i : inode p = Some i -> readable i && (check || writable i) = true -> can_open p i.
Proof.
  intros H1 H2. apply andb_true_iff in H2. destruct H2 as [H2 H3]. repeat split; [assumption|assumption|].
  intros ->. assumption.
Qed.
Lemma cannot_open_b p i : inode p = Some i -> readable i && (check || writable i) = false -> forall j, ~ can_open p j.
Proof.
  intros H1 H2 j [H3 [H4 H5]]. rewrite H1 in H3. injection H3 as <-. rewrite H4 in H2. cbn in H2.
  destruct check; [discriminate|]. cbn in H2. rewrite H5 in H2 by reflexivity. discriminate.
Qed.

(** ** Checking *)
Definition calm (t : task) : Prop := match t with Resetting _ | Writing _ _ _ | Flushing _ _ => False | _ => True end.
Lemma step_calm p t e d t' d' : check = true -> calm t -> step p t e d = Some (t', d') -> calm t' /\ d' = d.
Proof.
  intros HC HT HS. destruct t as [|read|source|formatted|off [|b flight] rest|off flight|o], e as [|n| | | | |n|n|]; try discriminate HS; try contradiction; unfold CliModel.step in HS; cbv beta iota zeta in HS.
  - destruct (disabled p); [injection HS as <- <-; split; [exact I|reflexivity]|].
    destruct (inode p); [|injection HS as <- <-; split; [exact I|reflexivity]].
    destruct (readable i && (check || writable i)); injection HS as <- <-; split; try exact I; reflexivity.
  - destruct n; [discriminate|]. destruct (inode p); [|discriminate].
    destruct (skipn (length read) (d i)); injection HS as <- <-; split; try exact I; reflexivity.
  - injection HS as <- <-; split; [exact I|reflexivity].
  - destruct (format p source) as [|f| |]; try (injection HS as <- <-; split; [exact I|reflexivity]).
    destruct (bytes_eqb source f); [injection HS as <- <-; split; [exact I|reflexivity]|].
    rewrite HC in HS. injection HS as <- <-; split; [exact I|reflexivity].
Qed.

Lemma take_inv es r ev r' : take es r ev = Some r' ->
  exists p t t', nth_error es (fst ev) = Some (Found p) /\ nth_error (tasks r) (fst ev) = Some t /\
    step p t (snd ev) (files r) = Some (t', files r') /\ tasks r' = set_nth (fst ev) t' (tasks r).
Proof.
  unfold CliModel.take. destruct (nth_error es (fst ev)) as [[p| |]|] eqn:E1; try discriminate.
  destruct (nth_error (tasks r) (fst ev)) as [t|] eqn:E2; [|discriminate].
  destruct (step p t (snd ev) (files r)) as [[t' d]|] eqn:E3; [|discriminate].
  intro H. injection H as <-. exists p, t, t'. cbn. auto.
Qed.

Lemma takes_ind_inv (es : list entry) (P : list (nat * event) -> run -> Prop) r0 :
  P [] r0 -> (forall evs r ev r', P evs r -> take es r ev = Some r' -> P (evs ++ [ev]) r') ->
  forall evs r, takes es r0 evs = Some r -> P evs r.
Proof.
  intros H0 HS. assert (G : forall evs pre r1 r, P pre r1 -> takes es r1 evs = Some r -> P (pre ++ evs) r).
  { induction evs as [|ev evs IH]; intros pre r1 r H1 H.
    - cbn in H. injection H as <-. now rewrite app_nil_r.
    - cbn in H. destruct (take es r1 ev) as [r2|] eqn:E; [|discriminate].
      replace (pre ++ ev :: evs) with ((pre ++ [ev]) ++ evs) by (rewrite <- app_assoc; reflexivity).
      eapply IH; [|exact H]. eapply HS; eassumption. }
  intros evs r H. exact (G evs [] r0 r H0 H).
Qed.

Lemma check_changes_nothing es d evs r : check = true -> takes es (starts es d) evs = Some r -> files r = d.
Proof.
  intros HC H. assert (G : (forall n t, nth_error (tasks r) n = Some t -> calm t) /\ files r = d); [|apply G].
  revert H. apply (takes_ind_inv es (fun _ r => (forall n t, nth_error (tasks r) n = Some t -> calm t) /\ files r = d)).
  - split; [|reflexivity]. intros n t H. cbn in H. rewrite nth_error_map in H.
    destruct (nth_error es n) as [[p|p|p]|]; cbn in H; try discriminate; injection H as <-; exact I.
  - intros _ r1 ev r2 [H1 H2] HT. destruct (take_inv es r1 ev r2 HT) as (p & t & t' & E1 & E2 & E3 & E4).
    destruct (step_calm p t (snd ev) (files r1) t' (files r2) HC (H1 _ _ E2) E3) as [H3 H4].
    split; [|congruence]. intros n x Hx. rewrite E4 in Hx. destruct (Nat.eq_dec n (fst ev)) as [-> |N].
    + rewrite (nth_set_same _ _ _ _ E2) in Hx. now injection Hx as <-.
    + rewrite nth_set_other in Hx by assumption. eapply H1; exact Hx.
Qed.

(** ** Which files are touched *)
Lemma step_touches p t e d t' d' : step p t e d = Some (t', d') -> forall j, inode p <> Some j -> d' j = d j.
Proof.
  intros HS j Hj. destruct t as [|read|source|formatted|off [|b flight] rest|off flight|o], e as [|n| | | | |n|n|]; try discriminate HS; unfold CliModel.step in HS; cbv beta iota zeta in HS;
    try (injection HS as _ <-; reflexivity).
  - destruct (disabled p); [injection HS as _ <-; reflexivity|]. destruct (inode p); [|injection HS as _ <-; reflexivity].
    destruct (readable i && (check || writable i)); injection HS as _ <-; reflexivity.
  - destruct n; [discriminate|]. destruct (inode p); [|discriminate].
    destruct (skipn (length read) (d i)); injection HS as _ <-; reflexivity.
  - destruct (format p source) as [|f| |]; try (injection HS as _ <-; reflexivity).
    destruct (bytes_eqb source f); [injection HS as _ <-; reflexivity|].
    destruct check; injection HS as _ <-; reflexivity.
  - destruct (inode p); [|discriminate]. injection HS as _ <-. rewrite set_other; [reflexivity|]. congruence.
  - destruct n; [discriminate|]. destruct rest as [|b rest]; [injection HS as _ <-; reflexivity|].
    destruct (skipn (S n) (b :: rest)); injection HS as _ <-; reflexivity.
  - destruct n; [discriminate|]. destruct (inode p); [|discriminate].
    injection HS as _ <-. rewrite set_other; [reflexivity|]. congruence.
  - destruct n; [discriminate|]. destruct (inode p); [|discriminate].
    injection HS as _ <-. rewrite set_other; [reflexivity|]. congruence.
Qed.

Lemma others_untouched es d evs r : takes es (starts es d) evs = Some r ->
  forall j, (forall p, In (Found p) es -> inode p <> Some j) -> files r j = d j.
Proof.
  intros H j Hj. revert H. apply (takes_ind_inv es (fun _ r => files r j = d j)); [reflexivity|].
  intros _ r1 ev r2 H1 HT. destruct (take_inv es r1 ev r2 HT) as (p & t & t' & E1 & E2 & E3 & E4).
  rewrite (step_touches _ _ _ _ _ _ E3); [assumption|]. apply Hj. eapply nth_error_In; exact E1.
Qed.

(** ** The state of one task *)
Section One.
Context (d0 : disk) (p : path).
(** What can be said of the file of an ended task: [o] is its outcome, [ok] whether nothing failed. *)
Definition settled (ok : bool) (o : outcome) (d : disk) : Prop :=
  match o with
  | Success => exists i f, to_be_written d0 p i f /\ (exists rest, f = d i ++ rest) /\ (ok = true -> d i = f)
  | NotNeeded => counted d0 p NotNeeded /\ forall i, inode p = Some i -> d i = d0 i
  | WasSkipped => False
  | Failure => (exists i f, to_be_written d0 p i f /\ (exists rest, f = d i ++ rest) /\ ok = false) \/
               ((ok = true -> counted d0 p Failure) /\ forall i, inode p = Some i -> d i = d0 i)
  end.
Definition task_ok (ok : bool) (t : task) (d : disk) : Prop :=
  match t with
  | Waiting => forall i, inode p = Some i -> d i = d0 i
  | Reading r => disabled p = false /\ exists i, can_open p i /\ d i = d0 i /\ exists rest, d0 i = r ++ rest
  | HasRead s => disabled p = false /\ exists i, can_open p i /\ d i = d0 i /\ s = d0 i
  | Resetting f => exists i, to_be_written d0 p i f /\ d i = d0 i
  | Writing off c rest => exists i f, to_be_written d0 p i f /\ f = d i ++ c ++ rest /\ off = length (d i) /\ (c <> [] -> rest <> [])
  | Flushing off c => exists i f, to_be_written d0 p i f /\ f = d i ++ c /\ off = length (d i) /\ c <> []
  | Ended o => settled ok o d
  end.
Lemma opens_at i f : to_be_written d0 p i f -> inode p = Some i.
Proof. intros (_ & _ & (H & _) & _). exact H. Qed.
Lemma settled_ext ok o d d' : (forall i, inode p = Some i -> d' i = d i) -> settled ok o d -> settled ok o d'.
Proof.
  intros HD. destruct o; cbn.
  - intros (i & f & H1 & H2 & H3). exists i, f. rewrite (HD i (opens_at i f H1)). auto.
  - intros [H1 H2]. split; [assumption|]. intros i Hi. rewrite HD by assumption. auto.
  - auto.
  - intros [(i & f & H1 & H2 & H3)|[H1 H2]].
    + left. exists i, f. rewrite (HD i (opens_at i f H1)). auto.
    + right. split; [assumption|]. intros i Hi. rewrite HD by assumption. auto.
Qed.
Lemma task_ok_ext ok t d d' : (forall i, inode p = Some i -> d' i = d i) -> task_ok ok t d -> task_ok ok t d'.
Proof.
  intros HD. destruct t; cbn.
  - intros H i Hi. rewrite HD by assumption. auto.
  - intros [H0 (i & H1 & H2 & H3)]. split; [assumption|]. exists i. rewrite HD by apply H1. auto.
  - intros [H0 (i & H1 & H2 & H3)]. split; [assumption|]. exists i. rewrite HD by apply H1. auto.
  - intros (i & H1 & H2). exists i. rewrite (HD i (opens_at _ _ H1)). auto.
  - intros (i & f & H1 & H2). exists i, f. rewrite (HD i (opens_at _ _ H1)). auto.
  - intros (i & f & H1 & H2). exists i, f. rewrite (HD i (opens_at _ _ H1)). auto.
  - apply settled_ext. assumption.
Qed.
Lemma step_ok ok t e d t' d' : task_ok ok t d -> step p t e d = Some (t', d') -> task_ok (ok && negb (fails e)) t' d'.
Proof.
  intros HT HS. destruct t as [|read|source|formatted|off [|b flight] rest|off flight|o], e as [|n| | | | |n|n|]; try discriminate HS; unfold CliModel.step in HS; cbv beta iota zeta in HS; cbn [fails negb]; rewrite ?andb_true_r, ?andb_false_r; cbn in HT.
  - destruct (disabled p) eqn:ED; [injection HS as <- <-; split; [now apply switched_off|assumption]|].
    destruct (inode p) as [i|] eqn:EI.
    + destruct (readable i && (check || writable i)) eqn:ER; injection HS as <- <-.
      * split; [assumption|]. exists i. split; [now apply can_open_b|]. split; [now apply HT|]. now exists (d0 i).
      * right. rewrite EI. split; [|assumption]. intros _. apply cannot_open; [assumption|]. now apply (cannot_open_b p i).
    + injection HS as <- <-. right. rewrite EI. split; [|assumption]. intros _. apply cannot_open; [assumption|].
      intros i [H _]. congruence.
  - destruct n; [discriminate|]. destruct HT as (HD & i & H1 & H2 & rest & H3).
    rewrite (proj1 H1), H2, H3, skipn_app, skipn_all, Nat.sub_diag in HS. cbn [app skipn] in HS.
    destruct rest as [|b rest]; injection HS as <- <-.
    + split; [assumption|]. exists i. rewrite app_nil_r in H3. auto.
    + split; [assumption|]. exists i. split; [assumption|]. split; [assumption|].
      exists (skipn (S n) (b :: rest)). change (b :: firstn n rest) with (firstn (S n) (b :: rest)). rewrite <- app_assoc, firstn_skipn. assumption.
  - injection HS as <- <-. destruct HT as (HD & i & H1 & H2 & _). right. split; [discriminate|]. intros j Hj.
    rewrite (proj1 H1) in Hj. now injection Hj as <-.
  - destruct HT as (HD & i & H1 & H2 & ->).
    assert (HF : forall j, inode p = Some j -> d j = d0 j) by (intros j Hj; rewrite (proj1 H1) in Hj; now injection Hj as <-).
    destruct (format p (d0 i)) as [|f| |] eqn:EF;
      try (injection HS as <- <-; right; split; [intros _; apply (invalid _ _ _ _ _ _ _ _ i); try assumption; congruence | exact HF]).
    destruct (bytes_eqb_spec (d0 i) f) as [EQ|NE].
    + injection HS as <- <-. split; [|exact HF]. apply (already _ _ _ _ _ _ _ _ i); try assumption. congruence.
    + assert (EC : check = true \/ check = false) by (destruct check; auto). destruct EC as [EC|EC]; rewrite EC in HS; injection HS as <- <-.
      * right. split; [|exact HF]. intros _. apply (not_formatted _ _ _ _ _ _ _ _ i f); try assumption. congruence.
      * exists i. split; [|assumption]. split; [assumption|]. split; [assumption|]. split; [assumption|]. split; [assumption|congruence].
  - destruct HT as (i & H1 & H2). rewrite (opens_at _ _ H1) in HS. injection HS as <- <-.
    exists i, formatted. rewrite set_same. repeat split; auto; apply H1.
  - destruct HT as (i & H1 & H2). injection HS as <- <-. right. split; [discriminate|]. intros j Hj.
    rewrite (opens_at _ _ H1) in Hj. now injection Hj as <-.
  - destruct HT as (i & f & H1 & H2 & H3 & H4). destruct n; [discriminate|].
    destruct rest as [|b rest].
    + injection HS as <- <-. cbn in H2. rewrite app_nil_r in H2. exists i, f. split; [assumption|]. split; [exists []; now rewrite app_nil_r|]. auto.
    + destruct (skipn (S n) (b :: rest)) as [|b' rest'] eqn:ES; injection HS as <- <-; exists i, f.
      * repeat split; auto; try apply H1. discriminate.
      * split; [assumption|]. change (b :: firstn n rest) with (firstn (S n) (b :: rest)). rewrite <- ES, firstn_skipn. split; [assumption|]. split; [assumption|]. rewrite ES. discriminate.
  - destruct HT as (i & f & H1 & H2 & H3 & H4). destruct n; [discriminate|].
    rewrite (opens_at _ _ H1) in HS.
    remember (firstn (S n) (b :: flight)) as part eqn:EP. remember (skipn (S n) (b :: flight)) as more eqn:EM.
    injection HS as <- <-. exists i, f. rewrite set_same, H3, write_at_end.
    split; [assumption|]. split; [|split].
    + change (f = d i ++ (b :: flight) ++ rest) in H2. rewrite <- (firstn_skipn (S n) (b :: flight)) in H2.
      rewrite H2, EP, EM, <- !app_assoc. reflexivity.
    + rewrite app_length. reflexivity.
    + intros _. apply H4. discriminate.
  - destruct HT as (i & f & H1 & H2 & H3 & H4). injection HS as <- <-.
    left. exists i, f. split; [assumption|]. split; [|reflexivity]. exists ((b :: flight) ++ rest). assumption.
  - destruct HT as (i & f & H1 & H2 & H3 & H4). destruct n; [discriminate|]. rewrite (opens_at _ _ H1) in HS.
    remember (firstn (S n) flight) as part eqn:EP. remember (skipn (S n) flight) as more eqn:EM.
    assert (H2' : f = d i ++ part ++ more) by (rewrite H2, EP, EM, firstn_skipn; reflexivity).
    destruct more as [|b more]; injection HS as <- <-; exists i, f; rewrite set_same, H3, write_at_end; (split; [assumption|]).
    + rewrite app_nil_r in H2'. split; [exists []; now rewrite app_nil_r, H2'|]. auto.
    + rewrite <- app_assoc. split; [assumption|]. rewrite app_length. split; [reflexivity|discriminate].
  - injection HS as <- <-. destruct HT as (i & f & H1 & H2 & H3 & H4). exists i, f. split; [assumption|]. split; [now exists flight|]. discriminate.
Qed.
End One.

(** ** Whole runs *)
Definition entry_ok (d0 : disk) (ok : bool) (e : entry) (t : task) (d : disk) : Prop :=
  match e with Found p => task_ok d0 p ok t d | Skipped _ => t = Ended WasSkipped | NotFound _ => t = Ended Failure end.
Definition clean (n : nat) (evs : list (nat * event)) : bool := forallb (fun ev => negb (Nat.eqb (fst ev) n && fails (snd ev))) evs.
Lemma clean_snoc n evs ev : clean n (evs ++ [ev]) = clean n evs && negb (Nat.eqb (fst ev) n && fails (snd ev)).
Proof. unfold clean. rewrite forallb_app. cbn. now rewrite andb_true_r. Qed.
Lemma no_failure_clean n evs : no_failure n evs -> clean n evs = true.
Proof.
  intro H. apply forallb_forall. intros [m e] HI. cbn. destruct (Nat.eqb_spec m n) as [-> |]; [|reflexivity].
  rewrite (H e HI). reflexivity.
Qed.
Lemma run_ok es d0 evs r : distinct es -> takes es (starts es d0) evs = Some r ->
  length (tasks r) = length es /\
  forall n e t, nth_error es n = Some e -> nth_error (tasks r) n = Some t -> entry_ok d0 (clean n evs) e t (files r).
Proof.
  intros HD. apply (takes_ind_inv es (fun evs r => length (tasks r) = length es /\
    forall n e t, nth_error es n = Some e -> nth_error (tasks r) n = Some t -> entry_ok d0 (clean n evs) e t (files r))).
  - split; [apply map_length|]. intros n e t H1 H2. cbn in H2. rewrite nth_error_map, H1 in H2. cbn in H2. injection H2 as <-.
    destruct e; cbn; auto.
  - intros evs1 r1 ev r2 [HL H1] HT. destruct (take_inv es r1 ev r2 HT) as (p & t & t' & E1 & E2 & E3 & E4).
    split; [rewrite E4, length_set; assumption|]. intros n e x Hn Hx. rewrite E4 in Hx.
    destruct (Nat.eq_dec n (fst ev)) as [-> |N].
    + rewrite (nth_set_same _ _ _ _ E2) in Hx. injection Hx as <-. rewrite E1 in Hn. injection Hn as <-.
      rewrite clean_snoc, Nat.eqb_refl. cbn [andb]. cbn [entry_ok]. eapply step_ok; [|exact E3]. exact (H1 _ _ _ E1 E2).
    + rewrite nth_set_other in Hx by assumption. rewrite clean_snoc. replace (Nat.eqb (fst ev) n) with false by (symmetry; apply Nat.eqb_neq; lia).
      cbn [andb negb]. rewrite andb_true_r. specialize (H1 n e x Hn Hx). destruct e as [q|q|q]; cbn in *; auto.
      eapply task_ok_ext; [|exact H1]. intros i Hi. apply (step_touches _ _ _ _ _ _ E3). intro Hp. apply N. exact (HD _ _ _ _ _ Hn E1 Hi Hp).
Qed.
End Proofs.

Section Ending.
Context (inode : path -> option ino) (readable writable : ino -> bool) (disabled : path -> bool) (format : path -> bytes -> formatting) (check : bool).
Local Notation step := (step inode readable writable disabled format check).
Local Notation take := (take inode readable writable disabled format check).
Local Notation takes := (takes inode readable writable disabled format check).
Local Notation task_ok := (task_ok inode readable writable disabled format check).
Context (d0 : disk).
(** ** Every run ends *)
Definition weight (p : path) (t : task) : nat :=
  match inode p with
  | None => match t with Waiting => 1 | _ => 0 end
  | Some i =>
      let size := match format p (d0 i) with Formatted f => length f | _ => 0%nat end in
      match t with
      | Waiting => length (d0 i) + 2 * size + 6
      | Reading r => (length (d0 i) - length r) + 2 * size + 5
      | HasRead _ => 2 * size + 4
      | Resetting f => 2 * length f + 2
      | Writing _ c rest => length c + 2 * length rest + 1
      | Flushing _ c => length c
      | Ended _ => 0
      end
  end%nat.
Lemma step_down p ok t e d t' d' : task_ok d0 p ok t d -> step p t e d = Some (t', d') -> (weight p t' < weight p t)%nat.
Proof.
  intros HT HS. destruct t as [|read|source|formatted|off [|b flight] rest|off flight|o], e as [|n| | | | |n|n|]; try discriminate HS;
    unfold CliModel.step in HS; cbv beta iota zeta in HS; cbn [CliProofs.task_ok] in HT; unfold weight.
  - destruct (disabled p).
    + injection HS as <- <-. destruct (inode p); cbn; lia.
    + destruct (inode p) as [i|]; [|injection HS as <- <-; cbn; lia].
      destruct (readable i && (check || writable i)); injection HS as <- <-; cbn [length]; lia.
  - destruct n; [discriminate|]. destruct HT as (HD & i & H1 & H2 & rest & H3).
    rewrite (proj1 H1), H2, H3, skipn_app, skipn_all, Nat.sub_diag in HS. rewrite (proj1 H1). cbn [app skipn] in HS.
    destruct rest as [|b rest]; injection HS as <- <-; [lia|]. rewrite H3, !app_length. cbn [length]. lia.
  - injection HS as <- <-. destruct HT as (HD & i & H1 & _). rewrite (proj1 H1). lia.
  - destruct HT as (HD & i & H1 & H2 & ->). rewrite (proj1 H1).
    destruct (format p (d0 i)) as [|f| |]; try (injection HS as <- <-; lia).
    destruct (bytes_eqb (d0 i) f); [injection HS as <- <-; lia|]. destruct check; injection HS as <- <-; lia.
  - destruct HT as (i & H1 & H2). rewrite (opens_at _ _ _ _ _ _ _ _ _ _ H1) in *. injection HS as <- <-. cbn [length]. lia.
  - destruct HT as (i & H1 & H2). rewrite (opens_at _ _ _ _ _ _ _ _ _ _ H1) in *. injection HS as <- <-. lia.
  - destruct HT as (i & f & H1 & H2 & H3 & H4). rewrite (opens_at _ _ _ _ _ _ _ _ _ _ H1) in *. destruct n; [discriminate|].
    destruct rest as [|b rest]; [injection HS as <- <-; cbn; lia|].
    pose proof (firstn_skipn (S n) (b :: rest)) as HL. apply (f_equal (@length N)) in HL. rewrite app_length in HL.
    remember (skipn (S n) (b :: rest)) as more. destruct more as [|b' more]; injection HS as <- <-; cbn [length firstn] in *; lia.
  - destruct HT as (i & f & H1 & H2 & H3 & H4). rewrite (opens_at _ _ _ _ _ _ _ _ _ _ H1) in *. destruct n; [discriminate|].
    injection HS as <- <-. pose proof (skipn_length (S n) (b :: flight)) as HL. cbn [length skipn] in *. lia.
  - destruct HT as (i & f & H1 & H2 & H3 & H4). rewrite (opens_at _ _ _ _ _ _ _ _ _ _ H1) in *. injection HS as <- <-. lia.
  - destruct HT as (i & f & H1 & H2 & H3 & H4). rewrite (opens_at _ _ _ _ _ _ _ _ _ _ H1) in *. destruct n; [discriminate|].
    destruct flight as [|b flight]; [congruence|]. pose proof (skipn_length (S n) (b :: flight)) as HL.
    remember (skipn (S n) (b :: flight)) as more. destruct more; injection HS as <- <-; cbn [length] in *; lia.
  - destruct HT as (i & f & H1 & H2 & H3 & H4). rewrite (opens_at _ _ _ _ _ _ _ _ _ _ H1) in *. injection HS as <- <-.
    destruct flight; [congruence|]. cbn [length]. lia.
Qed.
Definition entry_weight (e : entry) (t : task) : nat := match e with Found p => weight p t | _ => 0%nat end.
Fixpoint total (es : list entry) (ts : list task) : nat :=
  match es, ts with e :: es, t :: ts => (entry_weight e t + total es ts)%nat | _, _ => 0%nat end.
Lemma total_down es : forall ts n p t t', nth_error es n = Some (Found p) -> nth_error ts n = Some t -> (weight p t' < weight p t)%nat ->
  (total es (set_nth n t' ts) < total es ts)%nat.
Proof.
  induction es as [|e es IH]; intros [|x ts] [|n] p t t' H1 H2 H3; try discriminate; cbn in H1, H2 |- *.
  - injection H1 as ->. injection H2 as ->. cbn. lia.
  - specialize (IH ts n p t t' H1 H2 H3). lia.
Qed.
Lemma runs_are_short es : distinct inode es -> forall evs r, takes es (starts es d0) evs = Some r -> (length evs + total es (tasks r) <= total es (map start es))%nat.
Proof.
  intros HD evs r H. assert (G : takes es (starts es d0) evs = Some r /\ (length evs + total es (tasks r) <= total es (map start es))%nat); [|apply G].
  pose proof H as H'. revert H. apply (takes_ind_inv inode readable writable disabled format check es
    (fun evs r => takes es (starts es d0) evs = Some r /\ (length evs + total es (tasks r) <= total es (map start es))%nat)).
  - cbn. split; [reflexivity|lia].
  - intros evs1 r1 ev r2 [H1 H2] HT. split.
    + clear -H1 HT. revert H1. generalize (starts es d0). induction evs1 as [|x evs1 IH]; intros s H1; cbn in *.
      * injection H1 as ->. now rewrite HT.
      * destruct (take es s x); [|discriminate]. now apply IH.
    + destruct (take_inv _ _ _ _ _ _ es r1 ev r2 HT) as (p & t & t' & E1 & E2 & E3 & E4).
      pose proof (proj2 (run_ok _ _ _ _ _ _ es d0 evs1 r1 HD H1) _ _ _ E1 E2) as HO. cbn in HO.
      pose proof (step_down _ _ _ _ _ _ _ HO E3) as HW. rewrite E4, app_length. cbn [length].
      pose proof (total_down es _ _ _ _ t' E1 E2 HW). lia.
Qed.
Lemma can_go_on es evs r : distinct inode es -> takes es (starts es d0) evs = Some r -> over r = false -> exists ev r', fails (snd ev) = false /\ take es r ev = Some r'.
Proof.
  intros HD H HO. destruct (run_ok _ _ _ _ _ _ es d0 evs r HD H) as [HL HK].
  assert (G : exists n t, nth_error (tasks r) n = Some t /\ ended t = false).
  { unfold over in HO. clear -HO. induction (tasks r) as [|t ts IH]; [discriminate|]. cbn in HO. destruct (ended t) eqn:E.
    - destruct (IH HO) as (n & x & H1 & H2). exists (S n), x. auto.
    - exists O, t. auto. }
  destruct G as (n & t & Hn & He). assert (HE : exists e, nth_error es n = Some e).
  { destruct (nth_error es n) eqn:E; [eauto|]. apply nth_error_None in E. assert (n < length (tasks r))%nat by (apply nth_error_Some; congruence). lia. }
  destruct HE as [e Ee]. specialize (HK n e t Ee Hn). destruct e as [p|p|p]; cbn in HK; try (subst t; discriminate).
  assert (G : exists e t' d', fails e = false /\ step p t e (files r) = Some (t', d')).
  { destruct t as [|read|source|f|off [|b c] rest|off c|o]; cbn in HK, He; try discriminate.
    - exists Open. cbn [CliModel.step fails]. destruct (disabled p); [eauto|]. destruct (inode p); [|eauto]. destruct (readable i && (check || writable i)); eauto.
    - exists (Read 1). destruct HK as (_ & i & H1 & _). cbn [CliModel.step fails]. rewrite (proj1 H1). destruct (skipn (length read) (files r i)); eauto.
    - exists Format. cbn [CliModel.step fails]. destruct (format p source) as [|f| |]; eauto. destruct (bytes_eqb source f); eauto. destruct check; eauto.
    - exists Truncate. destruct HK as (i & H1 & _). cbn [CliModel.step fails]. rewrite (opens_at _ _ _ _ _ _ _ _ _ _ H1). eauto.
    - exists (Buffer 1). cbn [CliModel.step fails]. destruct rest as [|b rest]; [eauto|]. destruct (skipn 1 (b :: rest)); eauto.
    - exists (Write 1). destruct HK as (i & f & H1 & _). cbn [CliModel.step fails]. rewrite (opens_at _ _ _ _ _ _ _ _ _ _ H1). eauto.
    - exists (Write 1). destruct HK as (i & f & H1 & _). cbn [CliModel.step fails]. rewrite (opens_at _ _ _ _ _ _ _ _ _ _ H1). eauto. }
  destruct G as (e & t' & d' & H1 & H2). exists (n, e). unfold CliModel.take. cbn [fst snd]. rewrite Ee, Hn, H2. eauto.
Qed.
End Ending.
