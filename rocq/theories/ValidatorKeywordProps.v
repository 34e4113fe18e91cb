(** The assertion keywords of the schema validator against JSON Schema: numbers and strings (C26), arrays
    (C40), tables (C41). *)
From Coq Require Import String Ascii List NArith ZArith Bool Arith Lia ZifyBool.
From Verif Require Import Base ValidatorModel ValidatorProofs ValidatorProps.
Import ListNotations.
Open Scope N_scope.
Open Scope list_scope.

(** ** Specification: the keywords *)

(** "If the keyword is present with value [b] then [P b]". *)
Definition when {X} (o : option X) (P : X -> Prop) : Prop := forall b, o = Some b -> P b.

(** The applicators beside the keywords; C25 says what each of them means. *)
Definition applicators_hold {T} (R : rules) (a : applicators T) (p : path) (x : T) : Prop :=
  when (one_of a) (fun c => exists r, validate_one_of R c p x = Some r /\ validates r)
  /\ when (any_of a) (fun c => validates (validate_any_of R c p x))
  /\ when (all_of a) (fun c => validates (validate_all_of R c p x))
  /\ not_holds (not_schema a) p x.

(** JSON Schema validation 6.1 and 6.2 for an integer schema. *)
Record integer_holds (s : integer_schema) (v : Z) : Prop := {
  ih_const : when (int_const s) (fun c => v = c);
  ih_enum : when (int_enum s) (fun l => In v l);
  ih_maximum : when (int_maximum s) (fun m => (v <= m)%Z);
  ih_minimum : when (int_minimum s) (fun m => (m <= v)%Z);
  ih_exclusive_maximum : when (int_exclusive_maximum s) (fun m => (v < m)%Z);
  ih_exclusive_minimum : when (int_exclusive_minimum s) (fun m => (m < v)%Z);
  ih_multiple_of : when (int_multiple_of s) (fun m => exists k, (v = k * m)%Z) }.

(** JSON Schema validation 6.1 and 6.3 for a string of [len] characters. *)
Record string_holds (len : N) (format_assertion : bool) (s : string_schema) (v : str) : Prop := {
  sh_const : when (str_const s) (fun c => v = c);
  sh_enum : when (str_enum s) (fun l => In v l);
  sh_max : when (str_max_length s) (fun m => len <= m);
  sh_min : when (str_min_length s) (fun m => m <= len);
  sh_format : when (str_format s) (fun f => format_assertion = true -> f v = true);
  sh_pattern : when (str_pattern s) (fun f => f v = true) }.

(** ** Small facts *)

Lemma when_none : forall X (P : X -> Prop), when None P <-> True.
Proof. intros. split; [auto|]. intros _ b H. discriminate. Qed.
Lemma when_some : forall X (b : X) (P : X -> Prop), when (Some b) P <-> P b.
Proof. intros. split; [intros H; apply H; reflexivity|]. intros H b' [= <-]. exact H. Qed.

Lemma when_bool : forall X (o : option X) (f : X -> bool) (P : X -> Prop),
  (forall b, f b = false <-> P b) -> (match o with Some b => f b | None => false end = false <-> when o P).
Proof.
  intros X [b|] f P H.
  - rewrite when_some. apply H.
  - rewrite when_none. tauto.
Qed.

Lemma applicators_fail_spec : forall T R (a : applicators T) p x,
  applicators_fail R a p x = false <-> applicators_hold R a p x.
Proof.
  intros T R a p x. unfold applicators_fail, applicators_hold. rewrite !orb_false_iff.
  rewrite (when_bool _ (one_of a) _ (fun c => exists r, validate_one_of R c p x = Some r /\ validates r)).
  2:{ intros c. destruct (one_of_never_panics T R c p x) as [r ->]. rewrite <- validates_failed. split; [eauto|].
      intros (r' & [= <-] & H). exact H. }
  rewrite (when_bool _ (any_of a) _ (fun c => validates (validate_any_of R c p x))) by (intros; rewrite validates_failed; reflexivity).
  rewrite (when_bool _ (all_of a) _ (fun c => validates (validate_all_of R c p x))) by (intros; rewrite validates_failed; reflexivity).
  rewrite (when_bool _ (not_schema a) _ (fun i => ~ accepts i p x)).
  - unfold not_holds, when. tauto.
  - intros i. rewrite <- item_matches_accepts. destruct (item_matches i p x); intuition congruence.
Qed.

Lemma existsb_eqb_Z : forall v l, existsb (Z.eqb v) l = true <-> In v l.
Proof.
  intros v l. rewrite existsb_exists. split.
  - intros (y & Hy & E). apply Z.eqb_eq in E. subst y. exact Hy.
  - intros H. exists v. split; [exact H|apply Z.eqb_refl].
Qed.
Lemma existsb_str_eqb : forall v l, existsb (str_eqb v) l = true <-> In v l.
Proof.
  intros v l. rewrite existsb_exists. split.
  - intros (y & Hy & E). apply str_eqb_eq in E. subst y. exact Hy.
  - intros H. exists v. split; [exact H|apply str_eqb_refl].
Qed.

(** ** C26: integers *)

(** Every keyword decided exactly, together with the applicators. *)
Theorem C26_integer : forall R s p v r,
  validate_integer R s p v = Some r ->
  (validates r <-> integer_holds s v /\ applicators_hold R (int_applicators s) p v).
Proof.
  intros R s p v r H. unfold validate_integer in H.
  set (ev0 := match int_enum s with Some l => _ | None => _ end) in H.
  set (acc := check R IntegerExclusiveMinimum _ _) in H.
  assert (HA : fst acc = match int_const s with Some c => negb (v =? c)%Z | None => false end
            || match int_enum s with Some l => negb (existsb (Z.eqb v) l) | None => false end
            || match int_maximum s with Some m => negb (v <=? m)%Z | None => false end
            || match int_minimum s with Some m => negb (m <=? v)%Z | None => false end
            || match int_exclusive_maximum s with Some m => negb (v <? m)%Z | None => false end
            || match int_exclusive_minimum s with Some m => negb (m <? v)%Z | None => false end).
  { unfold acc. rewrite !check_failed, !check_value_failed. unfold violates.
    destruct (int_const s), (int_enum s), (int_maximum s), (int_minimum s), (int_exclusive_maximum s), (int_exclusive_minimum s);
      reflexivity. }
  clearbody acc ev0.
  assert (HM : exists b, match int_multiple_of s with
                 | Some m => match rem_i64 v m with Some r => Some (negb (r =? 0)%Z) | None => None end
                 | None => Some false end = Some b
               /\ (b = false <-> when (int_multiple_of s) (fun m => exists k, (v = k * m)%Z))).
  { destruct (int_multiple_of s) as [m|].
    - unfold rem_i64 in *. destruct (m =? 0)%Z eqn:Hm0; [discriminate H|]. apply Z.eqb_neq in Hm0. rename Hm0 into Hm.
      destruct ((v =? i64_min) && (m =? -1))%Z eqn:E; [discriminate H|].
      eexists. split; [reflexivity|]. rewrite when_some, negb_false_iff, Z.eqb_eq.
      rewrite Z.rem_divide by exact Hm. unfold Z.divide. reflexivity.
    - exists false. split; [reflexivity|]. rewrite when_none. tauto. }
  destruct HM as (b & Hb & HM). rewrite Hb in H. clear Hb.
  pose proof (check_failed R IntegerMultipleOf b acc) as HF.
  destruct (check R IntegerMultipleOf b acc) as [f ds]. cbn [fst] in HF.
  set (ds' := if is_nil ds then _ else ds) in H. clearbody ds'.
  match type of H with merge_adjacent _ _ _ _ ?base = _ => destruct (merge_adjacent_failed _ R (int_applicators s) p v base) as (r' & Hr & Hf) end.
  rewrite Hr in H. injection H as <-.
  rewrite validates_failed, Hf, orb_false_iff, applicators_fail_spec.
  assert (HB : failed (if is_nil ds' && negb f then Ok (with_evidence ev0 no_locations) else Err (mkInvalid f ev0 ds' no_locations)) = f).
  { destruct f; [rewrite andb_false_r; reflexivity|]. destruct (is_nil ds'); reflexivity. }
  rewrite HB, HF, orb_false_iff, HA, !orb_false_iff, HM.
  rewrite (when_bool _ (int_const s) _ (fun c => v = c)) by (intros; rewrite negb_false_iff, Z.eqb_eq; reflexivity).
  rewrite (when_bool _ (int_enum s) _ (fun l => In v l)) by (intros; rewrite negb_false_iff; apply existsb_eqb_Z).
  rewrite (when_bool _ (int_maximum s) _ (fun m => (v <= m)%Z)) by (intros; rewrite negb_false_iff, Z.leb_le; reflexivity).
  rewrite (when_bool _ (int_minimum s) _ (fun m => (m <= v)%Z)) by (intros; rewrite negb_false_iff, Z.leb_le; reflexivity).
  rewrite (when_bool _ (int_exclusive_maximum s) _ (fun m => (v < m)%Z)) by (intros; rewrite negb_false_iff, Z.ltb_lt; reflexivity).
  rewrite (when_bool _ (int_exclusive_minimum s) _ (fun m => (m < v)%Z)) by (intros; rewrite negb_false_iff, Z.ltb_lt; reflexivity).
  split.
  - intros [[[[[[[H1 H2] H3] H4] H5] H6] H7] H8]. split; [constructor; assumption|exact H8].
  - intros [[H1 H2 H3 H4 H5 H6 H7] H8]. tauto.
Qed.
Print Assumptions C26_integer.

(** When the check panics: exactly for [multipleOf: 0], and for [multipleOf: -1] on the least integer. *)
Theorem C26_integer_panics : forall R s p v,
  validate_integer R s p v = None
  <-> int_multiple_of s = Some 0%Z \/ (int_multiple_of s = Some (-1)%Z /\ v = (- 9223372036854775808)%Z).
Proof.
  intros R s p v. unfold validate_integer.
  set (acc := check R IntegerExclusiveMinimum _ _). set (ev0 := match int_enum s with Some l => _ | None => _ end).
  assert (K : forall b, (let '(failed, ds) := check R IntegerMultipleOf b acc in
      merge_adjacent R (int_applicators s) p v
        (if is_nil (if is_nil ds then handle_deprecated R (int_deprecated s) ds else ds) && negb failed
         then Ok (with_evidence ev0 no_locations)
         else Err (mkInvalid failed ev0 (if is_nil ds then handle_deprecated R (int_deprecated s) ds else ds) no_locations))) <> None).
  { intros b. destruct (check R IntegerMultipleOf b acc) as [f ds].
    match goal with |- merge_adjacent _ _ _ _ ?base <> _ => destruct (merge_adjacent_failed _ R (int_applicators s) p v base) as (r' & -> & _) end.
    discriminate. }
  destruct (int_multiple_of s) as [m|].
  - unfold rem_i64. destruct (Z.eqb_spec m 0) as [->|Hm]; [split; auto|].
    destruct ((v =? i64_min) && (m =? -1))%Z eqn:E.
    + apply andb_true_iff in E. destruct E as [E1 E2]. apply Z.eqb_eq in E1, E2. subst. split; [|auto]. intros _. right. auto.
    + split.
      * intros H. exfalso. exact (K _ H).
      * intros [[= ->]|[[= ->] ->]]; [congruence|discriminate E].
  - split; [intros H; exfalso; exact (K _ H)|]. intros [H|[H _]]; discriminate.
Qed.
Print Assumptions C26_integer_panics.

Definition none_beside {T} : applicators T := mkApplicators None None None None.

(** A schema with [multipleOf: 0] makes the check panic (JSON Schema forbids such a schema but the linter
    does not reject it), and so does [multipleOf: -1] on the least integer, which is a multiple of it. *)
Theorem C26_never_panics_refuted :
  (exists s v, validate_integer default_rules s [] v = None)
  /\ (exists s v, integer_holds s v /\ validate_integer default_rules s [] v = None).
Proof.
  split.
  - exists (mkIntegerSchema None None None None (Some 0%Z) None None false none_beside), 5%Z. vm_compute. reflexivity.
  - exists (mkIntegerSchema None None None None (Some (-1)%Z) None None false none_beside), (- 9223372036854775808)%Z.
    split; [|vm_compute; reflexivity].
    constructor; cbn; try (apply when_none; exact I). apply when_some. exists 9223372036854775808%Z. lia.
Qed.
Print Assumptions C26_never_panics_refuted.

Example C26_integer_example :
  let s := mkIntegerSchema (Some 0%Z) (Some 100%Z) None (Some 50%Z) (Some 5%Z) (Some [10%Z; 15%Z]) None false none_beside in
  (exists r, validate_integer default_rules s [] 15 = Some r /\ validates r)
  /\ (exists r, validate_integer default_rules s [] 20 = Some r /\ ~ validates r).
Proof.
  split; eexists; (split; [vm_compute; reflexivity|]); cbn; [exact I|discriminate].
Qed.

(** ** C26: strings *)

(** Exact once the length of a string is what the segmentation library counts. *)
Theorem C26_string : forall graphemes R fa s p v,
  exists r, validate_string graphemes R fa s p v = Some r
  /\ (validates r <-> string_holds (graphemes v) fa s v /\ applicators_hold R (str_applicators s) p v).
Proof.
  intros graphemes R fa s p v. unfold validate_string.
  match goal with |- exists r, merge_adjacent _ _ _ _ ?base = _ /\ _ =>
    destruct (merge_adjacent_failed _ R (str_applicators s) p v base) as (r & Hr & Hf); set (b := base) in * end.
  exists r. split; [exact Hr|]. rewrite validates_failed, Hf, orb_false_iff, applicators_fail_spec.
  assert (HB : failed b = failed (validate_raw_string graphemes R fa s v)).
  { unfold b. destruct (validate_raw_string graphemes R fa s v) as [w|e]; [|reflexivity].
    cbn. destruct (handle_deprecated R (str_deprecated s) []); reflexivity. }
  rewrite HB. clear b Hr Hf HB. unfold validate_raw_string.
  set (ev0 := match str_enum s with Some l => _ | None => _ end).
  set (acc := check R StringFormat _ _).
  assert (HA : fst acc = match str_const s with Some c => negb (str_eqb v c) | None => false end
            || match str_enum s with Some l => negb (existsb (str_eqb v) l) | None => false end
            || match str_max_length s with Some m => m <? graphemes v | None => false end
            || match str_min_length s with Some m => graphemes v <? m | None => false end
            || match str_format s with Some f => fa && negb (f v) | None => false end).
  { unfold acc. rewrite !check_failed, !check_value_failed. unfold violates.
    destruct (str_const s), (str_enum s), (str_max_length s), (str_min_length s), (str_format s);
      cbn [option_map]; rewrite ?negb_involutive, ?andb_false_r; reflexivity. }
  clearbody acc ev0.
  pose proof (check_failed R StringPattern (violates (str_pattern s) (fun f => f v)) acc) as HF.
  destruct (check R StringPattern (violates (str_pattern s) (fun f => f v)) acc) as [f ds]. cbn [fst] in HF.
  assert (HB : failed (if is_nil ds && negb f then Ok (with_evidence ev0 no_locations) else Err (mkInvalid f ev0 ds no_locations)) = f).
  { destruct f; [rewrite andb_false_r; reflexivity|]. destruct (is_nil ds); reflexivity. }
  rewrite HB, HF, HA, !orb_false_iff. unfold violates.
  rewrite (when_bool _ (str_const s) _ (fun c => v = c)) by (intros; rewrite negb_false_iff, str_eqb_eq; reflexivity).
  rewrite (when_bool _ (str_enum s) _ (fun l => In v l)) by (intros; rewrite negb_false_iff; apply existsb_str_eqb).
  rewrite (when_bool _ (str_max_length s) _ (fun m => graphemes v <= m)) by (intros; rewrite N.ltb_ge; reflexivity).
  rewrite (when_bool _ (str_min_length s) _ (fun m => m <= graphemes v)) by (intros; rewrite N.ltb_ge; reflexivity).
  rewrite (when_bool _ (str_format s) _ (fun f => fa = true -> f v = true)).
  2:{ intros g. destruct fa, (g v); cbn; intuition congruence. }
  rewrite (when_bool _ (str_pattern s) _ (fun f => f v = true)) by (intros; rewrite negb_false_iff; reflexivity).
  split.
  - intros [[[[[[H1 H2] H3] H4] H5] H6] H7]. split; [constructor; assumption|exact H7].
  - intros [[H1 H2 H3 H4 H5 H6] H7]. tauto.
Qed.
Print Assumptions C26_string.

(** JSON Schema counts characters (RFC 8259, code points); the code counts grapheme clusters, so "é" written
    as "e" and a combining accent passes [maxLength: 1] and fails [minLength: 2]. *)
Theorem C26_string_length_refuted : forall graphemes,
  graphemes [101; 769] = 1 ->
  (exists s r, validate_string graphemes default_rules true s [] [101; 769] = Some r /\ validates r
     /\ ~ string_holds (N.of_nat (length [101; 769])) true s [101; 769])
  /\ (exists s r, validate_string graphemes default_rules true s [] [101; 769] = Some r /\ ~ validates r
     /\ string_holds (N.of_nat (length [101; 769])) true s [101; 769]).
Proof.
  intros graphemes HG. split.
  - set (s := mkStringSchema None (Some 1) None None None None false none_beside).
    destruct (C26_string graphemes default_rules true s [] [101; 769]) as (r & Hr & H). exists s, r.
    split; [exact Hr|]. rewrite H, HG. split.
    + split; [constructor; cbn; try (apply when_none; exact I); apply when_some; lia|].
      split; [|split; [|split]]; cbn; apply when_none; exact I.
    + intros [_ _ H3 _ _ _]. cbn in H3. rewrite when_some in H3. lia.
  - set (s := mkStringSchema (Some 2) None None None None None false none_beside).
    destruct (C26_string graphemes default_rules true s [] [101; 769]) as (r & Hr & H). exists s, r.
    split; [exact Hr|]. rewrite H, HG. split.
    + intros [[_ _ _ H4 _ _] _]. cbn in H4. rewrite when_some in H4. lia.
    + constructor; cbn; try (apply when_none; exact I). apply when_some. lia.
Qed.
Print Assumptions C26_string_length_refuted.

Example C26_string_example :
  let s := mkStringSchema (Some 1) (Some 3) (Some (fun v => str_eqb v (lit "ab"))) None (Some [lit "ab"; lit "abc"]) None false none_beside in
  let len := fun v : str => N.of_nat (length v) in
  (exists r, validate_string len default_rules true s [] (lit "ab") = Some r /\ validates r)
  /\ (exists r, validate_string len default_rules true s [] (lit "abc") = Some r /\ ~ validates r)
  /\ (exists r, validate_string len default_rules false s [] (lit "abc") = Some r /\ validates r).
Proof.
  split; [|split]; eexists; (split; [vm_compute; reflexivity|]); cbn; [exact I|discriminate|exact I].
Qed.

(** ** C26: the right keyword is reported *)

(** The diagnostic shown for keyword [c], at level error. *)
Definition reports (r : result) (c : code) : Prop :=
  match r with Ok _ => False | Err e => In (mkDiag true c) (diagnostics e) end.

Lemma push_in : forall R c d ds, level_of R c = Error -> (In d (push (level_of R c) c ds) <-> d = mkDiag true c \/ In d ds).
Proof.
  intros R c d ds ->. cbn. rewrite in_app_iff. cbn. split; [intros [H|[H|[]]]; auto|intros [->|H]; auto].
Qed.
Lemma unused_in : forall R c c' ds, In (mkDiag true c') (unused_noqa R c ds) <-> In (mkDiag true c') ds.
Proof.
  intros R c c' ds. unfold unused_noqa. destruct (noqa_of R c); [|reflexivity]. cbn. rewrite in_app_iff. cbn.
  split; [intros [H|[H|[]]]; [exact H|discriminate]|auto].
Qed.
Lemma check_in : forall R c v acc c', level_of R c = Error ->
  (In (mkDiag true c') (snd (check R c v acc)) <-> In (mkDiag true c') (snd acc) \/ (c' = c /\ v = true)).
Proof.
  intros R c v [f ds] c' HL. unfold check. destruct v; cbn [snd].
  - rewrite push_in by exact HL. split; [intros [[= ->]|H]; auto|intros [H|[-> _]]; auto].
  - rewrite unused_in. split; [auto|intros [H|[_ Q]]; [exact H|discriminate]].
Qed.
Lemma check_value_in : forall R c m acc c', level_of R c = Error ->
  (In (mkDiag true c') (snd (check_value R c m acc)) <-> In (mkDiag true c') (snd acc) \/ (c' = c /\ m = Some false)).
Proof.
  intros R c [[|]|] [f ds] c' HL; cbn [check_value snd].
  - split; [auto|intros [H|[_ Q]]; [exact H|discriminate]].
  - rewrite push_in by exact HL. split; [intros [[= ->]|H]; auto|intros [H|[-> _]]; auto].
  - rewrite unused_in. split; [auto|intros [H|[_ Q]]; [exact H|discriminate]].
Qed.

Lemma merge_none : forall T R p (x : T) base r c,
  merge_adjacent R none_beside p x base = Some r -> (reports r c <-> reports base c).
Proof.
  intros T R p x base r c H. unfold merge_adjacent in H. cbn in H. injection H as <-. destruct base; reflexivity.
Qed.

(** With every rule at its default level and no applicators beside, the diagnostics of an integer are exactly
    the violated keywords. *)
Theorem C26_integer_reports : forall R s p v r c,
  (forall c, c <> Deprecated -> level_of R c = Error) -> c <> Deprecated -> int_applicators s = none_beside ->
  validate_integer R s p v = Some r ->
  (reports r c <->
    (c = Const /\ exists x, int_const s = Some x /\ v <> x)
    \/ (c = Enum /\ exists l, int_enum s = Some l /\ ~ In v l)
    \/ (c = IntegerMaximum /\ exists m, int_maximum s = Some m /\ (m < v)%Z)
    \/ (c = IntegerMinimum /\ exists m, int_minimum s = Some m /\ (v < m)%Z)
    \/ (c = IntegerExclusiveMaximum /\ exists m, int_exclusive_maximum s = Some m /\ (m <= v)%Z)
    \/ (c = IntegerExclusiveMinimum /\ exists m, int_exclusive_minimum s = Some m /\ (v <= m)%Z)
    \/ (c = IntegerMultipleOf /\ exists m, int_multiple_of s = Some m /\ ~ exists k, (v = k * m)%Z)).
Proof.
  intros R s p v r c HR HC HA H. unfold validate_integer in H. rewrite HA in H.
  set (ev0 := match int_enum s with Some l => _ | None => _ end) in H. clearbody ev0.
  set (acc := check R IntegerExclusiveMinimum _ _) in H.
  assert (HS : In (mkDiag true c) (snd acc) <->
    (c = Const /\ exists x, int_const s = Some x /\ v <> x)
    \/ (c = Enum /\ exists l, int_enum s = Some l /\ ~ In v l)
    \/ (c = IntegerMaximum /\ exists m, int_maximum s = Some m /\ (m < v)%Z)
    \/ (c = IntegerMinimum /\ exists m, int_minimum s = Some m /\ (v < m)%Z)
    \/ (c = IntegerExclusiveMaximum /\ exists m, int_exclusive_maximum s = Some m /\ (m <= v)%Z)
    \/ (c = IntegerExclusiveMinimum /\ exists m, int_exclusive_minimum s = Some m /\ (v <= m)%Z)).
  { unfold acc. rewrite !check_in, !check_value_in by (apply HR; discriminate). cbn [snd In].
    assert (E1 : option_map (Z.eqb v) (int_const s) = Some false <-> exists x, int_const s = Some x /\ v <> x).
    { destruct (int_const s) as [x|]; cbn; [|split; [discriminate|intros (x & Q & _); discriminate]]. split.
      - intros [= Q]. apply Z.eqb_neq in Q. eauto.
      - intros (y & [= <-] & Q). apply Z.eqb_neq in Q. rewrite Q. reflexivity. }
    assert (E2 : option_map (existsb (Z.eqb v)) (int_enum s) = Some false <-> exists l, int_enum s = Some l /\ ~ In v l).
    { destruct (int_enum s) as [l|]; cbn; [|split; [discriminate|intros (x & Q & _); discriminate]]. split.
      - intros [= Q]. exists l. split; [reflexivity|]. rewrite <- existsb_eqb_Z. congruence.
      - intros (y & [= <-] & Q). rewrite <- existsb_eqb_Z in Q. destruct (existsb (Z.eqb v) l); congruence. }
    assert (EV : forall (o : option Z) (f : Z -> bool) (P : Z -> Prop), (forall m, f m = false <-> P m) ->
              (violates o f = true <-> exists m, o = Some m /\ P m)).
    { intros o f P HP. unfold violates. destruct o as [m|]; [|split; [discriminate|intros (m & Q & _); discriminate]].
      rewrite negb_true_iff, HP. split; [eauto|]. intros (m' & [= <-] & Q). exact Q. }
    rewrite E1, E2.
    rewrite (EV (int_maximum s) _ (fun m => (m < v)%Z)) by (intros; apply Z.leb_gt).
    rewrite (EV (int_minimum s) _ (fun m => (v < m)%Z)) by (intros; apply Z.leb_gt).
    rewrite (EV (int_exclusive_maximum s) _ (fun m => (m <= v)%Z)) by (intros; apply Z.ltb_ge).
    rewrite (EV (int_exclusive_minimum s) _ (fun m => (v <= m)%Z)) by (intros; apply Z.ltb_ge).
    tauto. }
  clearbody acc.
  assert (HM : exists b, match int_multiple_of s with
                 | Some m => match rem_i64 v m with Some r => Some (negb (r =? 0)%Z) | None => None end
                 | None => Some false end = Some b
               /\ (b = true <-> exists m, int_multiple_of s = Some m /\ ~ exists k, (v = k * m)%Z)).
  { destruct (int_multiple_of s) as [m|].
    - unfold rem_i64 in *. destruct (m =? 0)%Z eqn:Hm0; [discriminate H|]. apply Z.eqb_neq in Hm0. rename Hm0 into Hm.
      destruct ((v =? i64_min) && (m =? -1))%Z eqn:E; [discriminate H|].
      eexists. split; [reflexivity|]. rewrite negb_true_iff, Z.eqb_neq.
      rewrite Z.rem_divide by exact Hm. unfold Z.divide. split; [eauto|]. intros (m' & [= <-] & Q). exact Q.
    - exists false. split; [reflexivity|]. split; [discriminate|]. intros (m & Q & _). discriminate. }
  destruct HM as (b & Hb & HM). rewrite Hb in H. clear Hb.
  pose proof (check_in R IntegerMultipleOf b acc c (HR IntegerMultipleOf ltac:(discriminate))) as HF.
  destruct (check R IntegerMultipleOf b acc) as [f ds]. cbn [snd] in HF. rewrite HS, HM in HF.
  set (ds' := if is_nil ds then _ else ds) in H.
  assert (HD : In (mkDiag true c) ds' <-> In (mkDiag true c) ds).
  { unfold ds'. destruct ds as [|d ds]; [|reflexivity]. cbn [is_nil]. unfold handle_deprecated. destruct (int_deprecated s).
    - destruct (level_of R Deprecated); cbn; intuition congruence.
    - apply unused_in. }
  clearbody ds'. rewrite (merge_none _ _ _ _ _ _ c H). clear H.
  assert (HB : reports (if is_nil ds' && negb f then Ok (with_evidence ev0 no_locations) else Err (mkInvalid f ev0 ds' no_locations)) c
               <-> In (mkDiag true c) ds').
  { destruct ds' as [|d ds']; [|reflexivity]. destruct f; cbn; reflexivity. }
  rewrite HB, HD, HF. tauto.
Qed.
Print Assumptions C26_integer_reports.

Theorem C26_string_reports : forall graphemes R fa s p v r c,
  (forall c, c <> Deprecated -> level_of R c = Error) -> c <> Deprecated -> str_applicators s = none_beside ->
  validate_string graphemes R fa s p v = Some r ->
  (reports r c <->
    (c = Const /\ exists x, str_const s = Some x /\ v <> x)
    \/ (c = Enum /\ exists l, str_enum s = Some l /\ ~ In v l)
    \/ (c = StringMaxLength /\ exists m, str_max_length s = Some m /\ m < graphemes v)
    \/ (c = StringMinLength /\ exists m, str_min_length s = Some m /\ graphemes v < m)
    \/ (c = StringFormat /\ fa = true /\ exists f, str_format s = Some f /\ f v = false)
    \/ (c = StringPattern /\ exists f, str_pattern s = Some f /\ f v = false)).
Proof.
  intros graphemes R fa s p v r c HR HC HA H. unfold validate_string in H. rewrite HA in H.
  rewrite (merge_none _ _ _ _ _ _ c H). clear H.
  assert (HB : reports match validate_raw_string graphemes R fa s v with
      | Ok w => with_lint_diagnostics (Ok w) (handle_deprecated R (str_deprecated s) [])
      | Err e => Err e end c <-> reports (validate_raw_string graphemes R fa s v) c).
  { destruct (validate_raw_string graphemes R fa s v) as [w|e]; [|reflexivity].
    unfold handle_deprecated. destruct (str_deprecated s).
    - destruct (level_of R Deprecated); cbn; intuition congruence.
    - unfold unused_noqa. destruct (noqa_of R Deprecated); cbn; intuition congruence. }
  rewrite HB. clear HB. unfold validate_raw_string.
  set (ev0 := match str_enum s with Some l => _ | None => _ end). clearbody ev0.
  set (acc := check R StringFormat _ _).
  assert (EV : forall X (o : option X) (f : X -> bool) (P : X -> Prop), (forall m, f m = false <-> P m) ->
              (violates o f = true <-> exists m, o = Some m /\ P m)).
  { intros X o f P HP. unfold violates. destruct o as [m|]; [|split; [discriminate|intros (m & Q & _); discriminate]].
    rewrite negb_true_iff, HP. split; [eauto|]. intros (m' & [= <-] & Q). exact Q. }
  assert (HS : In (mkDiag true c) (snd acc) <->
    (c = Const /\ exists x, str_const s = Some x /\ v <> x)
    \/ (c = Enum /\ exists l, str_enum s = Some l /\ ~ In v l)
    \/ (c = StringMaxLength /\ exists m, str_max_length s = Some m /\ m < graphemes v)
    \/ (c = StringMinLength /\ exists m, str_min_length s = Some m /\ graphemes v < m)
    \/ (c = StringFormat /\ fa = true /\ exists f, str_format s = Some f /\ f v = false)).
  { unfold acc. rewrite !check_in, !check_value_in by (apply HR; discriminate). cbn [snd In].
    assert (E1 : option_map (str_eqb v) (str_const s) = Some false <-> exists x, str_const s = Some x /\ v <> x).
    { destruct (str_const s) as [x|]; cbn; [|split; [discriminate|intros (x & Q & _); discriminate]]. split.
      - intros [= Q]. exists x. split; [reflexivity|]. intros <-. rewrite str_eqb_refl in Q. discriminate.
      - intros (y & [= <-] & Q). destruct (str_eqb v x) eqn:E; [|reflexivity]. apply str_eqb_eq in E. contradiction. }
    assert (E2 : option_map (existsb (str_eqb v)) (str_enum s) = Some false <-> exists l, str_enum s = Some l /\ ~ In v l).
    { destruct (str_enum s) as [l|]; cbn; [|split; [discriminate|intros (x & Q & _); discriminate]]. split.
      - intros [= Q]. exists l. split; [reflexivity|]. rewrite <- existsb_str_eqb. congruence.
      - intros (y & [= <-] & Q). rewrite <- existsb_str_eqb in Q. destruct (existsb (str_eqb v) l); congruence. }
    rewrite E1, E2, andb_true_iff.
    rewrite (EV _ (str_max_length s) _ (fun m => m < graphemes v)) by (intros; rewrite negb_false_iff; apply N.ltb_lt).
    rewrite (EV _ (str_min_length s) _ (fun m => graphemes v < m)) by (intros; rewrite negb_false_iff; apply N.ltb_lt).
    rewrite (EV _ (str_format s) _ (fun f => f v = false)) by (intros; reflexivity).
    tauto. }
  clearbody acc.
  pose proof (check_in R StringPattern (violates (str_pattern s) (fun f => f v)) acc c (HR StringPattern ltac:(discriminate))) as HF.
  rewrite (EV _ (str_pattern s) _ (fun f => f v = false)) in HF by (intros; reflexivity).
  destruct (check R StringPattern (violates (str_pattern s) (fun f => f v)) acc) as [f ds]. cbn [snd] in HF. rewrite HS in HF.
  assert (HB : reports (if is_nil ds && negb f then Ok (with_evidence ev0 no_locations) else Err (mkInvalid f ev0 ds no_locations)) c
               <-> In (mkDiag true c) ds).
  { destruct ds as [|d ds]; [|reflexivity]. destruct f; cbn; reflexivity. }
  rewrite HB, HF. tauto.
Qed.
Print Assumptions C26_string_reports.

Example C26_reports_example :
  let s := mkIntegerSchema (Some 1%Z) (Some 9%Z) None None (Some 4%Z) None None false none_beside in
  exists r, validate_integer default_rules s [] 10%Z = Some r
    /\ (forall c, c <> Deprecated -> level_of default_rules c = Error)
    /\ reports r IntegerMaximum /\ ~ reports r IntegerMinimum /\ reports r IntegerMultipleOf.
Proof.
  eexists. split; [vm_compute; reflexivity|]. split; [intros []; cbn; congruence|]. cbn. intuition discriminate.
Qed.

(** ** Specification: arrays *)

(** The schema that applies to the items after the prefix: [additionalItems] up to draft 2019-09, [items]
    since 2020-12. *)
Definition rest_schema {V} (s : array_schema V) : option (item V) :=
  match arr_additional_items_schema s with Some i => Some i | None => arr_items s end.

Definition nth_item {V} (values : list V) (i : N) (v : V) : Prop := nth_error values (N.to_nat i) = Some v.

(** The indices an item is evaluated at: by [prefixItems], [items], [additionalItems], [contains], or by an
    adjacent applicator. *)
Inductive item_evaluated {V} (s : array_schema V) (p : path) (values : list V) (adjacent : N -> Prop) (i : N) : Prop :=
| by_items : arr_prefix_items s = None -> arr_items s <> None -> item_evaluated s p values adjacent i
| by_prefix : forall prefix it, arr_prefix_items s = Some prefix -> nth_item prefix i it -> item_evaluated s p values adjacent i
| by_rest : arr_prefix_items s <> None -> rest_schema s <> None \/ arr_additional_items s <> None ->
    item_evaluated s p values adjacent i
| by_contains : forall it v, arr_contains s = Some it -> nth_item values i v -> accepts it (p ++ [Index i]) v ->
    item_evaluated s p values adjacent i
| by_adjacent : adjacent i -> item_evaluated s p values adjacent i.

(** JSON Schema core 10.3.1 and 11.2, validation 6.1 and 6.4. *)
Record array_holds {V} (same : V -> V -> bool) (s : array_schema V) (p : path) (values : list V) (adjacent : N -> Prop) : Prop := {
  ah_items : arr_prefix_items s = None -> forall it, arr_items s = Some it ->
    forall i v, nth_item values i v -> accepts it (p ++ [Index i]) v;
  ah_prefix : forall prefix, arr_prefix_items s = Some prefix ->
    forall i v it, nth_item values i v -> nth_item prefix i it -> accepts it (p ++ [Index i]) v;
  ah_rest : forall prefix, arr_prefix_items s = Some prefix ->
    forall i v, nth_item values i v -> N.of_nat (length prefix) <= i ->
    arr_additional_items s <> Some false /\ when (rest_schema s) (fun it => accepts it (p ++ [Index i]) v);
  ah_contains : when (arr_contains s) (fun it => exists found,
    NoDup found /\ (forall i, In i found <-> exists v, nth_item values i v /\ accepts it (p ++ [Index i]) v)
    /\ match arr_min_contains s with Some m => m | None => 1 end <= N.of_nat (length found)
    /\ when (arr_max_contains s) (fun m => N.of_nat (length found) <= m));
  ah_unevaluated : forall i v, nth_item values i v -> ~ item_evaluated s p values adjacent i ->
    arr_unevaluated_items s <> Some false /\ when (arr_unevaluated_items_schema s) (fun it => accepts it (p ++ [Index i]) v);
  ah_const : when (arr_const s) (fun f => f values = true);
  ah_enum : when (arr_enum s) (fun f => fst f values = true);
  ah_max : when (arr_max_items s) (fun m => N.of_nat (length values) <= m);
  ah_min : when (arr_min_items s) (fun m => m <= N.of_nat (length values));
  ah_unique : arr_unique_items s = Some true ->
    forall i j v w, nth_item values i v -> nth_item values j w -> i <> j -> same v w = false }.

(** The subschemas were loaded. *)
Definition is_loaded {T} (o : option (item T)) : Prop := when o (fun i => exists run, i = Resolved run).
Record array_loaded {V} (s : array_schema V) : Prop := {
  al_items : is_loaded (arr_items s);
  al_prefix : when (arr_prefix_items s) (Forall (fun i => exists run, i = Resolved run));
  al_additional : is_loaded (arr_additional_items_schema s);
  al_unevaluated : is_loaded (arr_unevaluated_items_schema s);
  al_contains : is_loaded (arr_contains s);
  (* array_schema.rs:99-165: a keyword whose value is a schema is not [false] *)
  al_rest_bool : rest_schema s <> None -> arr_additional_items s <> Some false;
  al_unevaluated_bool : arr_unevaluated_items_schema s <> None -> arr_unevaluated_items s <> Some false }.

(** ** C40 *)

Lemma accepts_loaded : forall T (run : path -> T -> result) p x, failed (run p x) = false <-> accepts (Resolved run) p x.
Proof. intros. cbn. rewrite validates_failed. reflexivity. Qed.

Lemma existsb_false_in : forall X (f : X -> bool) l, existsb f l = false <-> forall x, In x l -> f x = false.
Proof.
  intros X f l. split.
  - intros H x Hx. destruct (f x) eqn:E; [|reflexivity]. rewrite <- H. symmetry. apply existsb_exists. eauto.
  - intros H. destruct (existsb f l) eqn:E; [|reflexivity]. apply existsb_exists in E. destruct E as (x & Hx & E).
    rewrite (H x Hx) in E. discriminate.
Qed.

Lemma array_items_spec : forall V (s : array_schema V) p values,
  array_loaded s ->
  (array_items_bad s p values = false <->
   (arr_prefix_items s = None -> forall it, arr_items s = Some it ->
      forall i v, nth_item values i v -> accepts it (p ++ [Index i]) v)
   /\ (forall prefix, arr_prefix_items s = Some prefix ->
      forall i v it, nth_item values i v -> nth_item prefix i it -> accepts it (p ++ [Index i]) v)
   /\ (forall prefix, arr_prefix_items s = Some prefix ->
      forall i v, nth_item values i v -> N.of_nat (length prefix) <= i ->
      arr_additional_items s <> Some false /\ when (rest_schema s) (fun it => accepts it (p ++ [Index i]) v))).
Proof.
  intros V s p values [L1 L2 L3 L4 L5 L6 L7]. unfold array_items_bad, nth_item.
  destruct (arr_prefix_items s) as [prefix|].
  - rewrite when_some in L2. rewrite existsb_false_in.
    assert (LR : is_loaded (rest_schema s)).
    { unfold rest_schema. destruct (arr_additional_items_schema s); assumption. }
    change (overflow_item s) with (rest_schema s).
    split.
    + intros H. split; [discriminate|]. split.
      * intros prefix' [= <-] i v it Hv Hit. specialize (H (i, v)). rewrite enumerate_in in H. specialize (H Hv).
        unfold prefix_bad in H. rewrite Hit in H. rewrite Forall_forall in L2.
        destruct (L2 it (nth_error_In _ _ Hit)) as [run ->]. apply accepts_loaded. exact H.
      * intros prefix' [= <-] i v Hv Hl. specialize (H (i, v)). rewrite enumerate_in in H. specialize (H Hv).
        unfold prefix_bad in H. assert (E : nth_error prefix (N.to_nat i) = None) by (apply nth_error_None; lia).
        rewrite E in H. destruct (rest_schema s) as [it|].
        -- split; [apply L6; discriminate|]. apply when_some. unfold is_loaded in LR. rewrite when_some in LR.
           destruct LR as [run ->]. apply accepts_loaded. exact H.
        -- split; [|apply when_none; exact I]. intros Q. rewrite Q in H. discriminate.
    + intros (_ & H1 & H2) [i v] Hi. apply enumerate_in in Hi. unfold prefix_bad.
      destruct (nth_error prefix (N.to_nat i)) as [it|] eqn:E.
      * specialize (H1 prefix eq_refl i v it Hi E). rewrite Forall_forall in L2.
        destruct (L2 it (nth_error_In _ _ E)) as [run ->]. apply accepts_loaded. exact H1.
      * apply nth_error_None in E. destruct (H2 prefix eq_refl i v Hi ltac:(lia)) as [A B].
        destruct (rest_schema s) as [it|].
        -- unfold is_loaded in LR. rewrite when_some in LR, B. destruct LR as [run ->]. apply accepts_loaded. exact B.
        -- destruct (arr_additional_items s) as [[|]|]; congruence.
  - unfold is_loaded in L1. destruct (arr_items s) as [it|].
    + rewrite when_some in L1. destruct L1 as [run ->]. rewrite existsb_false_in. split.
      * intros H. split; [|split; discriminate]. intros _ it [= <-] i v Hv. apply accepts_loaded.
        apply (H (i, v)). apply enumerate_in. exact Hv.
      * intros [H _] [i v] Hi. apply enumerate_in in Hi. apply accepts_loaded. exact (H eq_refl _ eq_refl i v Hi).
    + split; [|reflexivity]. intros _. split; [|split]; discriminate.
Qed.

Lemma contained_in : forall V (run : path -> V -> result) p values i,
  In i (contained run p (enumerate values)) <-> exists v, nth_item values i v /\ accepts (Resolved run) (p ++ [Index i]) v.
Proof.
  intros V run p values i. unfold contained, nth_item. rewrite in_map_iff. split.
  - intros ([j v] & <- & H). apply filter_In in H. destruct H as [H1 H2]. exists v. cbn [fst snd] in *.
    apply enumerate_in in H1. split; [exact H1|]. apply accepts_loaded. apply negb_true_iff. exact H2.
  - intros (v & Hv & Ha). exists (i, v). split; [reflexivity|]. apply filter_In. split; [apply enumerate_in; exact Hv|].
    cbn [fst snd]. apply negb_true_iff. apply accepts_loaded. exact Ha.
Qed.

Lemma contained_nodup : forall V (run : path -> V -> result) p values, NoDup (contained run p (enumerate values)).
Proof.
  intros V run p values. unfold contained, enumerate. pose proof (enumerate_nodup V values 0) as H.
  induction (enumerate_from 0 values) as [|[i v] l IH]; cbn; [constructor|].
  cbn in H. inversion H as [|? ? Hi Hl]; subst. destruct (negb _); cbn; [|auto].
  constructor; [|auto]. intros Q. apply Hi. apply in_map_iff in Q. destruct Q as (x & E & Hx). apply filter_In in Hx.
  apply in_map_iff. exists x. tauto.
Qed.

Lemma array_contains_spec : forall V (s : array_schema V) p values,
  is_loaded (arr_contains s) ->
  (array_contains_bad s p values = false <->
   when (arr_contains s) (fun it => exists found,
    NoDup found /\ (forall i, In i found <-> exists v, nth_item values i v /\ accepts it (p ++ [Index i]) v)
    /\ match arr_min_contains s with Some m => m | None => 1 end <= N.of_nat (length found)
    /\ when (arr_max_contains s) (fun m => N.of_nat (length found) <= m))).
Proof.
  intros V s p values HL. unfold array_contains_bad, is_loaded in *. destruct (arr_contains s) as [it|].
  2:{ rewrite when_none. tauto. }
  rewrite when_some in *. destruct HL as [run ->]. set (l := contained run p (enumerate values)).
  rewrite orb_false_iff, N.ltb_ge.
  rewrite (when_bool _ (arr_max_contains s) _ (fun m => N.of_nat (length l) <= m)) by (intros; rewrite N.ltb_ge; reflexivity).
  split.
  - intros [H1 H2]. exists l. split; [apply contained_nodup|]. split; [apply contained_in|]. auto.
  - intros (found & HN & HI & H1 & H2).
    assert (E : length found = length l).
    { apply Nat.le_antisymm; apply NoDup_incl_length.
      - exact HN.
      - intros i Hi. apply contained_in, HI, Hi.
      - apply contained_nodup.
      - intros i Hi. apply HI, contained_in, Hi. }
    rewrite E in *. auto.
Qed.

Lemma duplicated_spec : forall V same (values : list V),
  duplicated same values = [] <->
  forall i j v w, nth_item values i v -> nth_item values j w -> i <> j -> same v w = false.
Proof.
  intros V same values. unfold duplicated, nth_item. split.
  - intros H i j v w Hi Hj Hn. destruct (same v w) eqn:E; [|reflexivity]. exfalso.
    assert (K : In w []); [|exact K]. rewrite <- H. apply in_map_iff. exists (j, w). split; [reflexivity|].
    apply filter_In. split; [apply enumerate_in; exact Hj|]. apply existsb_exists. exists (i, v).
    split; [apply enumerate_in; exact Hi|]. cbn [fst snd]. rewrite E. apply N.eqb_neq in Hn. rewrite Hn. reflexivity.
  - intros H. destruct (map snd _) as [|w l] eqn:E; [reflexivity|]. exfalso.
    assert (K : In w (w :: l)) by (left; reflexivity). rewrite <- E in K. apply in_map_iff in K.
    destruct K as ([j w'] & <- & K). apply filter_In in K. destruct K as [Hj K]. apply existsb_exists in K.
    destruct K as ([i v] & Hi & K). cbn [fst snd] in K. apply andb_true_iff in K. destruct K as [K1 K2].
    apply enumerate_in in Hi, Hj. rewrite (H i j v w' Hi Hj) in K2; [discriminate|].
    apply negb_true_iff, N.eqb_neq in K1. exact K1.
Qed.

(** The array keywords together with the adjacent [if] and applicators.  Missing from the full statement:
    [unevaluatedItems] beside applicators that evaluate items, and beside [items: true] after
    [prefixItems] (see [C40_unevaluated_items_refuted]). *)
Theorem C40_array_partial : forall V same R (s : array_schema V) p values,
  array_loaded s ->
  (arr_unevaluated_items s = Some false \/ arr_unevaluated_items_schema s <> None ->
     arr_ite s = None /\ arr_applicators s = none_beside /\ arr_additional_items s <> Some true) ->
  exists r, validate_array same R s p values = Some r
  /\ (validates r <->
       array_holds same s p values
         (fun i => exists v, validate_adjacent_applicators R (arr_applicators s) p values = Some (Ok v) /\ In i (indices v))
       /\ if_holds (arr_ite s) p values /\ applicators_hold R (arr_applicators s) p values).
Proof.
  intros V same R s p values HL HU.
  destruct (validate_array_failed V same R s p values) as (r & Hr & Hf). exists r. split; [exact Hr|].
  rewrite validates_failed, Hf, orb_false_iff, applicators_fail_spec.
  rewrite array_sizes_failed, array_values_failed.
  set (st0 := mkState false [] no_locations []).
  set (adj := fun i => exists v, validate_adjacent_applicators R (arr_applicators s) p values = Some (Ok v) /\ In i (indices v)).
  set (st1 := array_items R s p values (array_ite R s p values st0)).
  set (st2 := array_contains R s p values st1).
  assert (F2 : s_failed st2 = false <->
     (match arr_ite s with Some i => ite_fails i p values | None => false end = false
      /\ array_items_bad s p values = false /\ array_contains_bad s p values = false)).
  { unfold st2, st1. rewrite array_contains_failed, array_items_failed, array_ite_failed. cbn [s_failed st0 orb].
    rewrite !orb_false_iff. tauto. }
  assert (FI : match arr_ite s with Some i => ite_fails i p values | None => false end = false <-> if_holds (arr_ite s) p values).
  { destruct (arr_ite s) as [i|]; [apply ite_fails_spec|]. split; [|reflexivity]. intros _ i Q. discriminate. }
  assert (FU : s_failed (array_unevaluated R s p values st2) = false <->
     (s_failed st2 = false /\ forall i v, nth_item values i v -> ~ item_evaluated s p values adj i ->
        arr_unevaluated_items s <> Some false /\ when (arr_unevaluated_items_schema s) (fun it => accepts it (p ++ [Index i]) v))).
  { unfold array_unevaluated. destruct (has_unevaluated_items s) eqn:EU.
    - assert (HU' : arr_ite s = None /\ arr_applicators s = none_beside /\ arr_additional_items s <> Some true).
      { apply HU. unfold has_unevaluated_items in EU. destruct (arr_unevaluated_items_schema s); [right; discriminate|].
        destruct (arr_unevaluated_items s) as [[|]|]; try discriminate. auto. }
      destruct HU' as (U1 & U2 & U3).
      assert (EV : forall i v, nth_item values i v ->
                (mem_index i (s_evaluated st2) = true <-> item_evaluated s p values adj i)).
      { intros i v Hv. unfold st2. rewrite array_contains_evaluated by exact EU. unfold st1.
        rewrite (array_items_evaluated V R s p values _ i v) by (rewrite ?array_ite_evaluated; auto).
        rewrite orb_true_iff. destruct HL as [L1 L2 L3 L4 L5 L6 L7].
        assert (EC : match arr_contains s with Some (Resolved run) => mem_index i (contained run p (enumerate values)) | _ => false end = true
                  <-> exists it v, arr_contains s = Some it /\ nth_item values i v /\ accepts it (p ++ [Index i]) v).
        { unfold is_loaded in L5. destruct (arr_contains s) as [it|].
          - rewrite when_some in L5. destruct L5 as [run ->]. unfold mem_index. rewrite existsb_exists. split.
            + intros (j & Hj & E). apply N.eqb_eq in E. subst j. apply contained_in in Hj. destruct Hj as (w & Hw & Ha).
              exists (Resolved run), w. auto.
            + intros (it & w & [= <-] & Hw & Ha). exists i. split; [|apply N.eqb_refl]. apply contained_in. eauto.
          - split; [discriminate|]. intros (it & w & Q & _). discriminate. }
        rewrite EC. clear EC.
        assert (EI : array_items_evaluate s i = true <->
            (arr_prefix_items s = None /\ arr_items s <> None)
            \/ (exists prefix it, arr_prefix_items s = Some prefix /\ nth_item prefix i it)
            \/ (arr_prefix_items s <> None /\ (rest_schema s <> None \/ arr_additional_items s <> None))).
        { unfold array_items_evaluate, nth_item. change (overflow_item s) with (rest_schema s).
          assert (LR : is_loaded (rest_schema s)) by (unfold rest_schema; destruct (arr_additional_items_schema s); assumption).
          destruct (arr_prefix_items s) as [prefix|].
          - destruct (nth_error prefix (N.to_nat i)) as [it|] eqn:E.
            + split; [|reflexivity]. intros _. right. left. eauto.
            + unfold is_loaded in LR. destruct (rest_schema s) as [it|].
              * rewrite when_some in LR. destruct LR as [run ->]. split; [|reflexivity].
                intros _. right. right. split; [discriminate|]. left. discriminate.
              * destruct (arr_additional_items s) as [[|]|]; [congruence| |].
                -- split; [|auto]. intros _. right. right. split; [discriminate|]. right. discriminate.
                -- split; [discriminate|]. intros [[Q _]|[(pr & it & [= <-] & Q)|[_ [Q|Q]]]]; congruence.
          - unfold is_loaded in L1. destruct (arr_items s) as [it|].
            + rewrite when_some in L1. destruct L1 as [run ->]. split; [|reflexivity]. intros _. left. split; [reflexivity|discriminate].
            + split; [discriminate|]. intros [[_ Q]|[(pr & it & Q & _)|[Q _]]]; congruence. }
        rewrite EI. split.
        - intros [[[H1 H2]|[(pr & it & H1 & H2)|[H1 H2]]]|(it & w & H1 & H2 & H3)].
          + apply by_items; assumption.
          + eapply by_prefix; eassumption.
          + apply by_rest; assumption.
          + eapply by_contains; eassumption.
        - intros [H1 H2|pr it H1 H2|H1 H2|it w H1 H2 H3|(w & Hw & Hi)].
          + left. left. auto.
          + left. right. left. eauto.
          + left. right. right. auto.
          + right. eauto.
          + rewrite U2 in Hw. cbn in Hw. injection Hw as <-. contradiction. }
      assert (EV' : forall i v, nth_item values i v ->
                (mem_index i (s_evaluated st2) = false <-> ~ item_evaluated s p values adj i)).
      { intros i v Hv. rewrite <- (EV i v Hv). destruct (mem_index i (s_evaluated st2)); intuition congruence. }
      pose proof (resolve_once_run V R (arr_unevaluated_items_schema s)) as K.
      destruct (resolve_once R (arr_unevaluated_items_schema s)) as [schema ds]. cbn [fst] in K.
      rewrite unevaluated_fold by apply enumerate_nodup. cbn [s_failed s_evaluated add_diags].
      rewrite orb_false_iff, existsb_false_in. apply and_iff_compat_l.
      pose proof (al_unevaluated s HL) as L4. pose proof (al_unevaluated_bool s HL) as L7.
      assert (KS : forall i v,
         (match schema with Some run => failed (run (p ++ [Index i]) v)
          | None => match arr_unevaluated_items s with Some false => true | _ => false end end = false)
         <-> arr_unevaluated_items s <> Some false /\ when (arr_unevaluated_items_schema s) (fun it => accepts it (p ++ [Index i]) v)).
      { intros i v. unfold is_loaded in L4. subst schema. destruct (arr_unevaluated_items_schema s) as [it|].
        - rewrite when_some in *. destruct L4 as [run ->]. rewrite accepts_loaded.
          split; [|tauto]. intros H. split; [apply L7; discriminate|exact H].
        - rewrite when_none. destruct (arr_unevaluated_items s) as [[|]|]; intuition congruence. }
      split.
      + intros H i v Hv Hn. apply KS. specialize (H (i, v)). rewrite enumerate_in in H. specialize (H Hv). cbn [fst snd] in H.
        rewrite (proj2 (EV' i v Hv) Hn) in H. exact H.
      + intros H [i v] Hi. apply enumerate_in in Hi. cbn [fst snd].
        destruct (mem_index i (s_evaluated st2)) eqn:E; [reflexivity|]. cbn [negb andb].
        apply KS. apply H; [exact Hi|]. apply (EV' i v Hi). exact E.
    - split; [|tauto]. intros H. split; [exact H|]. intros i v _ _. unfold has_unevaluated_items in EU.
      destruct (arr_unevaluated_items_schema s); [discriminate|]. rewrite when_none.
      destruct (arr_unevaluated_items s) as [[|]|]; [|discriminate|]; (split; [congruence|exact I]). }
  rewrite !orb_false_iff, FU, F2, FI.
  rewrite array_items_spec by exact HL. rewrite array_contains_spec by apply HL.
  rewrite (when_bool _ (arr_const s) _ (fun f => f values = true)) by (intros; apply negb_false_iff).
  assert (EE : match arr_enum s with Some (f, _) => negb (f values) | None => false end = false
               <-> when (arr_enum s) (fun f => fst f values = true)).
  { destruct (arr_enum s) as [[f b]|]; [rewrite when_some; apply negb_false_iff|rewrite when_none; tauto]. }
  rewrite EE.
  rewrite (when_bool _ (arr_max_items s) _ (fun m => N.of_nat (length values) <= m)) by (intros; apply N.ltb_ge).
  rewrite (when_bool _ (arr_min_items s) _ (fun m => m <= N.of_nat (length values))) by (intros; apply N.ltb_ge).
  assert (EQ : match arr_unique_items s with Some true => negb (is_nil (duplicated same values)) | _ => false end = false
     <-> (arr_unique_items s = Some true ->
          forall i j v w, nth_item values i v -> nth_item values j w -> i <> j -> same v w = false)).
  { destruct (arr_unique_items s) as [[|]|]; [|split; [intros _ Q; discriminate|reflexivity]|split; [intros _ Q; discriminate|reflexivity]].
    rewrite negb_false_iff. rewrite <- duplicated_spec. destruct (duplicated same values); cbn; intuition congruence. }
  rewrite EQ. split.
  - intros [[[[[[[(H1 & (H2 & H3 & H4) & H5) H6] H7] H8] H9] H10] H11] H12].
    split; [constructor; assumption|]. split; assumption.
  - intros [[H1 H2 H3 H4 H5 H6 H7 H8 H9 H10] [H11 H12]]. tauto.
Qed.
Print Assumptions C40_array_partial.

(** [{"prefixItems": [{}], "items": true, "unevaluatedItems": false}] rejects [[1, 2]] although [items]
    evaluates the second item; [{"allOf": [{"items": {}}], "unevaluatedItems": false}] rejects [[1]] although
    the [allOf] member evaluates it. *)
Definition all_items : item (list nat) :=
  Resolved (fun _ l => Ok (mkValid [] (map fst (enumerate l)) no_evidence)).
Definition all_of_items : applicators (list nat) :=
  mkApplicators None None (Some (mkComposite (Some ([mkSub false (fun _ l => Ok (mkValid [] (map fst (enumerate l)) no_evidence))], 0%nat)) None None false)) None.
Theorem C40_unevaluated_items_refuted :
  (exists s : array_schema nat, array_loaded s
     /\ array_holds Nat.eqb s [] [1; 2]%nat (fun _ => False) /\ arr_ite s = None /\ arr_applicators s = none_beside
     /\ exists r, validate_array Nat.eqb default_rules s [] [1; 2]%nat = Some r /\ ~ validates r)
  /\ (exists s : array_schema nat, array_loaded s
     /\ array_holds Nat.eqb s [] [1]%nat
          (fun i => exists v, validate_adjacent_applicators default_rules (arr_applicators s) [] [1]%nat = Some (Ok v) /\ In i (indices v))
     /\ arr_ite s = None /\ applicators_hold default_rules (arr_applicators s) [] [1]%nat
     /\ exists r, validate_array Nat.eqb default_rules s [] [1]%nat = Some r /\ ~ validates r).
Proof.
  split.
  - exists (mkArraySchema None (Some [Resolved yes]) (Some true) None (Some false) None None None None None None None None None false None none_beside).
    split; [|split; [|split; [reflexivity|split; [reflexivity|]]]].
    + constructor; unfold is_loaded; cbn; try (apply when_none; exact I); try congruence.
      apply when_some. constructor; [eauto|constructor].
    + constructor; cbn; try (apply when_none; exact I); try discriminate.
      * intros prefix [= <-] i v it _ Hi. unfold nth_item in Hi. destruct (N.to_nat i) as [|[|n]]; try discriminate.
        injection Hi as <-. exact I.
      * intros prefix _ i v _ _. split; [discriminate|]. apply when_none. exact I.
      * intros i v _ H. exfalso. apply H. apply by_rest; cbn; [discriminate|]. right. discriminate.
    + eexists. split; [vm_compute; reflexivity|]. cbn. discriminate.
  - exists (mkArraySchema None None None None (Some false) None None None None None None None None None false None all_of_items).
    split; [|split; [|split; [reflexivity|split]]].
    + constructor; unfold is_loaded; cbn; try (apply when_none; exact I); congruence.
    + constructor; cbn [arr_items arr_prefix_items arr_contains arr_const arr_enum arr_max_items arr_min_items arr_unique_items
        arr_unevaluated_items arr_unevaluated_items_schema]; try (apply when_none; exact I); try discriminate.
      intros i v Hi H. exfalso. apply H. apply by_adjacent. eexists. split; [vm_compute; reflexivity|].
      unfold nth_item in Hi. destruct (N.to_nat i) as [|[|n]] eqn:E; try discriminate. left. lia.
    + split; [|split; [|split]]; cbn; try (apply when_none; exact I).
      * apply when_some. vm_compute. exact I.
    + eexists. split; [vm_compute; reflexivity|]. cbn. discriminate.
Qed.
Print Assumptions C40_unevaluated_items_refuted.

(** A tuple schema with a rest schema, [contains], bounds and [uniqueItems]. *)
Definition even_item : item nat :=
  Resolved (fun p n => if Nat.even n then yes p n else no p n).
Example C40_example :
  let s := mkArraySchema (Some even_item) (Some [Resolved yes]) None None None None (Some (Resolved yes)) (Some 2) (Some 3)
             None (Some 3) (Some true) None None false None none_beside in
  array_loaded s
  /\ (arr_unevaluated_items s = Some false \/ arr_unevaluated_items_schema s <> None ->
      arr_ite s = None /\ arr_applicators s = none_beside /\ arr_additional_items s <> Some true)
  /\ (exists r, validate_array Nat.eqb default_rules s [] [1; 4; 6]%nat = Some r /\ validates r)
  /\ (exists r, validate_array Nat.eqb default_rules s [] [1; 4; 5]%nat = Some r /\ ~ validates r)
  /\ (exists r, validate_array Nat.eqb default_rules s [] [4; 4]%nat = Some r /\ ~ validates r)
  /\ (exists r, validate_array Nat.eqb default_rules s [] [4]%nat = Some r /\ ~ validates r).
Proof.
  split; [|split].
  - constructor; unfold is_loaded, even_item; cbn; try (apply when_none; exact I); try congruence; apply when_some; eauto.
  - cbn. intros [Q|Q]; congruence.
  - repeat split; (eexists; split; [vm_compute; reflexivity|]); cbn; (exact I || discriminate).
Qed.

(** An unevaluated item. *)
Example C40_unevaluated_example :
  let s := mkArraySchema None (Some [even_item]) None None (Some false) None (Some even_item) None None
             None None None None None false None none_beside in
  array_loaded s
  /\ arr_ite s = None /\ arr_applicators s = none_beside /\ arr_additional_items s <> Some true
  /\ (exists r, validate_array Nat.eqb default_rules s [] [2; 4]%nat = Some r /\ validates r)
  /\ (exists r, validate_array Nat.eqb default_rules s [] [2; 5]%nat = Some r /\ ~ validates r).
Proof.
  split.
  - constructor; unfold is_loaded, even_item; cbn; try (apply when_none; exact I); try congruence; apply when_some; eauto.
  - repeat split; try discriminate; (eexists; split; [vm_compute; reflexivity|]); cbn; (exact I || discriminate).
Qed.

(** ** Specification: tables *)

(** [properties] or [patternProperties] names the key. *)
Definition declared {V} (s : table_schema V) (k : str) : Prop :=
  (exists it, In (k, it) (tbl_properties s))
  \/ exists ps f it, tbl_patterns s = Some ps /\ In (Some f, it) ps /\ f k = true.

(** JSON Schema core 10.2.2.4, 10.3.2 and 11.3, validation 6.1 and 6.5; [strict] is Tombi's reading of an
    absent [additionalProperties] beside [patternProperties]. *)
Record table_holds {V} (strict : bool) (s : table_schema V) (p : path) (t : table V) (adjacent : str -> Prop) : Prop := {
  th_properties : forall k v it, In (k, v) t -> In (k, it) (tbl_properties s) -> accepts it (p ++ [Key k]) v;
  th_patterns : forall k v ps f it, In (k, v) t -> tbl_patterns s = Some ps -> In (Some f, it) ps -> f k = true ->
    accepts it (p ++ [Key k]) v;
  th_additional : forall k v, In (k, v) t -> ~ declared s k ->
    tbl_additional s <> Some false
    /\ when (tbl_additional_schema s) (fun i => accepts (fst i) (p ++ [Key k]) v)
    /\ (strict = true -> tbl_additional s = None -> tbl_patterns s = None);
  th_unevaluated : forall k v, In (k, v) t -> ~ declared s k -> tbl_additional s = None -> ~ adjacent k ->
    tbl_unevaluated s <> Some false /\ when (tbl_unevaluated_schema s) (fun i => accepts i (p ++ [Key k]) v);
  th_names : when (tbl_property_names s) (fun i => forall k v, In (k, v) t -> accepts i p k);
  th_required : when (tbl_required s) (fun l => forall k, In k l -> In k (map fst t));
  th_dependencies : when (tbl_dependencies s) (fun deps => forall k d, In (k, d) deps -> In k (map fst t) ->
    match d with DependsOn l => forall k', In k' l -> In k' (map fst t) | DependsSchema i => accepts (t_item i) p t end);
  th_dependent_required : when (tbl_dependent_required s) (fun deps => forall k l, In (k, l) deps -> In k (map fst t) ->
    forall k', In k' l -> In k' (map fst t));
  th_dependent_schemas : when (tbl_dependent_schemas s) (fun deps => forall k i, In (k, i) deps -> In k (map fst t) ->
    accepts (t_item i) p t);
  th_max : when (tbl_max s) (fun m => N.of_nat (length t) <= m);
  th_min : when (tbl_min s) (fun m => m <= N.of_nat (length t));
  th_const : when (tbl_const s) (fun f => f t = true);
  th_enum : when (tbl_enum s) (fun f => fst f t = true) }.

Definition loaded {T} (i : item T) : Prop := exists run, i = Resolved run.
Record table_loaded {V} (s : table_schema V) : Prop := {
  tl_distinct : NoDup (map fst (tbl_properties s));
  tl_properties : forall k it, In (k, it) (tbl_properties s) -> loaded it;
  tl_patterns : when (tbl_patterns s) (fun ps => forall f it, In (f, it) ps -> loaded it);
  tl_additional : when (tbl_additional_schema s) (fun i => loaded (fst i));
  tl_unevaluated : is_loaded (tbl_unevaluated_schema s);
  tl_names : is_loaded (tbl_property_names s);
  tl_dependencies : when (tbl_dependencies s) (fun deps => forall k i, In (k, DependsSchema i) deps -> loaded (t_item i));
  tl_dependent_schemas : when (tbl_dependent_schemas s) (fun deps => forall k i, In (k, i) deps -> loaded (t_item i));
  (* table_schema.rs: a keyword whose value is a schema is recorded as allowed *)
  tl_additional_bool : tbl_additional_schema s <> None -> tbl_additional s = Some true;
  tl_unevaluated_bool : tbl_unevaluated_schema s <> None -> tbl_unevaluated s = Some true }.

(** ** C41 *)

Lemma mem_key_in : forall k l, mem_key k l = true <-> In k l.
Proof. intros. unfold mem_key. apply existsb_str_eqb. Qed.
Lemma mem_key_not_in : forall k l, negb (mem_key k l) = false <-> In k l.
Proof. intros. rewrite negb_false_iff. apply mem_key_in. Qed.

Lemma find_property_in : forall X k (l : list (str * X)) x,
  NoDup (map fst l) -> (find_property k l = Some x <-> In (k, x) l).
Proof.
  intros X k l x. induction l as [|[k' y] l IH]; intros HN; cbn [find_property In]; [split; [discriminate|contradiction]|].
  cbn in HN. inversion HN as [|? ? H1 H2]; subst. destruct (str_eqb k k') eqn:E.
  - apply str_eqb_eq in E. subst k'. split.
    + intros [= <-]. auto.
    + intros [[= <-]|H]; [reflexivity|]. exfalso. apply H1. apply in_map_iff. exists (k, x). auto.
  - rewrite (IH H2). split; [auto|]. intros [[= <- <-]|H]; [|exact H]. rewrite str_eqb_refl in E. discriminate.
Qed.

Lemma declared_items_in : forall V (s : table_schema V) k it,
  NoDup (map fst (tbl_properties s)) ->
  (In it (declared_items s k) <->
   In (k, it) (tbl_properties s) \/ exists ps f, tbl_patterns s = Some ps /\ In (Some f, it) ps /\ f k = true).
Proof.
  intros V s k it HN. unfold declared_items, matching_patterns. rewrite in_app_iff.
  assert (H1 : In it match find_property k (tbl_properties s) with Some i => [i] | None => [] end <-> In (k, it) (tbl_properties s)).
  { rewrite <- (find_property_in _ k _ it HN). destruct (find_property k (tbl_properties s)); cbn; intuition congruence. }
  rewrite H1. apply or_iff_compat_l. destruct (tbl_patterns s) as [ps|].
  - rewrite in_map_iff. split.
    + intros ([f it'] & E & H). cbn in E. subst it'. apply filter_In in H. destruct H as [H2 H3]. cbn in H3.
      destruct f as [f|]; [|discriminate]. eauto.
    + intros (ps' & f & [= <-] & H2 & H3). exists (Some f, it). split; [reflexivity|]. apply filter_In. auto.
  - split; [contradiction|]. intros (ps & f & Q & _). discriminate.
Qed.

Lemma declared_spec : forall V (s : table_schema V) k,
  NoDup (map fst (tbl_properties s)) -> (is_nil (declared_items s k) = true <-> ~ declared s k).
Proof.
  intros V s k HN. assert (H : declared s k <-> exists it, In it (declared_items s k)).
  { unfold declared. split.
    - intros [[it H]|(ps & f & it & H)]; exists it; apply declared_items_in; eauto.
    - intros [it H]. apply declared_items_in in H; [|exact HN]. destruct H as [H|(ps & f & H)]; [left|right]; eauto 6. }
  rewrite H. destruct (declared_items s k) as [|i l]; cbn.
  - split; [|reflexivity]. intros _ [it []].
  - split; [discriminate|]. intros Q. exfalso. apply Q. exists i. auto.
Qed.

Lemma item_fails_loaded : forall T (i : item T) p x, loaded i -> (item_fails (Some i) p x = false <-> accepts i p x).
Proof. intros T i p x [run ->]. apply accepts_loaded. Qed.

(** What marks an undeclared key as evaluated when no dependency keyword is present. *)
Lemma collect_undeclared : forall V (s : table_schema V) t k v,
  In (k, v) t -> is_nil (declared_items s k) = true ->
  tbl_dependencies s = None -> tbl_dependent_required s = None -> tbl_dependent_schemas s = None ->
  (In k (collect_evaluated s t) <->
   tbl_additional s <> None \/ In k (tbl_collect_adjacent s t)
   \/ (tbl_unevaluated_schema s = None /\ tbl_unevaluated s = Some true)).
Proof.
  intros V s t k v Hk HD D1 D2 D3. unfold collect_evaluated. rewrite D1, D2, D3. cbn [app]. rewrite !in_app_iff.
  assert (E : is_some (find_property k (tbl_properties s)) || negb (is_nil (matching_patterns s k)) = false).
  { unfold declared_items in HD. destruct (find_property k (tbl_properties s)); [discriminate|]. cbn in *. rewrite HD. reflexivity. }
  assert (N1 : ~ In k (map fst (tbl_properties s))).
  { intros Q. apply orb_false_iff in E. destruct E as [E _]. clear -E Q. induction (tbl_properties s) as [|[k' x] l IH]; [contradiction|].
    cbn in *. destruct (str_eqb k k') eqn:K; [discriminate|]. destruct Q as [->|Q]; [rewrite str_eqb_refl in K; discriminate|auto]. }
  assert (N2 : ~ In k (flat_map (fun kv => if is_some (find_property (fst kv) (tbl_properties s)) || negb (is_nil (matching_patterns s (fst kv)))
                         then [fst kv] else []) t)).
  { intros Q. apply in_flat_map in Q. destruct Q as ([k' v'] & _ & Q). cbn [fst] in Q.
    destruct (_ || _) eqn:E' in Q; [|contradiction]. destruct Q as [<-|[]]. congruence. }
  assert (N3 : In k (if is_some (tbl_additional s)
      then flat_map (fun kv => if is_some (find_property (fst kv) (tbl_properties s))
                                  || negb (is_nil (matching_patterns s (fst kv)))
                               then [] else [fst kv]) t
      else []) <-> tbl_additional s <> None).
  { destruct (tbl_additional s) as [b|]; cbn [is_some]; [|cbn; intuition congruence]. split; [discriminate|]. intros _.
    apply in_flat_map. exists (k, v). split; [exact Hk|]. cbn [fst]. rewrite E. left. reflexivity. }
  assert (N4 : In k match tbl_unevaluated_schema s, tbl_unevaluated s with None, Some true => map fst t | _, _ => [] end
     <-> tbl_unevaluated_schema s = None /\ tbl_unevaluated s = Some true).
  { destruct (tbl_unevaluated_schema s), (tbl_unevaluated s) as [[|]|]; cbn; try (intuition congruence).
    split; [auto|]. intros _. apply in_map_iff. exists (k, v). auto. }
  rewrite N3, N4. tauto.
Qed.

(** The table keywords together with the adjacent [if] and applicators.  Missing from the full statement:
    [unevaluatedProperties] beside [dependencies], [dependentRequired] or [dependentSchemas] (see
    [C41_unevaluated_properties_refuted]); and [tbl_collect_adjacent], the keys the code finds through
    adjacent applicators, is taken as given. *)
Theorem C41_table_partial : forall V R strict (s : table_schema V) p t,
  table_loaded s ->
  (tbl_unevaluated s = Some false \/ tbl_unevaluated_schema s <> None ->
     tbl_dependencies s = None /\ tbl_dependent_required s = None /\ tbl_dependent_schemas s = None) ->
  exists r, validate_table R strict s p t = Some r
  /\ (validates r <->
       table_holds strict s p t (fun k => In k (tbl_collect_adjacent s t))
       /\ if_holds (tbl_ite s) p t /\ applicators_hold R (tbl_applicators s) p t).
Proof.
  intros V R strict s p t HL HU.
  destruct (validate_table_failed V R strict s p t) as (r & Hr & Hf). exists r. split; [exact Hr|].
  rewrite validates_failed, Hf, !orb_false_iff, applicators_fail_spec.
  rewrite table_names_failed, table_values_failed, table_dependent_schemas_failed, table_dependent_required_failed,
    table_dependencies_failed, table_sizes_failed, table_required_failed.
  rewrite (fold_failed _ _ _ _ _ (entry_step_failed V R strict s (collect_evaluated s t) p)).
  cbn [s_failed orb]. rewrite !orb_false_iff.
  assert (FI : match tbl_ite s with Some i => ite_fails i p t | None => false end = false <-> if_holds (tbl_ite s) p t).
  { destruct (tbl_ite s) as [i|]; [apply ite_fails_spec|]. split; [|reflexivity]. intros _ i Q. discriminate. }
  assert (FE : existsb (entry_bad strict s (collect_evaluated s t) p) t = false <->
     (forall k v it, In (k, v) t -> In (k, it) (tbl_properties s) -> accepts it (p ++ [Key k]) v)
     /\ (forall k v ps f it, In (k, v) t -> tbl_patterns s = Some ps -> In (Some f, it) ps -> f k = true -> accepts it (p ++ [Key k]) v)
     /\ (forall k v, In (k, v) t -> ~ declared s k ->
          (tbl_additional s <> Some false /\ when (tbl_additional_schema s) (fun i => accepts (fst i) (p ++ [Key k]) v)
           /\ (strict = true -> tbl_additional s = None -> tbl_patterns s = None))
          /\ (tbl_additional s = None -> ~ In k (tbl_collect_adjacent s t) ->
              tbl_unevaluated s <> Some false /\ when (tbl_unevaluated_schema s) (fun i => accepts i (p ++ [Key k]) v)))).
  { assert (DA : forall k v, existsb (fun i => item_fails (Some i) (p ++ [Key k]) v) (declared_items s k) = false <->
       (forall it, In (k, it) (tbl_properties s) -> accepts it (p ++ [Key k]) v)
       /\ (forall ps f it, tbl_patterns s = Some ps -> In (Some f, it) ps -> f k = true -> accepts it (p ++ [Key k]) v)).
    { intros k v. rewrite existsb_false_in. destruct HL as [L1 L2 L3 L4 L5 L6 L7 L8 L9 L10]. split.
      - intros H. split.
        + intros it Hi. apply item_fails_loaded; [eauto|]. apply H. apply declared_items_in; auto.
        + intros ps f it Hp Hi Hk. apply item_fails_loaded; [eapply L3; eassumption|]. apply H. apply declared_items_in; [auto|]. right. eauto.
      - intros [H1 H2] it Hi. apply declared_items_in in Hi; [|exact L1]. destruct Hi as [Hi|(ps & f & Hp & Hi & Hk)].
        + apply item_fails_loaded; eauto.
        + apply item_fails_loaded; [eapply L3; eassumption|eauto]. }
    assert (UA : forall k v, In (k, v) t -> is_nil (declared_items s k) = true ->
       (is_some (tbl_patterns s) && negb (allows_additional s strict)
          || unmatched_bad strict s (mem_key k (collect_evaluated s t)) (p ++ [Key k]) v = false <->
        (tbl_additional s <> Some false /\ when (tbl_additional_schema s) (fun i => accepts (fst i) (p ++ [Key k]) v)
           /\ (strict = true -> tbl_additional s = None -> tbl_patterns s = None))
          /\ (tbl_additional s = None -> ~ In k (tbl_collect_adjacent s t) ->
              tbl_unevaluated s <> Some false /\ when (tbl_unevaluated_schema s) (fun i => accepts i (p ++ [Key k]) v)))).
    { intros k v Hk HD. destruct HL as [L1 L2 L3 L4 L5 L6 L7 L8 L9 L10].
      set (ev := mem_key k (collect_evaluated s t)).
      assert (EV : (tbl_unevaluated s = Some false \/ tbl_unevaluated_schema s <> None) -> tbl_additional s = None ->
                   (ev = false <-> ~ In k (tbl_collect_adjacent s t))).
      { intros U A. destruct (HU U) as (D1 & D2 & D3).
        pose proof (collect_undeclared V s t k v Hk HD D1 D2 D3) as C. rewrite <- mem_key_in in C. fold ev in C.
        assert (X : ~ (tbl_unevaluated_schema s = None /\ tbl_unevaluated s = Some true)) by (intros [X1 X2]; destruct U; congruence).
        destruct ev; [|intuition congruence].
        split; [discriminate|]. intros Q. exfalso. destruct (proj1 C eq_refl) as [C1|[C1|C1]]; tauto. }
      clearbody ev. unfold unmatched_bad, rest_bad, strict_violation, allows_any_additional, allows_additional, is_loaded in *.
      destruct (tbl_additional_schema s) as [[i d]|].
      - assert (A : tbl_additional s = Some true) by (apply L9; discriminate). rewrite A in *. clear L9 EV.
        rewrite when_some in *. cbn [fst] in *. destruct L4 as [run ->]. cbn [option_map fst item_fails is_some is_false negb andb orb].
        rewrite !andb_false_r. cbn [orb]. rewrite orb_false_r. rewrite accepts_loaded. split.
        + intros H. split; [split; [discriminate|]|discriminate]. split; [exact H|discriminate].
        + intros [(_ & H & _) _]. exact H.
      - rewrite !when_none. cbn [option_map item_fails orb negb]. rewrite andb_true_r.
        destruct (tbl_additional s) as [[|]|]; cbn [is_some is_false negb andb orb].
        + rewrite !andb_false_r. cbn. split; [|reflexivity]. intros _. split; [split; [discriminate|split; [exact I|discriminate]]|discriminate].
        + rewrite !andb_false_r, !andb_true_r. cbn [negb andb orb]. split; [|intros [[Q _] _]; congruence].
          intros H. destruct (is_some (tbl_patterns s)); cbn in H; discriminate H.
        + rewrite !andb_true_r.
          assert (RB : forall st : bool, is_some (tbl_patterns s) && negb (negb st)
             || negb ev && negb (st && negb (is_some (tbl_patterns s))) && negb (negb st || is_some (tbl_patterns s))
             = st && is_some (tbl_patterns s)).
          { intros []; destruct (is_some (tbl_patterns s)), ev; reflexivity. }
          assert (SP : strict && is_some (tbl_patterns s) = false <-> (strict = true -> @None bool = None -> tbl_patterns s = None)).
          { destruct strict, (tbl_patterns s); cbn; intuition congruence. }
          destruct ev eqn:EE; cbn [negb andb] in *.
          * rewrite RB, SP. split; [|tauto]. intros H. split; [split; [discriminate|tauto]|]. intros _ Q.
            destruct (tbl_unevaluated_schema s) as [i|].
            -- exfalso. assert (X : true = false) by (apply EV; [right; discriminate|reflexivity|exact Q]). discriminate.
            -- rewrite when_none. split; [|exact I]. intros U.
               assert (X : true = false) by (apply EV; [auto|reflexivity|exact Q]). discriminate.
          * destruct (tbl_unevaluated_schema s) as [i|].
            -- rewrite when_some in *. destruct L5 as [run ->]. rewrite L10 by discriminate.
               assert (NA : ~ In k (tbl_collect_adjacent s t)) by (apply EV; auto; right; discriminate).
               rewrite orb_false_iff, accepts_loaded, negb_involutive, andb_comm, SP. split.
               ++ intros [H1 H2]. split; [split; [discriminate|tauto]|]. intros _ _. split; [discriminate|exact H2].
               ++ intros [(_ & _ & H1) H2]. split; [exact H1|]. apply H2; auto.
            -- rewrite when_none. destruct (tbl_unevaluated s) as [[|]|]; cbn [is_false orb].
               ++ rewrite RB, SP. split; [|tauto]. intros H. split; [split; [discriminate|tauto]|]. split; [discriminate|exact I].
               ++ assert (NA : ~ In k (tbl_collect_adjacent s t)) by (apply EV; auto).
                  rewrite orb_true_r. split; [discriminate|]. intros [_ H]. destruct (H eq_refl NA) as [Q _]. congruence.
               ++ rewrite RB, SP. split; [|tauto]. intros H. split; [split; [discriminate|tauto]|]. split; [discriminate|exact I]. }
    rewrite existsb_false_in. unfold entry_bad. split.
    - intros H. split; [|split].
      + intros k v it Hk Hi. specialize (H (k, v) Hk). cbv beta iota in H.
        assert (ND : is_nil (declared_items s k) = false).
        { destruct (is_nil (declared_items s k)) eqn:E; [|reflexivity]. apply declared_spec in E; [|apply HL].
          exfalso. apply E. left. eauto. }
        rewrite ND in H. apply DA in H. destruct H as [H _]. auto.
      + intros k v ps f it Hk Hp Hi Hf'. specialize (H (k, v) Hk). cbv beta iota in H.
        assert (ND : is_nil (declared_items s k) = false).
        { destruct (is_nil (declared_items s k)) eqn:E; [|reflexivity]. apply declared_spec in E; [|apply HL].
          exfalso. apply E. right. eauto 8. }
        rewrite ND in H. apply DA in H. destruct H as [_ H]. eauto.
      + intros k v Hk HD. apply declared_spec in HD; [|apply HL]. specialize (H (k, v) Hk). cbv beta iota in H.
        rewrite HD in H. apply UA in H; assumption.
    - intros (H1 & H2 & H3) [k v] Hk. destruct (is_nil (declared_items s k)) eqn:E.
      + apply UA; auto. apply H3; auto. apply declared_spec; [apply HL|exact E].
      + apply DA. split; [intros; eauto|intros; eauto]. }
  rewrite FE, FI.
  assert (F1 : match tbl_required s with Some l => existsb (fun k => negb (mem_key k (map fst t))) l | None => false end = false
     <-> when (tbl_required s) (fun l => forall k, In k l -> In k (map fst t))).
  { apply when_bool. intros l. rewrite existsb_false_in. split; intros H k Hk; apply mem_key_not_in; auto. }
  assert (F2 : match tbl_dependencies s with
      | Some deps => existsb (fun kd => mem_key (fst kd) (map fst t) &&
            match snd kd with
            | DependsOn l => existsb (fun k => negb (mem_key k (map fst t))) l
            | DependsSchema i => item_fails (Some (t_item i)) p t
            end) deps
      | None => false
      end = false <-> when (tbl_dependencies s) (fun deps => forall k d, In (k, d) deps -> In k (map fst t) ->
    match d with DependsOn l => forall k', In k' l -> In k' (map fst t) | DependsSchema i => accepts (t_item i) p t end)).
  { pose proof (tl_dependencies s HL) as L. destruct (tbl_dependencies s) as [deps|]; [|rewrite when_none; tauto].
    rewrite when_some in *. rewrite existsb_false_in. split.
    - intros H k d Hi Hk. specialize (H (k, d) Hi). cbn [fst snd] in H. apply mem_key_in in Hk. rewrite Hk in H. cbn [andb] in H.
      destruct d as [l|i].
      + intros k' Hk'. rewrite existsb_false_in in H. apply mem_key_not_in. auto.
      + apply item_fails_loaded; eauto.
    - intros H [k d] Hi. cbn [fst snd]. destruct (mem_key k (map fst t)) eqn:E; [|reflexivity]. apply mem_key_in in E.
      specialize (H k d Hi E). destruct d as [l|i]; cbn [andb].
      + apply existsb_false_in. intros k' Hk'. apply mem_key_not_in. auto.
      + apply item_fails_loaded; eauto. }
  assert (F3 : match tbl_dependent_required s with
      | Some deps => existsb (fun kd => mem_key (fst kd) (map fst t) && existsb (fun k => negb (mem_key k (map fst t))) (snd kd)) deps
      | None => false
      end = false <-> when (tbl_dependent_required s) (fun deps => forall k l, In (k, l) deps -> In k (map fst t) ->
    forall k', In k' l -> In k' (map fst t))).
  { apply when_bool. intros deps. rewrite existsb_false_in. split.
    - intros H k l Hi Hk k' Hk'. specialize (H (k, l) Hi). cbn [fst snd] in H. apply mem_key_in in Hk. rewrite Hk in H. cbn [andb] in H.
      rewrite existsb_false_in in H. apply mem_key_not_in. auto.
    - intros H [k l] Hi. cbn [fst snd]. destruct (mem_key k (map fst t)) eqn:E; [|reflexivity]. apply mem_key_in in E. cbn [andb].
      apply existsb_false_in. intros k' Hk'. apply mem_key_not_in. eauto. }
  assert (F4 : match tbl_dependent_schemas s with
      | Some deps => existsb (fun kd => mem_key (fst kd) (map fst t) && item_fails (Some (t_item (snd kd))) p t) deps
      | None => false
      end = false <-> when (tbl_dependent_schemas s) (fun deps => forall k i, In (k, i) deps -> In k (map fst t) -> accepts (t_item i) p t)).
  { pose proof (tl_dependent_schemas s HL) as L. destruct (tbl_dependent_schemas s) as [deps|]; [|rewrite when_none; tauto].
    rewrite when_some in *. rewrite existsb_false_in. split.
    - intros H k i Hi Hk. specialize (H (k, i) Hi). cbn [fst snd] in H. apply mem_key_in in Hk. rewrite Hk in H. cbn [andb] in H.
      apply item_fails_loaded; eauto.
    - intros H [k i] Hi. cbn [fst snd]. destruct (mem_key k (map fst t)) eqn:E; [|reflexivity]. apply mem_key_in in E. cbn [andb].
      apply item_fails_loaded; eauto. }
  assert (F5 : match tbl_property_names s with
      | Some (Resolved run) => existsb (fun k => failed (run p k)) (map fst t)
      | _ => false
      end = false <-> when (tbl_property_names s) (fun i => forall k v, In (k, v) t -> accepts i p k)).
  { pose proof (tl_names s HL) as L. unfold is_loaded in L. destruct (tbl_property_names s) as [i|]; [|rewrite when_none; tauto].
    rewrite when_some in *. destruct L as [run ->]. rewrite existsb_false_in. split.
    - intros H k v Hk. apply accepts_loaded. apply H. apply in_map_iff. exists (k, v). auto.
    - intros H k Hk. apply in_map_iff in Hk. destruct Hk as ([k' v] & <- & Hk). apply accepts_loaded. eapply H. exact Hk. }
  rewrite (when_bool _ (tbl_const s) _ (fun f => f t = true)) by (intros; apply negb_false_iff).
  assert (F6 : match tbl_enum s with Some (f, _) => negb (f t) | None => false end = false
               <-> when (tbl_enum s) (fun f => fst f t = true)).
  { destruct (tbl_enum s) as [[f b]|]; [rewrite when_some; apply negb_false_iff|rewrite when_none; tauto]. }
  rewrite (when_bool _ (tbl_max s) _ (fun m => N.of_nat (length t) <= m)) by (intros; apply N.ltb_ge).
  rewrite (when_bool _ (tbl_min s) _ (fun m => m <= N.of_nat (length t))) by (intros; apply N.ltb_ge).
  rewrite F1, F2, F3, F4, F5, F6.
  split.
  - intros H. split; [|tauto]. clear - H. repeat match goal with K : _ /\ _ |- _ => destruct K end.
    constructor; try assumption; match goal with C : forall k v, In (k, v) t -> ~ declared s k -> _ |- _ => intros k v Hk Hd; apply (C k v Hk Hd) end.
  - intros [[A B C D E1 E2 E3 E4 E5 E6 E7 E8 E9] HR].
    assert (X : forall k v, In (k, v) t -> ~ declared s k ->
          (tbl_additional s <> Some false /\ when (tbl_additional_schema s) (fun i => accepts (fst i) (p ++ [Key k]) v)
           /\ (strict = true -> tbl_additional s = None -> tbl_patterns s = None))
          /\ (tbl_additional s = None -> ~ In k (tbl_collect_adjacent s t) ->
              tbl_unevaluated s <> Some false /\ when (tbl_unevaluated_schema s) (fun i => accepts i (p ++ [Key k]) v))).
    { intros k v Hk Hd. split; [apply C; assumption|]. intros; eapply D; eauto. }
    tauto.
Qed.
Print Assumptions C41_table_partial.

(** [{"dependentRequired": {"a": ["b"]}, "unevaluatedProperties": false}] accepts [b = 1]: the keyword's keys
    count as evaluated even when its trigger is absent. *)
Theorem C41_unevaluated_properties_refuted :
  exists (s : table_schema nat) r,
    table_loaded s
    /\ ~ table_holds false s [] [(lit "b", 1%nat)] (fun k => In k (tbl_collect_adjacent s [(lit "b", 1%nat)]))
    /\ validate_table default_rules false s [] [(lit "b", 1%nat)] = Some r /\ validates r.
Proof.
  exists (mkTableSchema [] None None None (Some false) None None None None (Some [(lit "a", [lit "b"])]) None None None None None
            false None none_beside (fun _ => [])).
  eexists. split; [|split; [|split; [vm_compute; reflexivity|exact I]]].
  - constructor; unfold is_loaded; cbn; try (apply when_none; exact I); try congruence; [constructor|contradiction].
  - intros H. destruct (th_unevaluated _ _ _ _ _ H (lit "b") 1%nat) as [Q _].
    + left. reflexivity.
    + intros [[it []]|(ps & f & it & Q & _)]. discriminate Q.
    + reflexivity.
    + cbn. auto.
    + apply Q. reflexivity.
Qed.
Print Assumptions C41_unevaluated_properties_refuted.

(** Properties, patterns, additional keys, required keys and dependencies at once. *)
Example C41_example :
  let s := mkTableSchema [(lit "a", even_item)] (Some [(Some (fun k => str_eqb k (lit "x")), Resolved yes)])
             (Some false) None None None None (Some [lit "a"]) (Some [(lit "x", DependsOn [lit "a"])]) None None
             (Some 1) (Some 2) None None false None none_beside (fun _ => []) in
  table_loaded s
  /\ (tbl_unevaluated s = Some false \/ tbl_unevaluated_schema s <> None ->
      tbl_dependencies s = None /\ tbl_dependent_required s = None /\ tbl_dependent_schemas s = None)
  /\ (exists r, validate_table default_rules false s [] [(lit "a", 2%nat); (lit "x", 1%nat)] = Some r /\ validates r)
  /\ (exists r, validate_table default_rules false s [] [(lit "a", 1%nat)] = Some r /\ ~ validates r)
  /\ (exists r, validate_table default_rules false s [] [(lit "a", 2%nat); (lit "y", 1%nat)] = Some r /\ ~ validates r)
  /\ (exists r, validate_table default_rules false s [] [(lit "x", 1%nat)] = Some r /\ ~ validates r).
Proof.
  split; [|split].
  - constructor; unfold is_loaded; cbn; try (apply when_none; exact I); try congruence.
    + constructor; [intros []|constructor].
    + intros k it [[= <- <-]|[]]. unfold loaded, even_item. eauto.
    + apply when_some. intros f it [[= <- <-]|[]]. unfold loaded. eauto.
    + apply when_some. intros k i [Q|[]]. discriminate.
  - cbn. intros [Q|Q]; congruence.
  - repeat split; (eexists; split; [vm_compute; reflexivity|]); cbn; (exact I || discriminate).
Qed.
