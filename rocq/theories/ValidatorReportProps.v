(** A violated array or table keyword is reported under its own name (C40, C41). *)
From Coq Require Import String Ascii List NArith ZArith Bool Arith Lia ZifyBool.
From Verif Require Import Base ValidatorModel ValidatorProofs ValidatorProps ValidatorKeywordProps.
Import ListNotations.
Open Scope N_scope.
Open Scope list_scope.



Definition grows (st st' : state) : Prop := forall d, In d (s_diags st) -> In d (s_diags st').
Lemma grows_refl : forall st, grows st st.
Proof. intros st d H. exact H. Qed.
Lemma grows_trans : forall a b c, grows a b -> grows b c -> grows a c.
Proof. intros a b c H1 H2 d H. apply H2, H1, H. Qed.
Lemma push_grows : forall l c ds d, In d ds -> In d (push l c ds).
Proof. intros [] c ds d H; cbn; rewrite ?in_app_iff; auto. Qed.
Lemma unused_grows : forall R c ds d, In d ds -> In d (unused_noqa R c ds).
Proof. intros R c ds d H. unfold unused_noqa. destruct (noqa_of R c); [apply push_grows|]; exact H. Qed.
Lemma deprecated_grows : forall R b ds d, In d ds -> In d (handle_deprecated R b ds).
Proof. intros R [] ds d H; [apply push_grows|apply unused_grows]; exact H. Qed.
Lemma fail_grows : forall c l st, grows st (fail c l st).
Proof. intros c l st d H. cbn. apply push_grows, H. Qed.
Lemma add_grows : forall ds st, grows st (add_diags ds st).
Proof. intros ds st d H. cbn. apply in_or_app. auto. Qed.
Lemma update_grows : forall f st, grows st (update_evidence f st).
Proof. intros f st d H. exact H. Qed.
Lemma evaluate_grows : forall i st, grows st (evaluate i st).
Proof. intros f st d H. exact H. Qed.
Lemma absorb_grows : forall r st, grows st (absorb r st).
Proof. intros [v|e] st d H; cbn; [exact H|]. apply in_or_app. auto. Qed.
Lemma check_grows : forall R c v st, grows st (check_state R c v st).
Proof. intros R c [|] st d H; unfold check_state, check; cbn; [apply push_grows|apply unused_grows]; exact H. Qed.
Lemma check_value_grows : forall R c v st, grows st (check_value_state R c v st).
Proof. intros R c [[|]|] st d H; unfold check_value_state, check_value; cbn; [exact H|apply push_grows|apply unused_grows]; exact H. Qed.
Lemma fold_grows : forall X (f : state -> X -> state) l st, (forall st x, grows st (f st x)) -> grows st (fold_left f l st).
Proof.
  intros X f l. induction l as [|x l IH]; intros st H; cbn; [apply grows_refl|].
  eapply grows_trans; [apply H|]. apply IH. exact H.
Qed.

Ltac grow :=
  repeat first
    [ apply grows_refl
    | match goal with |- grows _ (if ?b then _ else _) => destruct b end
    | match goal with |- grows _ (match ?x with _ => _ end) => destruct x end
    | (eapply grows_trans; [|apply fail_grows]) | (eapply grows_trans; [|apply add_grows])
    | (eapply grows_trans; [|apply update_grows]) | (eapply grows_trans; [|apply evaluate_grows])
    | (eapply grows_trans; [|apply absorb_grows]) | (eapply grows_trans; [|apply check_grows])
    | (eapply grows_trans; [|apply check_value_grows]) ].

Lemma prefix_step_grows : forall V R (s : array_schema V) prefix o p st iv, grows st (prefix_step R s prefix o p st iv).
Proof. intros V R s prefix o p st [i v]. unfold prefix_step. cbv zeta. grow. Qed.
Lemma sizes_grow : forall V same R (s : array_schema V) values st, grows st (array_sizes same R s values st).
Proof.
  intros V same R s values st. unfold array_sizes. cbv zeta.
  set (st' := check_state R ArrayMinValues _ _).
  assert (H : grows st st') by (unfold st'; grow). clearbody st'.
  assert (U : forall b, grows st (mkState b (unused_noqa R ArrayUniqueValues (s_diags st')) (s_valid st') (s_evaluated st'))).
  { intros b d Hd. cbn. apply unused_grows, H, Hd. }
  destruct (arr_unique_items s) as [[|]|]; try apply U. destruct (duplicated same values) as [|w l]; [apply U|].
  intros d Hd. cbn [s_diags]. apply H in Hd. revert Hd. generalize (s_diags st') as ds. generalize (w :: l) as l'.
  induction l' as [|x l' IH]; intros ds Hd; cbn; [exact Hd|]. apply IH, push_grows, Hd.
Qed.
Lemma array_values_grow : forall V R (s : array_schema V) values st, grows st (array_values R s values st).
Proof.
  intros V R s values st. unfold array_values. cbv zeta. destruct (arr_const s), (arr_enum s) as [[]|]; cbn [option_map]; grow.
Qed.
Lemma unevaluated_grows : forall V R (s : array_schema V) p values st, grows st (array_unevaluated R s p values st).
Proof.
  intros V R s p values st. unfold array_unevaluated. destruct (has_unevaluated_items s); [|apply grows_refl].
  destruct (resolve_once R (arr_unevaluated_items_schema s)) as [schema ds]. eapply grows_trans; [apply add_grows|].
  apply fold_grows. intros st' [i v]. unfold unevaluated_step. cbv zeta. grow.
Qed.

Lemma merge_reports : forall T R (a : applicators T) p x base r c,
  merge_adjacent R a p x base = Some r -> reports base c -> reports r c.
Proof.
  intros T R a p x base r c H HB. unfold merge_adjacent in H. destruct (validate_adjacent_applicators R a p x) as [r'|]; [|discriminate].
  injection H as <-. destruct base as [v|e]; [contradiction|]. destruct r' as [v|e']; cbn in *; [exact HB|].
  apply in_or_app. auto.
Qed.
Lemma finish_reports : forall f ev ds v c, reports (finish f ev ds v) c <-> In (mkDiag true c) ds.
Proof. intros f ev [|d ds] v c; unfold finish; cbn; [destruct f; cbn; tauto|reflexivity]. Qed.

(** A violated array keyword is reported under its own name, whatever else the schema says. *)
Theorem C40_array_reports : forall V same R (s : array_schema V) p values r,
  (forall c, c <> Deprecated -> level_of R c = Error) ->
  validate_array same R s p values = Some r ->
  (forall m, arr_max_items s = Some m -> m < N.of_nat (length values) -> reports r ArrayMaxValues)
  /\ (forall m, arr_min_items s = Some m -> N.of_nat (length values) < m -> reports r ArrayMinValues)
  /\ (arr_unique_items s = Some true ->
      (exists i j v w, nth_item values i v /\ nth_item values j w /\ i <> j /\ same v w = true) -> reports r ArrayUniqueValues)
  /\ (forall f, arr_const s = Some f -> f values = false -> reports r Const)
  /\ (forall f, arr_enum s = Some f -> fst f values = false -> reports r Enum)
  /\ (forall run found, arr_contains s = Some (Resolved run) -> NoDup found ->
      (forall i v, nth_item values i v -> accepts (Resolved run) (p ++ [Index i]) v -> In i found) ->
      N.of_nat (length found) < match arr_min_contains s with Some m => m | None => 1 end ->
      reports r match arr_min_contains s with Some _ => ArrayMinContains | None => ArrayContains end)
  /\ (forall run found m, arr_contains s = Some (Resolved run) -> NoDup found ->
      (forall i, In i found -> exists v, nth_item values i v /\ accepts (Resolved run) (p ++ [Index i]) v) ->
      arr_max_contains s = Some m -> m < N.of_nat (length found) ->
      reports r ArrayMaxContains).
Proof.
  intros V same R s p values r HR H. unfold validate_array in H. cbv zeta in H.
  set (st1 := array_items R s p values _) in H. set (st2 := array_contains R s p values st1) in H.
  set (st3 := array_unevaluated R s p values st2) in H. set (st4 := array_values R s values st3) in H.
  set (st5 := array_sizes same R s values st4) in H.
  assert (K : forall c, In (mkDiag true c) (s_diags st5) -> reports r c).
  { intros c Hc. eapply merge_reports; [exact H|]. apply finish_reports. destruct (is_nil (s_diags st5)); [|exact Hc].
    apply deprecated_grows, Hc. }
  clear H.
  assert (G45 : grows st4 st5) by apply sizes_grow. assert (G34 : grows st3 st4) by apply array_values_grow.
  assert (G23 : grows st2 st3) by apply unevaluated_grows.
  assert (VIO : forall c b st, c <> Deprecated -> b = true -> In (mkDiag true c) (s_diags (check_state R c b st))).
  { intros c b st Hc ->. unfold check_state, check. cbn. rewrite HR by exact Hc. cbn. apply in_or_app. right. left. reflexivity. }
  assert (SIZES : forall b1 b2,
     In (mkDiag true b1) (s_diags (check_state R ArrayMinValues b2 (check_state R ArrayMaxValues
          (violates (arr_max_items s) (fun m => negb (m <? N.of_nat (length values)))) st4))) ->
     b2 = violates (arr_min_items s) (fun m => negb (N.of_nat (length values) <? m)) -> In (mkDiag true b1) (s_diags st5)).
  { intros c b Hc ->. unfold st5, array_sizes. cbv zeta.
    set (st' := check_state R ArrayMinValues _ _) in *. clearbody st'.
    destruct (arr_unique_items s) as [[|]|]; [destruct (duplicated same values) as [|w l]| |]; cbn [s_diags];
      try (apply unused_grows; exact Hc).
    revert Hc. generalize (s_diags st') as ds. generalize (w :: l) as l'.
    induction l' as [|x l' IH]; intros ds Hd; cbn; [exact Hd|]. apply IH, push_grows, Hd. }
  split; [|split; [|split; [|split; [|split; [|split]]]]].
  - intros m Hm Hl. apply K. eapply SIZES; [|reflexivity]. apply check_grows. apply VIO; [discriminate|].
    rewrite Hm. cbn. rewrite negb_involutive. apply N.ltb_lt. exact Hl.
  - intros m Hm Hl. apply K. eapply SIZES; [|reflexivity]. apply VIO; [discriminate|].
    rewrite Hm. cbn. rewrite negb_involutive. apply N.ltb_lt. exact Hl.
  - intros Hu Hd. apply K. unfold st5, array_sizes. cbv zeta. rewrite Hu.
    destruct (duplicated same values) as [|w l] eqn:E.
    + exfalso. pose proof (proj1 (duplicated_spec V same values) E) as Q. destruct Hd as (i & j & v & w & H1 & H2 & H3 & H4).
      rewrite (Q i j v w H1 H2 H3) in H4. discriminate.
    + cbn [s_diags fold_left]. rewrite HR by discriminate.
      assert (FG : forall l' ds d, In d ds -> In d (fold_left (fun ds (_ : V) => push Error ArrayUniqueValues ds) l' ds)).
      { induction l' as [|x l' IH]; intros ds d Hx; cbn; [exact Hx|]. apply IH. apply in_or_app. auto. }
      apply FG. cbn. apply in_or_app. right. left. reflexivity.
  - intros f Hf Hv. apply K, G45. unfold st4, array_values. rewrite Hf. cbv zeta. cbn [option_map].
    set (stc := update_evidence (mark_root_value (f values) true) st3).
    assert (Hc : In (mkDiag true Const) (s_diags (check_value_state R Const (Some (f values)) stc))).
    { rewrite Hv. unfold check_value_state, check_value. cbn. rewrite HR by discriminate. apply in_or_app. right. left. reflexivity. }
    destruct (arr_enum s) as [[g one]|]; apply check_value_grows; exact Hc.
  - intros f Hf Hv. apply K, G45. unfold st4, array_values. rewrite Hf. destruct f as [g one]. cbn [fst] in Hv. cbv zeta. cbn [option_map fst].
    rewrite Hv. destruct (arr_const s) as [f|]; unfold check_value_state at 1; unfold check_value; cbn [s_diags]; rewrite HR by discriminate;
      apply in_or_app; right; left; reflexivity.
  - intros run found Hc HN HI Hl. apply K, G45, G34, G23. unfold st2, array_contains. rewrite Hc. cbn [resolve_once].
    set (min := match arr_min_contains s with Some m => m | None => 1 end) in *.
    set (full := _ || has_unevaluated_items s).
    assert (LE : (length (contained run p (enumerate values)) <= length found)%nat).
    { apply NoDup_incl_length; [apply contained_nodup|]. intros i Hi. apply contained_in in Hi. destruct Hi as (v & Hv & Ha). eauto. }
    assert (E : (fst (count_contains run p full min (enumerate values) 0 []) <? min) = true).
    { destruct full.
      - rewrite count_contains_full. cbn [fst]. apply N.ltb_lt. lia.
      - destruct (count_contains_short V run p min (enumerate values) 0 []) as [_ B]. rewrite B. apply N.ltb_lt. lia. }
    destruct (count_contains run p full min (enumerate values) 0 []) as [count fnd]. cbn [fst] in E. rewrite E.
    cbn [s_diags]. set (stm := fail _ Error st1).
    assert (Hm : In (mkDiag true match arr_min_contains s with Some _ => ArrayMinContains | None => ArrayContains end) (s_diags stm)).
    { unfold stm. cbn. apply in_or_app. right. left. reflexivity. }
    destruct (arr_max_contains s) as [mx|]; [|exact Hm]. destruct (mx <? count); [|exact Hm]. apply fail_grows, Hm.
  - intros run found m Hc HN HI Hm Hl. apply K, G45, G34, G23. unfold st2, array_contains. rewrite Hc, Hm. cbn [resolve_once orb].
    set (min := match arr_min_contains s with Some m => m | None => 1 end) in *.
    rewrite count_contains_full. cbn [s_diags].
    assert (LE : (length found <= length (contained run p (enumerate values)))%nat).
    { apply NoDup_incl_length; [exact HN|]. intros i Hi. apply contained_in. auto. }
    assert (E : (m <? 0 + N.of_nat (length (contained run p (enumerate values)))) = true) by (apply N.ltb_lt; lia).
    rewrite E. cbn. apply in_or_app. right. left. reflexivity.
Qed.
Print Assumptions C40_array_reports.

Lemma sizes_table_grow : forall V R (s : table_schema V) t st, grows st (table_sizes R s t st).
Proof. intros. unfold table_sizes. cbv zeta. grow. Qed.
Lemma require_keys_grow : forall keys l st, grows st (require_keys keys l st).
Proof. intros. unfold require_keys. apply fold_grows. intros st' k. grow. Qed.
Lemma require_schema_grow : forall V R (i : item (table V)) p t st, grows st (require_schema R i p t st).
Proof. intros V R i p t st. unfold require_schema. grow. Qed.
Lemma dependencies_grow : forall V R (s : table_schema V) p t st, grows st (table_dependencies R s p t st).
Proof.
  intros V R s p t st. unfold table_dependencies. cbv zeta. destruct (tbl_dependencies s); [|apply grows_refl].
  apply fold_grows. intros st' [k d]. cbn [fst snd]. destruct (mem_key k _); [|apply grows_refl].
  destruct d; [apply require_keys_grow|apply require_schema_grow].
Qed.
Lemma dependent_required_grow : forall V (s : table_schema V) t st, grows st (table_dependent_required s t st).
Proof.
  intros V s t st. unfold table_dependent_required. cbv zeta. destruct (tbl_dependent_required s); [|apply grows_refl].
  apply fold_grows. intros st' [k d]. cbn [fst snd]. destruct (mem_key k _); [|apply grows_refl]. apply require_keys_grow.
Qed.
Lemma dependent_schemas_grow : forall V R (s : table_schema V) p t st, grows st (table_dependent_schemas R s p t st).
Proof.
  intros V R s p t st. unfold table_dependent_schemas. cbv zeta. destruct (tbl_dependent_schemas s); [|apply grows_refl].
  apply fold_grows. intros st' [k d]. cbn [fst snd]. destruct (mem_key k _); [|apply grows_refl]. apply require_schema_grow.
Qed.
Lemma table_values_grow : forall V R (s : table_schema V) t st, grows st (table_values R s t st).
Proof.
  intros V R s t st. unfold table_values. cbv zeta. destruct (tbl_const s), (tbl_enum s) as [[]|]; cbn [option_map]; grow.
Qed.
Lemma names_grow : forall V R (s : table_schema V) p keys st, grows st (table_names R s p keys st).
Proof.
  intros V R s p keys st. unfold table_names. destruct (resolve_once R (tbl_property_names s)) as [names ds]. cbv zeta.
  assert (A : forall f : str -> result, grows st (fold_left (fun st k => absorb (f k) st) keys (add_diags ds st))).
  { intros f. eapply grows_trans; [apply add_grows|]. apply fold_grows. intros. apply absorb_grows. }
  destruct (tbl_property_names s), names; try apply A; apply add_grows.
Qed.
Lemma required_grow : forall V R (s : table_schema V) p keys st, grows st (table_required R s p keys st).
Proof.
  intros V R s p keys st. unfold table_required. destruct (tbl_required s); [|apply grows_refl]. apply fold_grows.
  intros st' k. destruct (mem_key k keys); [|apply fail_grows]. intros d Hd. cbn. apply unused_grows, Hd.
Qed.

(** A violated table keyword is reported under its own name. *)
Theorem C41_table_reports : forall V R strict (s : table_schema V) p t r,
  (forall c, c <> Deprecated -> level_of R c = Error) ->
  validate_table R strict s p t = Some r ->
  (forall l k, tbl_required s = Some l -> In k l -> ~ In k (map fst t) -> reports r TableKeyRequired)
  /\ (forall m, tbl_max s = Some m -> m < N.of_nat (length t) -> reports r TableMaxKeys)
  /\ (forall m, tbl_min s = Some m -> N.of_nat (length t) < m -> reports r TableMinKeys)
  /\ (forall deps k l k', tbl_dependencies s = Some deps -> In (k, DependsOn l) deps -> In k (map fst t) ->
      In k' l -> ~ In k' (map fst t) -> reports r TableDependencyRequired)
  /\ (forall deps k l k', tbl_dependent_required s = Some deps -> In (k, l) deps -> In k (map fst t) ->
      In k' l -> ~ In k' (map fst t) -> reports r TableDependencyRequired)
  /\ (forall f, tbl_const s = Some f -> f t = false -> reports r Const)
  /\ (forall f, tbl_enum s = Some f -> fst f t = false -> reports r Enum)
  /\ (forall k v, In (k, v) t -> NoDup (map fst (tbl_properties s)) -> ~ declared s k -> tbl_additional s = Some false ->
      tbl_patterns s = None -> reports r KeyNotAllowed)
  /\ (forall k v, In (k, v) t -> NoDup (map fst (tbl_properties s)) -> ~ declared s k -> tbl_additional s = Some false ->
      tbl_patterns s <> None -> reports r KeyPattern).
Proof.
  intros V R strict s p t r HR H. unfold validate_table in H. cbv zeta in H.
  set (st1 := fold_left (entry_step R strict s (collect_evaluated s t) p) t _) in H.
  set (st2 := table_required R s p (map fst t) st1) in H. set (st3 := table_sizes R s t st2) in H.
  set (st4 := table_dependencies R s p t st3) in H. set (st5 := table_dependent_required s t st4) in H.
  set (st6 := table_dependent_schemas R s p t st5) in H. set (st7 := table_values R s t st6) in H.
  set (st8 := table_names R s p (map fst t) st7) in H.
  assert (K : forall c, In (mkDiag true c) (s_diags st8) -> reports r c).
  { intros c Hc. set (st9 := if is_nil (s_diags st8) && tbl_deprecated s then _ else st8) in H.
    assert (H9 : In (mkDiag true c) (s_diags st9)) by (unfold st9; destruct (_ && _); [apply deprecated_grows|]; exact Hc).
    clearbody st9. set (I0 := match tbl_ite s with Some i => _ | None => (st9, mkValid (collect_evaluated s t) [] no_evidence) end) in H.
    assert (HI : In (mkDiag true c) (s_diags (fst I0))).
    { unfold I0. destruct (tbl_ite s) as [i|]; [|exact H9]. destruct (validate_if_then_else R i p t); [exact H9|]. cbn [fst].
      apply absorb_grows. exact H9. }
    destruct I0 as [st10 locations]. cbn [fst] in HI.
    destruct (validate_adjacent_applicators R (tbl_applicators s) p t) as [[v|e]|]; [| |discriminate]; apply some_eq in H; subst r.
    - pose proof (proj2 (finish_reports (s_failed st10) (v_evidence (s_valid st10)) (s_diags st10)
                     (with_evidence (v_evidence (s_valid st10)) locations) c) HI) as Q.
      destruct (finish _ _ _ _); [contradiction|exact Q].
    - pose proof (proj2 (finish_reports (s_failed st10) (v_evidence (s_valid st10)) (s_diags st10)
                     (with_evidence (v_evidence (s_valid st10)) locations) c) HI) as Q.
      destruct (finish _ _ _ _); [contradiction|]. destruct (filter_table_strict e); [exact Q|]. cbn in *. apply in_or_app. auto. }
  clear H.
  assert (G78 : grows st7 st8) by apply names_grow. assert (G67 : grows st6 st7) by apply table_values_grow.
  assert (G56 : grows st5 st6) by apply dependent_schemas_grow. assert (G45 : grows st4 st5) by apply dependent_required_grow.
  assert (G34 : grows st3 st4) by apply dependencies_grow. assert (G23 : grows st2 st3) by apply sizes_table_grow.
  assert (G12 : grows st1 st2) by apply required_grow.
  assert (VIO : forall c b st, c <> Deprecated -> b = true -> In (mkDiag true c) (s_diags (check_state R c b st))).
  { intros c b st Hc ->. unfold check_state, check. cbn. rewrite HR by exact Hc. cbn. apply in_or_app. right. left. reflexivity. }
  assert (FOLD : forall X (f : state -> X -> state) l x d st, (forall st x, grows st (f st x)) -> In x l ->
            (forall st, In d (s_diags (f st x))) -> In d (s_diags (fold_left f l st))).
  { intros X f l x d st HG Hx Hd. revert st. induction l as [|y l IH]; intros st; [contradiction|]. cbn.
    destruct Hx as [->|Hx]; [|apply IH; exact Hx]. apply (fold_grows X f l _ HG). apply Hd. }
  assert (REQ : forall l k' st, In k' l -> ~ In k' (map fst t) -> In (mkDiag true TableDependencyRequired) (s_diags (require_keys (map fst t) l st))).
  { intros l k' st Hk Hn. unfold require_keys. apply (FOLD _ _ l k').
    - intros. grow.
    - exact Hk.
    - intros st'. destruct (mem_key k' (map fst t)) eqn:E; [apply mem_key_in in E; contradiction|]. cbn. apply in_or_app. right. left. reflexivity. }
  assert (ENTRY : forall c k v st, In (k, v) t ->
            (forall st, In (mkDiag true c) (s_diags (entry_step R strict s (collect_evaluated s t) p st (k, v)))) ->
            (forall st x, grows st (entry_step R strict s (collect_evaluated s t) p st x)) ->
            In (mkDiag true c) (s_diags (fold_left (entry_step R strict s (collect_evaluated s t) p) t st))).
  { intros c k v st Hk Hd HG. apply (FOLD _ _ t (k, v)); auto. }
  assert (REST : forall k st, grows st (unmatched_rest R strict s (collect_evaluated s t) k st)).
  { intros k st. unfold unmatched_rest. repeat (match goal with |- grows _ (if ?b then _ else _) => destruct b end);
      try apply grows_refl; try apply add_grows; try apply fail_grows. intros d Hd. cbn. apply unused_grows, Hd. }
  assert (UNM : forall q k v st, grows st (unmatched_step R strict s (collect_evaluated s t) q k v st)).
  { intros q k v st. unfold unmatched_step. cbv zeta.
    set (A := match tbl_additional_schema s with Some (Resolved run, d) => _ | Some (ResolveError, _) => _ | _ => (st, false) end).
    assert (HA : grows st (fst A)).
    { unfold A. destruct (tbl_additional_schema s) as [[[run| |] d]|]; cbn [fst].
      - eapply grows_trans; [|apply absorb_grows]. eapply grows_trans; [|apply update_grows].
        destruct (is_assertion_success _); intros x Hx; cbn; apply deprecated_grows; exact Hx.
      - apply add_grows.
      - apply grows_refl.
      - apply grows_refl. }
    destruct A as [st' validated]. cbn [fst] in HA.
    destruct (_ && _); [|eapply grows_trans; [exact HA|apply REST]].
    destruct (tbl_unevaluated_schema s) as [[run| |]|]; (eapply grows_trans; [exact HA|]).
    - apply absorb_grows.
    - destruct (tbl_unevaluated s) as [[|]|]; (eapply grows_trans; [apply add_grows|]); try apply REST. apply fail_grows.
    - destruct (tbl_unevaluated s) as [[|]|]; try apply REST. apply fail_grows.
    - destruct (tbl_unevaluated s) as [[|]|]; try apply REST. apply fail_grows. }
  assert (DECL : forall q (v : V) l st a, grows st (fst (fold_left (declared_step R q v) l (st, a)))).
  { intros q v l. induction l as [|i l IH]; intros st [[ap m] ch]; cbn [fold_left]; [apply grows_refl|].
    destruct i as [run| |]; cbn [declared_step]; (eapply grows_trans; [|apply IH]); [apply absorb_grows|apply add_grows|apply grows_refl]. }
  assert (EG : forall st x, grows st (entry_step R strict s (collect_evaluated s t) p st x)).
  { intros st [k v]. unfold entry_step. cbv zeta. fold (declared_items s k).
    pose proof (DECL (p ++ [Key k]) v (declared_items s k) st (false, true, no_evidence)) as HD.
    destruct (fold_left (declared_step R (p ++ [Key k]) v) (declared_items s k) (st, (false, true, no_evidence))) as [st' [[ap m] ch]]. cbn [fst] in HD.
    set (st'' := match tbl_patterns s with Some _ => _ | None => st' end).
    assert (H'' : grows st st'') by (unfold st''; destruct (tbl_patterns s); [eapply grows_trans; [exact HD|apply check_grows]|exact HD]).
    clearbody st''. eapply grows_trans; [exact H''|].
    destruct (negb _); [|apply UNM]. grow. }
  split; [|split; [|split; [|split; [|split; [|split; [|split; [|split]]]]]]].
  - intros l k Hl Hk Hn. apply K, G78, G67, G56, G45, G34, G23. unfold st2, table_required. rewrite Hl. apply (FOLD _ _ l k).
    + intros st x. destruct (mem_key x (map fst t)); [|apply fail_grows]. intros d Hd. cbn. apply unused_grows, Hd.
    + exact Hk.
    + intros st. destruct (mem_key k (map fst t)) eqn:E; [apply mem_key_in in E; contradiction|].
      cbn. rewrite HR by discriminate. apply in_or_app. right. left. reflexivity.
  - intros m Hm Hl. apply K, G78, G67, G56, G45, G34. unfold st3, table_sizes. cbv zeta. apply check_grows. apply VIO; [discriminate|].
    rewrite Hm. cbn. rewrite negb_involutive. apply N.ltb_lt. exact Hl.
  - intros m Hm Hl. apply K, G78, G67, G56, G45, G34. unfold st3, table_sizes. cbv zeta. apply VIO; [discriminate|].
    rewrite Hm. cbn. rewrite negb_involutive. apply N.ltb_lt. exact Hl.
  - intros deps k l k' Hd Hi Hk Hk' Hn. apply K, G78, G67, G56, G45. unfold st4, table_dependencies. cbv zeta. rewrite Hd.
    apply (FOLD _ _ deps (k, DependsOn l)).
    + intros st [k0 d]. cbn [fst snd]. destruct (mem_key k0 _); [|apply grows_refl].
      destruct d; [apply require_keys_grow|apply require_schema_grow].
    + exact Hi.
    + intros st. cbn [fst snd]. apply mem_key_in in Hk. rewrite Hk. eapply REQ; eassumption.
  - intros deps k l k' Hd Hi Hk Hk' Hn. apply K, G78, G67, G56. unfold st5, table_dependent_required. cbv zeta. rewrite Hd.
    apply (FOLD _ _ deps (k, l)).
    + intros st [k0 d]. cbn [fst snd]. destruct (mem_key k0 _); [|apply grows_refl]. apply require_keys_grow.
    + exact Hi.
    + intros st. cbn [fst snd]. apply mem_key_in in Hk. rewrite Hk. eapply REQ; eassumption.
  - intros f Hf Hv. apply K, G78. unfold st7, table_values. rewrite Hf. cbv zeta. cbn [option_map].
    set (stc := update_evidence (mark_root_value (f t) true) st6).
    assert (Hc : In (mkDiag true Const) (s_diags (check_value_state R Const (Some (f t)) stc))).
    { rewrite Hv. unfold check_value_state, check_value. cbn. rewrite HR by discriminate. apply in_or_app. right. left. reflexivity. }
    destruct (tbl_enum s) as [[g one]|]; apply check_value_grows; exact Hc.
  - intros f Hf Hv. apply K, G78. unfold st7, table_values. rewrite Hf. destruct f as [g one]. cbn [fst] in Hv. cbv zeta. cbn [option_map fst].
    rewrite Hv. destruct (tbl_const s) as [f|]; unfold check_value_state at 1; unfold check_value; cbn [s_diags]; rewrite HR by discriminate;
      apply in_or_app; right; left; reflexivity.
  - intros k v Hk HN Hd Ha Hp. apply K, G78, G67, G56, G45, G34, G23, G12. apply (ENTRY _ k v); [exact Hk| |exact EG].
    intros st. apply declared_spec in Hd; [|exact HN]. unfold entry_step. cbv zeta. fold (declared_items s k).
    destruct (fold_left (declared_step R (p ++ [Key k]) v) (declared_items s k) (st, (false, true, no_evidence))) as [st' [[ap m] ch]]. rewrite Hd. cbn [negb]. rewrite Hp.
    unfold unmatched_step. cbv zeta.
    set (A := match tbl_additional_schema s with Some (Resolved run, d) => _ | Some (ResolveError, _) => _ | _ => (st', false) end).
    destruct A as [st'' validated]. rewrite Ha. cbn [is_some negb]. rewrite andb_false_r.
    unfold unmatched_rest, strict_violation, allows_any_additional, allows_additional. rewrite Ha, Hp. cbn [is_some negb andb orb].
    rewrite !andb_false_r. cbn. rewrite HR by discriminate. apply in_or_app. right. left. reflexivity.
  - intros k v Hk HN Hd Ha Hp. apply K, G78, G67, G56, G45, G34, G23, G12. apply (ENTRY _ k v); [exact Hk| |exact EG].
    intros st. apply declared_spec in Hd; [|exact HN]. unfold entry_step. cbv zeta. fold (declared_items s k).
    destruct (fold_left (declared_step R (p ++ [Key k]) v) (declared_items s k) (st, (false, true, no_evidence))) as [st' [[ap m] ch]]. rewrite Hd. cbn [negb andb].
    destruct (tbl_patterns s) eqn:EP; [|congruence]. apply UNM. apply VIO; [discriminate|].
    unfold allows_additional. rewrite Ha. reflexivity.
Qed.
Print Assumptions C41_table_reports.

(** The hypothesis is met by the default configuration, and the reports differ. *)
Example C40_C41_reports_example :
  (forall c, c <> Deprecated -> level_of default_rules c = Error)
  /\ (let s := mkArraySchema None None None None None None (Some even_item) (Some 2) None None (Some 1) (Some true) None None false None none_beside in
      exists r, validate_array Nat.eqb default_rules s [] [1; 1]%nat = Some r
        /\ reports r ArrayMaxValues /\ reports r ArrayUniqueValues /\ reports r ArrayMinContains /\ ~ reports r ArrayMinValues)
  /\ (let s := mkTableSchema [] None (Some false) None None None None (Some [lit "a"]) None None None (Some 2) None None None
                 false None none_beside (fun _ => []) in
      exists r, validate_table default_rules false s [] [(lit "b", 1%nat)] = Some r
        /\ reports r KeyNotAllowed /\ reports r TableKeyRequired /\ reports r TableMinKeys /\ ~ reports r TableMaxKeys).
Proof.
  split; [intros []; cbn; congruence|].
  split; (eexists; split; [vm_compute; reflexivity|]); cbn; intuition discriminate.
Qed.
