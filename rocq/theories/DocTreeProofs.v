(** Proofs about the document tree (C23). *)
From Coq Require Import String Ascii List NArith Bool Arith Lia Permutation.
From Verif Require Import Base DocTreeModel DocTreeSpec.
Import ListNotations.
Open Scope N_scope.
Open Scope list_scope.

(** ** Unfolding [merge_table] *)
Definition merge_array (a1 : akind) (vs : list value) (a2 : akind) (ws : list value) : value * list error :=
  match a2 with
  | ParentArrayOfTable =>
      match rev ws with
      | Tab k2 es2 :: _ =>
          match rev vs with
          | Tab k es :: r => let '(w', e) := merge_table k es (Tab k2 es2) in (Arr a1 (rev r ++ [w']), e)
          | _ => (Arr a1 (vs ++ [Tab k2 es2]), [])
          end
      | _ => (Arr a1 vs, [Unreachable])
      end
  | _ => (Arr a1 (vs ++ ws), [])
  end.
Definition merge_entry (key : str) (w2 : value) (es1 : list (str * value)) : list (str * value) * list error :=
  match lookup key es1 with
  | None => (es1 ++ [(key, w2)], [])
  | Some w1 =>
      match w1, w2 with
      | Tab k es, Tab _ _ => let '(w, e) := merge_table k es w2 in (update key w es1, e)
      | Arr a1 vs, Arr a2 ws =>
          if can_merge_arrays a1 a2 then let '(w, e) := merge_array a1 vs a2 ws in (update key w es1, e) else (es1, [DuplicateKey key])
      | _, _ => (es1, [DuplicateKey key])
      end
  end.
Fixpoint merge_entries (es1 es2 : list (str * value)) : list (str * value) * list error :=
  match es2 with
  | [] => (es1, [])
  | (key, w2) :: es2 =>
      let '(es1', e) := merge_entry key w2 es1 in
      let '(es1'', e') := merge_entries es1' es2 in (es1'', e ++ e')
  end.
Lemma pop_rev a1 vs : forall ws,
  (fix pop (ws : list value) : value * list error :=
     match ws with
     | [] => (Arr a1 vs, [Unreachable])
     | w :: ws' =>
         match ws' with
         | [] =>
             match w with
             | Tab _ _ =>
                 match rev vs with
                 | Tab k es :: r => let '(w', e) := merge_table k es w in (Arr a1 (rev r ++ [w']), e)
                 | _ => (Arr a1 (vs ++ [w]), [])
                 end
             | _ => (Arr a1 vs, [Unreachable])
             end
         | _ => pop ws'
         end
     end) ws = merge_array a1 vs ParentArrayOfTable ws.
Proof.
  induction ws as [|w ws IH]; [reflexivity|]. destruct ws as [|w' ws].
  - unfold merge_array. cbn [rev app]. destruct w; reflexivity.
  - rewrite IH. unfold merge_array. cbn [rev]. destruct (rev ws ++ [w']) as [|x r] eqn:E; [destruct (rev ws); discriminate|]. reflexivity.
Qed.
Lemma merge_unfold k1 es1 k2 es2 : merge_table k1 es1 (Tab k2 es2) =
  if conflict k1 es1 k2 es2 then (Tab (merged_kind k1 k2) es1, [ConflictTable])
  else let '(es, errs) := merge_entries es1 es2 in (Tab (merged_kind k1 k2) es, errs).
Proof.
  cbn [merge_table]. destruct (conflict k1 es1 k2 es2); [reflexivity|].
  match goal with |- (let '(_, _) := ?f es1 es2 in _) = _ => assert (HF : forall es2 es1, f es1 es2 = merge_entries es1 es2) end.
  { clear. induction es2 as [|[key w2] es2 IH]; intros es1; [reflexivity|]. cbn [merge_entries]. cbn beta iota.
    match goal with |- (let '(_, _) := ?x in _) = _ => assert (HE : x = merge_entry key w2 es1) end.
    { unfold merge_entry. destruct (lookup key es1) as [w1|]; [|reflexivity]. destruct w1 as [x|k es|a1 vs]; destruct w2 as [x2|k2 es'|a2 ws]; try reflexivity.
      destruct (can_merge_arrays a1 a2); [|reflexivity]. destruct a2; try reflexivity. rewrite pop_rev. reflexivity. }
    rewrite HE. destruct (merge_entry key w2 es1) as [es1' e]. rewrite <- IH. reflexivity. }
  rewrite HF. reflexivity.
Qed.
Lemma merge_single k1 es1 k2 key w : conflict k1 es1 k2 [(key, w)] = false ->
  merge_table k1 es1 (Tab k2 [(key, w)]) = (Tab (merged_kind k1 k2) (fst (merge_entry key w es1)), snd (merge_entry key w es1)).
Proof.
  intros HC. rewrite merge_unfold, HC. cbn [merge_entries]. destruct (merge_entry key w es1) as [es e]. cbn [fst snd]. rewrite app_nil_r. reflexivity.
Qed.

(** ** Reading states and trees *)
Definition static (v : value) : Prop :=
  match v with Scalar _ | Arr PlainArray _ | Tab InlineTable _ => True | _ => False end.
Definition kind_ok (o : origin) (k : tkind) : Prop :=
  match o, k with
  | Implicit, ParentTable | Defined, Table | Dotted, (KeyValue | ParentKey) => True
  | _, _ => False
  end.
Inductive rel : node -> value -> Prop :=
| rel_leaf d v : data_of v = d -> static v -> rel (Leaf d) v
| rel_dir o k es es' : kind_ok o k -> Forall2 (fun (a : str * node) (b : str * value) => fst a = fst b /\ rel (snd a) (snd b)) es es' -> rel (Dir o es) (Tab k es')
| rel_elems ts vs : ts <> [] -> Forall2 (fun t v => rel (Dir Defined t) v) ts vs -> rel (Elems ts) (Arr ArrayOfTable vs).
Notation rels := (Forall2 (fun (a : str * node) (b : str * value) => fst a = fst b /\ rel (snd a) (snd b))).

Lemma rel_data : forall n v, rel n v -> data_of v = meaning n.
Proof.
  fix IH 3. intros n v H. destruct H as [d v Hd Hs|o k es es' Hk HF|ts vs Hn HF].
  - exact Hd.
  - cbn [data_of meaning]. f_equal. revert es es' HF. fix IHF 3. intros es es' HF. destruct HF as [|a b l l' [Hk' Hr] HF]; [reflexivity|].
    cbn [map]. rewrite (IH _ _ Hr), (IHF _ _ HF), Hk'. reflexivity.
  - cbn [data_of meaning]. f_equal. clear Hn. revert ts vs HF. fix IHF 3. intros ts vs HF. destruct HF as [|t v l l' Hr HF]; [reflexivity|].
    cbn [map]. rewrite (IH _ _ Hr), (IHF _ _ HF). reflexivity.
Qed.
Lemma rels_data es es' : rels es es' -> map (fun e => (fst e, data_of (snd e))) es' = map (fun e => (fst e, meaning (snd e))) es.
Proof. induction 1 as [|a b l l' [Hk Hr] _ IH]; [reflexivity|]. cbn [map]. rewrite IH, Hk, (rel_data _ _ Hr). reflexivity. Qed.

Lemma rels_lookup es es' k : rels es es' ->
  match assoc k es, lookup k es' with Some n, Some v => rel n v | None, None => True | _, _ => False end.
Proof.
  induction 1 as [|[ka n] [kb v] l l' [Hk Hr] _ IH]; [exact I|]. cbn [assoc lookup fst snd] in *. subst kb. destruct (str_eqb k ka); [exact Hr|exact IH].
Qed.
Lemma rels_set es es' k n v : rels es es' -> rel n v -> rels (assoc_set k n es) (update k v es').
Proof.
  intros HF HR. induction HF as [|[ka n'] [kb v'] l l' [Hk Hr] HF IH]; [constructor|]. cbn [assoc_set update fst snd] in *. subst kb.
  destruct (str_eqb k ka); constructor; auto.
Qed.
Lemma rels_snoc es es' k n v : rels es es' -> rel n v -> rels (es ++ [(k, n)]) (es' ++ [(k, v)]).
Proof. intros HF HR. apply Forall2_app; [exact HF|]. constructor; [split; [reflexivity|exact HR]|constructor]. Qed.

(** What key/values alone make. *)
Inductive plain : node -> Prop :=
| plain_leaf d : plain (Leaf d)
| plain_dotted es : Forall (fun e : str * node => plain (snd e)) es -> plain (Dir Dotted es).
Notation plains := (Forall (fun e : str * node => plain (snd e))).
Lemma plains_assoc es k n : plains es -> assoc k es = Some n -> plain n.
Proof.
  induction 1 as [|[k' n'] es H _ IH]; [discriminate|]. cbn [assoc]. destruct (str_eqb k k'); [intros E; injection E as <-; exact H|exact IH].
Qed.
Lemma plains_set es k n : plains es -> plain n -> plains (assoc_set k n es).
Proof.
  intros HF HP. induction HF as [|[k' n'] es H HF IH]; [constructor|]. cbn [assoc_set]. destruct (str_eqb k k'); constructor; auto.
Qed.
Lemma plains_snoc es k n : plains es -> plain n -> plains (es ++ [(k, n)]).
Proof. intros HF HP. apply Forall_app. split; [exact HF|]. constructor; [exact HP|constructor]. Qed.

Definition open_kind (k : tkind) : Prop := match k with Root | Table | KeyValue | ParentKey => True | _ => False end.
Lemma static_merge_err v w k key es1 : static v -> lookup key es1 = Some v -> (exists es, w = Tab k es /\ (k = KeyValue \/ k = ParentKey \/ k = ParentTable \/ k = Table)) ->
  snd (merge_entry key w es1) <> [].
Proof.
  intros HS HL (es & -> & HK). unfold merge_entry. rewrite HL. destruct v as [x|k' es'|a vs]; cbn [static] in HS; try (cbn; discriminate).
  destruct k'; try contradiction. rewrite merge_unfold. replace (conflict InlineTable es' k es) with true; [cbn; discriminate|].
  destruct HK as [->|[->|[->| ->]]]; reflexivity.
Qed.
Lemma wrap_tab keys v : keys <> [] -> exists k es, wrap_keys keys v = Tab k es /\ (k = KeyValue \/ k = ParentKey).
Proof. destruct keys as [|a [|b keys]]; intros H; [contradiction| |]; cbn [wrap_keys]; eauto. Qed.
Lemma lookup_none_conflict k1 es1 k2 key w : open_kind k1 -> (k2 = KeyValue \/ k2 = ParentKey) -> lookup key es1 = None -> conflict k1 es1 k2 [(key, w)] = false.
Proof.
  intros H1 H2 HL. destruct H2 as [-> | ->]; destruct k1; try contradiction; try reflexivity. cbn [conflict]. unfold key_values_conflict.
  induction es1 as [|[k' v'] es1 IH]; [reflexivity|]. cbn [lookup] in HL. cbn [existsb fst snd lookup]. destruct (str_eqb key k') eqn:E; [discriminate|].
  replace (str_eqb k' key) with false by (symmetry; apply str_eqb_neq; apply str_eqb_neq in E; congruence). apply IH. exact HL.
Qed.
Lemma parent_no_conflict k1 es1 es2 : open_kind k1 -> conflict k1 es1 ParentKey es2 = false.
Proof. destruct k1; try contradiction; reflexivity. Qed.
Lemma merged_open k1 k2 : open_kind k1 -> (k2 = KeyValue \/ k2 = ParentKey) -> merged_kind k1 k2 = k1.
Proof. intros H [-> | ->]; destruct k1; try contradiction; reflexivity. Qed.

Definition gives (r : option (list (str * node))) (k : tkind) (m : value * list error) : Prop :=
  match r with
  | Some es => exists es', m = (Tab k es', []) /\ rels es es'
  | None => snd m <> []
  end.

Lemma wrap_rel keys : forall d v, keys <> [] -> rel (Leaf d) v ->
  match put keys d [] with
  | Some sub => exists k es, wrap_keys keys v = Tab k es /\ (k = KeyValue \/ k = ParentKey) /\ rels sub es /\ plains sub
  | None => False
  end.
Proof.
  induction keys as [|a keys IH]; intros d v HN HR; [contradiction|]. destruct keys as [|b keys].
  - cbn [put assoc app wrap_keys]. exists KeyValue, [(a, v)]. split; [reflexivity|]. split; [auto|]. split; constructor; try constructor; auto.
  - change (put (a :: b :: keys) d []) with (option_map (fun sub => [] ++ [(a, Dir Dotted sub)]) (put (b :: keys) d [])).
    specialize (IH d v ltac:(discriminate) HR). destruct (put (b :: keys) d []) as [sub|]; [|contradiction]. cbn [option_map].
    destruct IH as (k & es & E & HK & HF & HP). change (wrap_keys (a :: b :: keys) v) with (Tab ParentKey [(a, wrap_keys (b :: keys) v)]). rewrite E.
    eexists _, _. split; [reflexivity|]. split; [auto|]. split.
    + constructor; [|constructor]. split; [reflexivity|]. cbn [snd]. constructor; [|exact HF]. destruct HK as [-> | ->]; exact I.
    + constructor; [|constructor]. cbn [snd]. constructor. exact HP.
Qed.
Lemma put_merge keys : forall d v k es es', keys <> [] -> open_kind k -> rel (Leaf d) v -> rels es es' -> plains es ->
  gives (put keys d es) k (merge_table k es' (wrap_keys keys v)) /\ (forall es2, put keys d es = Some es2 -> plains es2).
Proof.
  induction keys as [|a keys IH]; intros d v k es es' HN HK HR HF HP; [contradiction|]. pose proof (rels_lookup es es' a HF) as HL.
  assert (HS : static v) by (inversion HR; assumption).
  destruct keys as [|b keys].
  - cbn [put wrap_keys]. destruct (assoc a es) as [n|] eqn:Ea; destruct (lookup a es') as [w|] eqn:El; try contradiction.
    + split; [|discriminate]. cbn [gives]. destruct (conflict k es' KeyValue [(a, v)]) eqn:EC; [rewrite merge_unfold, EC; cbn; discriminate|].
      rewrite merge_single by exact EC. cbn [snd]. unfold merge_entry. rewrite El.
      pose proof (plains_assoc es a n HP Ea) as HPn. inversion HL as [d0 v0 Hd Hs|o k0 es0 es0' Ho HF0|ts vs HT HF0]; subst n w.
      * destruct v0 as [x|kv ev|av vv]; cbn [static] in Hs; destruct v as [x'|k' e'|a' v']; cbn [static] in HS; try (cbn; discriminate).
        -- destruct kv; try contradiction. destruct k'; try contradiction. rewrite merge_unfold. cbn. discriminate.
        -- destruct av; try contradiction. cbn [can_merge_arrays]. cbn. discriminate.
      * inversion HPn; subst. destruct v as [x'|k' e'|a' v']; cbn [static] in HS; try (cbn; discriminate). destruct k'; try contradiction.
        rewrite merge_unfold. destruct k0; cbn [kind_ok] in Ho; try contradiction; cbn; discriminate.
      * inversion HPn.
    + split.
      * cbn [gives]. rewrite merge_single by (apply lookup_none_conflict; auto). unfold merge_entry. rewrite El. cbn [fst snd]. rewrite merged_open by auto.
        eexists. split; [reflexivity|]. apply rels_snoc; assumption.
      * intros es2 E. injection E as <-. apply plains_snoc; [exact HP|constructor].
  - change (wrap_keys (a :: b :: keys) v) with (Tab ParentKey [(a, wrap_keys (b :: keys) v)]).
    assert (HM : merge_table k es' (Tab ParentKey [(a, wrap_keys (b :: keys) v)]) = (Tab k (fst (merge_entry a (wrap_keys (b :: keys) v) es')), snd (merge_entry a (wrap_keys (b :: keys) v) es'))).
    { rewrite merge_single by (apply parent_no_conflict; exact HK). rewrite merged_open by auto. reflexivity. }
    rewrite HM. clear HM. destruct (wrap_tab (b :: keys) v ltac:(discriminate)) as (k2 & es2 & EW & HK2).
    assert (HE : put (a :: b :: keys) d es = match assoc a es with
      | None => option_map (fun sub => es ++ [(a, Dir Dotted sub)]) (put (b :: keys) d [])
      | Some (Dir Dotted sub) => option_map (fun sub' => assoc_set a (Dir Dotted sub') es) (put (b :: keys) d sub)
      | Some _ => None end) by reflexivity.
    rewrite HE. clear HE. destruct (assoc a es) as [n|] eqn:Ea; destruct (lookup a es') as [w|] eqn:El; try contradiction.
    + pose proof (plains_assoc es a n HP Ea) as HPn. inversion HL as [d0 v0 Hd Hs|o k0 es0 es0' Ho HF0|ts vs HT HF0]; subst n w.
      * split; [|discriminate]. cbn [gives snd]. apply (static_merge_err v0 _ k2 a es' Hs El). exists es2. split; [exact EW|]. destruct HK2 as [-> | ->]; auto.
      * inversion HPn as [|es1 HP1]; subst. destruct (IH d v k0 es0 es0' ltac:(discriminate)) as [IH1 IH2]; auto.
        { destruct k0; cbn [kind_ok] in Ho; try contradiction; exact I. }
        unfold merge_entry. rewrite El, EW, <- EW. destruct (merge_table k0 es0' (wrap_keys (b :: keys) v)) as [w e] eqn:EM. cbn [fst snd].
        destruct (put (b :: keys) d es0) as [sub'|]; cbn [gives option_map] in *.
        -- destruct IH1 as (es3 & E3 & HF3). injection E3 as -> ->. split.
           ++ eexists. split; [reflexivity|]. apply rels_set; [exact HF|]. constructor; [exact Ho|exact HF3].
           ++ intros es4 E4. injection E4 as <-. apply plains_set; [exact HP|]. constructor. apply IH2. reflexivity.
        -- split; [exact IH1|discriminate].
      * inversion HPn.
    + pose proof (wrap_rel (b :: keys) d v ltac:(discriminate) HR) as HW. destruct (put (b :: keys) d []) as [sub|]; [|contradiction]. cbn [option_map gives].
      destruct HW as (k3 & es3 & E3 & HK3 & HF3 & HP3). unfold merge_entry. rewrite El. cbn [fst snd]. split.
      * eexists. split; [reflexivity|]. apply rels_snoc; [exact HF|]. rewrite E3. constructor; [|exact HF3]. destruct HK3 as [-> | ->]; exact I.
      * intros es4 E4. injection E4 as <-. apply plains_snoc; [exact HP|]. constructor. exact HP3.
Qed.

(** ** Values and key/values *)
Fixpoint syn_ind (P : syn_value -> Prop) (HS : forall x, P (SynScalar x)) (HA : forall vs, Forall P vs -> P (SynArray vs))
    (HI : forall kvs, Forall (fun kv => P (snd kv)) kvs -> P (SynInline kvs)) (v : syn_value) : P v :=
  match v with
  | SynScalar x => HS x
  | SynArray vs => HA vs ((fix go l : Forall P l := match l with [] => Forall_nil _ | x :: l => Forall_cons x (syn_ind P HS HA HI x) (go l) end) vs)
  | SynInline kvs => HI kvs ((fix go l : Forall (fun kv => P (snd kv)) l := match l with [] => Forall_nil _ | x :: l => Forall_cons x (syn_ind P HS HA HI (snd x)) (go l) end) kvs)
  end.
Definition built (v : syn_value) : Prop :=
  match eval v with
  | Some d => exists w, build_value v = (w, []) /\ rel (Leaf d) w
  | None => snd (build_value v) <> []
  end.
Lemma app_nonempty {A} (a b c : list A) : a <> [] \/ b <> [] \/ c <> [] -> a ++ b ++ c <> [].
Proof. intros [H|[H|H]] E; apply app_eq_nil in E as [E1 E2]; apply app_eq_nil in E2 as [E2 E3]; contradiction. Qed.
Lemma body_merge : forall kvs k es es', open_kind k -> rels es es' -> plains es -> Forall (fun kv => fst kv <> [] /\ built (snd kv)) kvs ->
  gives (put_all (eval_body kvs) es) k (merge_all (Tab k es') (map build_key_value kvs)) /\ (forall es2, put_all (eval_body kvs) es = Some es2 -> plains es2).
Proof.
  induction kvs as [|[keys v] kvs IH]; intros k es es' HK HF HP HB.
  - cbn. split; [eauto|]. intros es2 E. injection E as <-. exact HP.
  - inversion HB as [|? ? [HN Hv] HB']; subst. cbn [fst snd] in *. unfold built in Hv. cbn [eval_body map put_all merge_all fst snd].
    destruct (eval v) as [d|] eqn:Ev.
    + destruct Hv as (w & Ew & Hw). unfold build_key_value at 1. rewrite Ew.
      replace (match keys with [] => (Tab KeyValue [], []) | _ => (wrap_keys keys w, []) end) with (wrap_keys keys w, @nil error) by (destruct keys; [contradiction|reflexivity]).
      destruct (put_merge keys d w k es es' HN HK Hw HF HP) as [H1 H2]. cbn [merge app]. destruct (put keys d es) as [es1|]; cbn [gives] in H1.
      * destruct H1 as (es1' & E1 & HF1). rewrite E1. destruct (IH k es1 es1' HK HF1 (H2 es1 eq_refl) HB') as [H3 H4]. cbn [app].
        fold (eval_body kvs). destruct (merge_all (Tab k es1') (map build_key_value kvs)) as [v'' e'']. split; [exact H3|exact H4].
      * destruct (merge_table k es' (wrap_keys keys w)) as [v' e]. cbn [snd] in H1. destruct (merge_all v' (map build_key_value kvs)) as [v'' e'']. cbn [gives snd]. split; [|discriminate].
        intros E. apply app_eq_nil in E as [E _]. contradiction.
    + split; [|discriminate]. cbn [gives]. unfold build_key_value at 1. destruct (build_value v) as [w e]. cbn [snd] in Hv.
      replace (match keys with [] => (Tab KeyValue [], e) | _ => (wrap_keys keys w, e) end) with (wrap_keys keys w, e) by (destruct keys; [contradiction|reflexivity]).
      destruct (merge (Tab k es') (wrap_keys keys w)) as [v' e']. destruct (merge_all v' (map build_key_value kvs)) as [v'' e'']. cbn [snd]. apply app_nonempty. auto.
Qed.
Lemma value_built v : keyed_value v -> built v.
Proof.
  induction v as [x|vs IH|kvs IH] using syn_ind; intros HK.
  - exists (Scalar x). split; [reflexivity|]. constructor; [reflexivity|exact I].
  - inversion HK as [|? HV|]; subst. rewrite Forall_forall in IH.
    assert (HG : match all_some (map eval vs) with
      | Some ds => flat_map snd (map build_value vs) = [] /\ map data_of (map fst (map build_value vs)) = ds
      | None => flat_map snd (map build_value vs) <> [] end).
    { clear HK. induction vs as [|v vs IHvs]; [split; reflexivity|]. cbn [map all_some flat_map].
      assert (Hv : built v) by (apply IH; [left; reflexivity|apply HV; left; reflexivity]). unfold built in Hv.
      specialize (IHvs ltac:(intros z Hz; apply IH; right; exact Hz) ltac:(intros z Hz; apply HV; right; exact Hz)).
      destruct (eval v) as [d|].
      - destruct Hv as (w & Ew & Hw). rewrite Ew. cbn [snd fst app map]. apply rel_data in Hw. cbn [meaning] in Hw.
        destruct (all_some (map eval vs)) as [ds|]; cbn [option_map]; [|exact IHvs]. destruct IHvs as [E1 E2]. split; [exact E1|]. rewrite Hw, E2. reflexivity.
      - intros E. apply app_eq_nil in E as [E _]. contradiction. }
    unfold built. cbn [eval build_value]. destruct (all_some (map eval vs)) as [ds|]; cbn [option_map].
    + destruct HG as [E1 E2]. rewrite E1. eexists. split; [reflexivity|]. constructor; [cbn [data_of]; rewrite E2; reflexivity|exact I].
    + exact HG.
  - inversion HK as [| |? HV]; subst. rewrite Forall_forall in IH.
    assert (HB : Forall (fun kv => fst kv <> [] /\ built (snd kv)) kvs).
    { apply Forall_forall. intros [keys v] Hin. destruct (HV keys v Hin) as [H1 H2]. split; [exact H1|]. apply (IH (keys, v) Hin). exact H2. }
    destruct (body_merge kvs Table [] [] I (Forall2_nil _) (Forall_nil _) HB) as [HG HP].
    unfold built. cbn [eval build_value]. change (map (fun kv => (fst kv, eval (snd kv))) kvs) with (eval_body kvs).
    change (map (fun kv => let '(keys, v) := kv in let '(w, e) := build_value v in match keys with [] => (Tab KeyValue [], e) | _ => (wrap_keys keys w, e) end) kvs) with (map build_key_value kvs).
    destruct (put_all (eval_body kvs) []) as [es|]; cbn [option_map gives] in *.
    + destruct HG as (es' & E & HF). rewrite E. eexists. split; [reflexivity|]. constructor; [|exact I]. cbn [data_of]. rewrite (rels_data _ _ HF). reflexivity.
    + destruct (merge_all (Tab Table []) (map build_key_value kvs)) as [t e]. exact HG.
Qed.
Lemma body_built kvs : keyed_body kvs -> Forall (fun kv => fst kv <> [] /\ built (snd kv)) kvs.
Proof. intros H. apply Forall_forall. intros [keys v] Hin. destruct (H keys v Hin) as [H1 H2]. split; [exact H1|]. apply value_built. exact H2. Qed.

(** ** Sections *)
(** the value a section is merged as, from the outside in *)
Fixpoint chain (arrays : list (list str)) (pre header : list str) (array : bool) (t : value) : value :=
  match header with
  | [] => t
  | [k] => Tab ParentTable [(k, if array then Arr ArrayOfTable [t] else t)]
  | k :: header =>
      let c := chain arrays (pre ++ [k]) header array t in
      Tab ParentTable [(k, if is_array_key arrays (pre ++ [k]) then Arr ParentArrayOfTable [c] else c)]
  end.
Lemma chain_cons arrays pre k h array t : h <> [] -> chain arrays pre (k :: h) array t =
  Tab ParentTable [(k, if is_array_key arrays (pre ++ [k]) then Arr ParentArrayOfTable [chain arrays (pre ++ [k]) h array t] else chain arrays (pre ++ [k]) h array t)].
Proof. destruct h; [contradiction|reflexivity]. Qed.
Lemma chain_wrap arrays array t : forall pre h, h <> [] ->
  wrap_header arrays (rev pre) (is_array_key arrays pre) (chain arrays pre h array t) = chain arrays [] (pre ++ h) array t.
Proof.
  induction pre as [|k pre IH] using rev_ind; intros h HN; [reflexivity|]. rewrite rev_app_distr. cbn [rev app wrap_header]. rewrite rev_involutive.
  rewrite <- chain_cons by exact HN. rewrite IH by discriminate. rewrite <- app_assoc. reflexivity.
Qed.
Lemma build_section_chain before s : s_header s <> [] ->
  build_section before s = let '(t, errs) := merge_all (Tab Table []) (map build_key_value (s_body s)) in
    (chain (array_keys before (s_header s)) [] (s_header s) (s_array s) t, errs).
Proof.
  intros HN. unfold build_section. destruct (merge_all (Tab Table []) (map build_key_value (s_body s))) as [t errs].
  destruct (rev (s_header s)) as [|k rest] eqn:E.
  - exfalso. apply HN. rewrite <- (rev_involutive (s_header s)), E. reflexivity.
  - assert (EH : s_header s = rev rest ++ [k]) by (rewrite <- (rev_involutive (s_header s)), E; reflexivity).
    f_equal. rewrite <- (rev_involutive rest) at 1.
    change (Tab ParentTable [(k, if s_array s then Arr ArrayOfTable [t] else t)]) with (chain (array_keys before (s_header s)) (rev rest) [k] (s_array s) t).
    rewrite chain_wrap by discriminate. rewrite <- EH. reflexivity.
Qed.

Definition solid (n : node) : Prop := match n with Dir Implicit _ | Dir Defined _ | Elems _ => True | _ => False end.
Notation solids := (Forall (fun e : str * node => solid (snd e))).
Inductive wf : node -> Prop :=
| wf_leaf d : wf (Leaf d)
| wf_dir o es : (o = Implicit -> solids es) -> Forall (fun e : str * node => wf (snd e)) es -> wf (Dir o es)
| wf_elems ts : Forall (Forall (fun e : str * node => wf (snd e))) ts -> wf (Elems ts).
Notation wfs := (Forall (fun e : str * node => wf (snd e))).
Lemma plain_wf : forall n, plain n -> wf n.
Proof.
  fix IH 2. intros n H. destruct H as [d|es HF]; [constructor|]. constructor; [discriminate|]. revert es HF. fix IHF 2. intros es HF.
  destruct HF as [|e l He HF]; [constructor|]. constructor; [apply IH; exact He|apply IHF; exact HF].
Qed.
Lemma plains_wfs es : plains es -> wfs es.
Proof. intros H. eapply Forall_impl; [|exact H]. intros e. apply plain_wf. Qed.
Lemma assoc_forall {A} (P : str * A -> Prop) es k n : Forall P es -> assoc k es = Some n -> exists k', P (k', n).
Proof. induction 1 as [|[k' n'] es H _ IH]; [discriminate|]. cbn [assoc]. destruct (str_eqb k k'); [intros E; injection E as <-; eauto|exact IH]. Qed.
Lemma set_forall {A} (P : A -> Prop) es k n : Forall (fun e : str * A => P (snd e)) es -> P n -> Forall (fun e => P (snd e)) (assoc_set k n es).
Proof. intros HF HP. induction HF as [|[k' n'] es H HF IH]; [constructor|]. cbn [assoc_set]. destruct (str_eqb k k'); constructor; auto. Qed.
Lemma snoc_forall {A} (P : A -> Prop) es k n : Forall (fun e : str * A => P (snd e)) es -> P n -> Forall (fun e => P (snd e)) (es ++ [(k, n)]).
Proof. intros HF HP. apply Forall_app. split; [exact HF|]. constructor; [exact HP|constructor]. Qed.

(** key/values put beside what headers made *)
Definition bound (es : list (str * node)) (keys : list str) : bool :=
  match keys with k :: _ => match assoc k es with Some _ => true | None => false end | [] => false end.
Lemma assoc_app {A} k (a b : list (str * A)) : assoc k (a ++ b) = match assoc k a with Some n => Some n | None => assoc k b end.
Proof. induction a as [|[k' n] a IH]; [reflexivity|]. cbn [assoc app]. destruct (str_eqb k k'); [reflexivity|exact IH]. Qed.
Lemma assoc_set_app {A} k (n : A) a b : assoc k a = None -> assoc_set k n (a ++ b) = a ++ assoc_set k n b.
Proof. induction a as [|[k' n'] a IH]; [reflexivity|]. cbn [assoc assoc_set app]. destruct (str_eqb k k'); [discriminate|]. intros H. rewrite IH by exact H. reflexivity. Qed.
Lemma put_cons k h d es : h <> [] -> put (k :: h) d es = match assoc k es with
      | None => option_map (fun sub => es ++ [(k, Dir Dotted sub)]) (put h d [])
      | Some (Dir Dotted sub) => option_map (fun sub' => assoc_set k (Dir Dotted sub') es) (put h d sub)
      | Some _ => None end.
Proof. destruct h; [contradiction|reflexivity]. Qed.
Lemma put_app keys d sub b : solids sub -> put keys d (sub ++ b) = if bound sub keys then None else option_map (app sub) (put keys d b).
Proof.
  intros HS. destruct keys as [|k h]; [reflexivity|]. cbn [bound]. destruct (assoc k sub) as [n|] eqn:E.
  - destruct (assoc_forall _ _ _ _ HS E) as [k' Hn]. cbn [snd] in Hn. destruct h as [|k2 h].
    + cbn [put]. rewrite assoc_app, E. reflexivity.
    + rewrite put_cons by discriminate. rewrite assoc_app, E. destruct n as [x|[] es|ts]; try contradiction; reflexivity.
  - destruct h as [|k2 h].
    + cbn [put]. rewrite assoc_app, E. destruct (assoc k b); [reflexivity|]. cbn [option_map]. rewrite app_assoc. reflexivity.
    + rewrite (put_cons k (k2 :: h) d (sub ++ b)), (put_cons k (k2 :: h) d b) by discriminate. rewrite assoc_app, E. destruct (assoc k b) as [[x|o es|ts]|]; try reflexivity; [destruct o; try reflexivity|].
      * destruct (put (k2 :: h) d es); [|reflexivity]. cbn [option_map]. rewrite assoc_set_app by exact E. reflexivity.
      * destruct (put (k2 :: h) d []); [|reflexivity]. cbn [option_map]. rewrite app_assoc. reflexivity.
Qed.
Lemma put_all_app sub : solids sub -> forall kvs b,
  put_all kvs (sub ++ b) = if existsb (fun kv => bound sub (fst kv)) kvs then None else option_map (app sub) (put_all kvs b).
Proof.
  intros HS. induction kvs as [|[keys [d|]] kvs IH]; intros b; cbn [put_all existsb fst]; [reflexivity| |destruct (_ || _); reflexivity].
  rewrite put_app by exact HS. destruct (bound sub keys); [reflexivity|]. cbn [orb]. destruct (put keys d b) as [b'|]; cbn [option_map]; [apply IH|].
  destruct (existsb _ kvs); reflexivity.
Qed.
Lemma set_keys {A} k (n : A) es : map fst (assoc_set k n es) = map fst es.
Proof. induction es as [|[k' n'] es IH]; [reflexivity|]. cbn [assoc_set]. destruct (str_eqb k k'); [reflexivity|]. cbn [map fst]. rewrite IH. reflexivity. Qed.
Lemma assoc_in {A} k (es : list (str * A)) : assoc k es = None <-> ~ In k (map fst es).
Proof.
  induction es as [|[k' n] es IH]; cbn [assoc map fst In]; [tauto|]. destruct (str_eqb k k') eqn:E.
  - apply str_eqb_eq in E. subst. split; [discriminate|]. intros H. exfalso. apply H. left. reflexivity.
  - apply str_eqb_neq in E. rewrite IH. split; intros H; [intros [H1|H1]; [congruence|contradiction]|tauto].
Qed.
Lemma put_keys keys d es es2 : put keys d es = Some es2 ->
  (NoDup (map fst es) -> NoDup (map fst es2)) /\ forall a, In a (map fst es2) <-> In a (map fst es) \/ exists r, keys = a :: r.
Proof.
  assert (HA : forall k n r, assoc k es = None -> (NoDup (map fst es) -> NoDup (map fst (es ++ [(k, n : node)]))) /\
    forall a, In a (map fst (es ++ [(k, n)])) <-> In a (map fst es) \/ exists r', k :: r = a :: r').
  { intros k n r HN. apply assoc_in in HN. rewrite map_app. cbn [map fst]. split.
    - intros HD. apply (Permutation_NoDup (Permutation_cons_append (map fst es) k)). constructor; assumption.
    - intros a. rewrite in_app_iff. cbn [In]. split; intros [H|H]; auto.
      + destruct H as [->|[]]. right. eauto.
      + destruct H as [r' H]. injection H as -> _. auto. }
  destruct keys as [|k [|k2 h]]; [discriminate| |].
  - cbn [put]. destruct (assoc k es) eqn:E; [discriminate|]. intros H. injection H as <-. apply HA. exact E.
  - rewrite put_cons by discriminate. destruct (assoc k es) as [[x|[] sub|ts]|] eqn:E; try discriminate.
    + destruct (put (k2 :: h) d sub); [|discriminate]. cbn [option_map]. intros H. injection H as <-. rewrite set_keys. split; [auto|].
      intros a. split; [auto|]. intros [H|[r H]]; [exact H|]. injection H as -> _. destruct (in_dec (list_eq_dec N.eq_dec) a (map fst es)) as [Hi|Hi]; [exact Hi|].
      apply assoc_in in Hi. rewrite Hi in E. discriminate.
    + destruct (put (k2 :: h) d []); [|discriminate]. cbn [option_map]. intros H. injection H as <-. apply HA. exact E.
Qed.
Lemma put_all_keys : forall kvs es es2, put_all kvs es = Some es2 ->
  (NoDup (map fst es) -> NoDup (map fst es2)) /\ forall a, In a (map fst es2) <-> In a (map fst es) \/ exists r d, In (a :: r, d) kvs.
Proof.
  induction kvs as [|[keys [d|]] kvs IH]; intros es es2; cbn [put_all].
  - intros H. injection H as <-. split; [auto|]. intros a. split; [auto|]. intros [H|(r & d & [])]. exact H.
  - destruct (put keys d es) as [es1|] eqn:E; [|discriminate]. intros H. destruct (put_keys _ _ _ _ E) as [H1 H2]. destruct (IH _ _ H) as [H3 H4].
    split; [auto|]. intros a. rewrite H4, H2. cbn [In]. split.
    + intros [[H5|(r & ->)]|(r & d' & H5)]; eauto 6.
    + intros [H5|(r & d' & [H5|H5])]; eauto 6. inversion H5; subst. eauto.
  - discriminate.
Qed.

(** merging the entries of a body into a table that headers made *)
Lemma lookup_app k a b : lookup k (a ++ b) = match lookup k a with Some n => Some n | None => lookup k b end.
Proof. induction a as [|[k' n] a IH]; [reflexivity|]. cbn [lookup app]. destruct (str_eqb k k'); [reflexivity|exact IH]. Qed.
Lemma merge_entries_new : forall es2 es1, NoDup (map fst es2) -> (forall k, In k (map fst es2) -> lookup k es1 = None) ->
  merge_entries es1 es2 = (es1 ++ es2, []).
Proof.
  induction es2 as [|[k w] es2 IH]; intros es1 HD HL; cbn [merge_entries]; [rewrite app_nil_r; reflexivity|]. cbn [map fst] in *. inversion HD; subst.
  unfold merge_entry. rewrite HL by (left; reflexivity). rewrite IH; [rewrite <- app_assoc; reflexivity|assumption|].
  intros k' Hk. rewrite lookup_app, HL by (right; exact Hk). cbn [lookup]. destruct (str_eqb k' k) eqn:E; [|reflexivity]. apply str_eqb_eq in E. subst. contradiction.
Qed.
Definition mild (w : value) : Prop := match w with Scalar _ | Tab _ _ | Arr PlainArray _ => True | _ => False end.
Lemma merge_entries_clash : forall es2 es1, NoDup (map fst es2) -> Forall (fun e : str * value => mild (snd e)) es2 ->
  (forall k, In k (map fst es2) -> lookup k es1 = None \/ exists vs, lookup k es1 = Some (Arr ArrayOfTable vs)) ->
  (exists k, In k (map fst es2) /\ lookup k es1 <> None) -> snd (merge_entries es1 es2) <> [].
Proof.
  induction es2 as [|[k w] es2 IH]; intros es1 HD HM HL (k0 & Hk0 & Hb); [destruct Hk0|]. cbn [merge_entries map fst] in *. inversion HD; subst. inversion HM; subst. cbn [snd] in *.
  unfold merge_entry. destruct (HL k (or_introl eq_refl)) as [EN|[vs EA]].
  - rewrite EN. specialize (IH (es1 ++ [(k, w)])). destruct (merge_entries (es1 ++ [(k, w)]) es2) as [es e']. cbn [snd app] in *. apply IH; auto.
    + intros k' Hk. rewrite lookup_app. destruct (HL k' (or_intror Hk)) as [E|[vs E]]; rewrite E; [|eauto]. cbn [lookup].
      destruct (str_eqb k' k) eqn:E2; [|auto]. apply str_eqb_eq in E2. subst. contradiction.
    + destruct Hk0 as [->|Hk0]; [contradiction|]. exists k0. split; [exact Hk0|]. rewrite lookup_app. destruct (lookup k0 es1); [discriminate|contradiction].
  - rewrite EA. assert (E : match w with Arr a2 ws => if can_merge_arrays ArrayOfTable a2 then let '(w', e) := merge_array ArrayOfTable vs a2 ws in (update k w' es1, e) else (es1, [DuplicateKey k]) | _ => (es1, [DuplicateKey k]) end = (es1, [DuplicateKey k])).
    { destruct w as [x|k2 e2|a2 ws]; try reflexivity. destruct a2; try contradiction. reflexivity. }
    rewrite E. destruct (merge_entries es1 es2). cbn. discriminate.
Qed.
Lemma rels_keys es es' : rels es es' -> map fst es' = map fst es.
Proof. induction 1 as [|a b l l' [Hk _] _ IH]; [reflexivity|]. cbn [map]. rewrite IH, Hk. reflexivity. Qed.
Lemma plains_mild es es' : rels es es' -> plains es -> Forall (fun e : str * value => mild (snd e)) es'.
Proof.
  induction 1 as [|a b l l' [_ Hr] _ IH]; intros HP; [constructor|]. inversion HP as [|? ? Hp HP']; subst. constructor; [|auto].
  inversion Hr as [d v Hd Hs E1 E2|o k es es' Hk HF E1 E2|ts vs Hn HF E1 E2]; rewrite <- E1 in Hp; [|exact I|inversion Hp].
  destruct (snd b) as [x|k es|a0 vs]; try exact I. cbn [static mild] in *. exact Hs.
Qed.

(** no key of the body starts with the name of a table that an earlier, longer header made *)
Definition fresh (array : bool) (header : list str) (firsts : list (list str)) (es : list (str * node)) : Prop :=
  array = false -> forall sub, at_path header es = Some (Dir Implicit sub) ->
  forall k r, In (k :: r) firsts -> forall o t, assoc k sub <> Some (Dir o t).
Definition flags (arrays : list (list str)) (pre header : list str) (es : list (str * node)) : Prop :=
  forall p q, header = p ++ q -> p <> [] -> q <> [] ->
  is_array_key arrays (pre ++ p) = match at_path p es with Some (Elems _) => true | _ => false end.
Definition host_kind (k : tkind) : Prop := match k with InlineTable => False | _ => True end.

Lemma host_no_conflict k es es2 : host_kind k -> conflict k es ParentTable es2 = false.
Proof. destruct k; try contradiction; reflexivity. Qed.
Lemma host_merged k : merged_kind k ParentTable = k.
Proof. destruct k; reflexivity. Qed.
Lemma define_cons array k h body es : h <> [] -> define array (k :: h) body es =
      match assoc k es with
      | None => option_map (fun sub => es ++ [(k, Dir Implicit sub)]) (define array h body [])
      | Some (Dir o sub) => option_map (fun sub' => assoc_set k (Dir o sub') es) (define array h body sub)
      | Some (Elems ts) => option_map (fun t => assoc_set k (Elems (removelast ts ++ [t])) es) (define array h body (last ts []))
      | Some (Leaf _) => None
      end.
Proof. destruct h; [contradiction|reflexivity]. Qed.
Lemma at_path_cons k h es : h <> [] -> at_path (k :: h) es = match assoc k es with Some (Dir _ sub) => at_path h sub | Some (Elems ts) => at_path h (last ts []) | _ => None end.
Proof. destruct h; [contradiction|reflexivity]. Qed.
Lemma at_path_nil h : at_path h [] = None.
Proof. destruct h as [|k [|k2 h]]; reflexivity. Qed.

Lemma wfs_assoc es k n : wfs es -> assoc k es = Some n -> wf n.
Proof. intros H E. destruct (assoc_forall _ _ _ _ H E) as [k' Hn]. exact Hn. Qed.
Lemma forall_last {A} (P : list A -> Prop) ts : P [] -> Forall P ts -> P (last ts []).
Proof. intros H0. induction 1 as [|t ts H HF IH]; [exact H0|]. destruct ts; [exact H|exact IH]. Qed.
Lemma elems_split ts vs : ts <> [] -> Forall2 (fun t v => rel (Dir Defined t) v) ts vs ->
  exists v0 es', vs = v0 ++ [Tab Table es'] /\ rels (last ts []) es' /\ Forall2 (fun t v => rel (Dir Defined t) v) (removelast ts) v0.
Proof.
  intros HN HF. rewrite (app_removelast_last [] HN) in HF. apply Forall2_app_inv_l in HF as (v0 & v1 & H0 & H1 & ->).
  inversion H1 as [|a b l l' Hr Hn]; subst. inversion Hn; subst. inversion Hr as [|o k es es' Hk HF|]; subst. destruct k; try contradiction. eauto.
Qed.

Lemma define_none body array : put_all body [] = None -> forall header es, wfs es -> define array header body es = None.
Proof.
  intros HB. induction header as [|k h IH]; intros es HW; [reflexivity|]. destruct h as [|k2 h].
  - cbn [define]. rewrite HB. destruct array; destruct (assoc k es) as [[x|o sub|ts]|] eqn:E; try reflexivity. destruct o; try reflexivity.
    pose proof (wfs_assoc _ _ _ HW E) as Hw. inversion Hw as [|o es' HS HF|]; subst. rewrite <- (app_nil_r sub), put_all_app by auto. rewrite HB. destruct (existsb _ body); reflexivity.
  - rewrite define_cons by discriminate. destruct (assoc k es) as [[x|o sub|ts]|] eqn:E; try reflexivity.
    + pose proof (wfs_assoc _ _ _ HW E) as Hw. inversion Hw; subst. rewrite IH by assumption. reflexivity.
    + pose proof (wfs_assoc _ _ _ HW E) as Hw. inversion Hw; subst. rewrite IH; [reflexivity|]. apply forall_last; [constructor|assumption].
    + rewrite IH by constructor. reflexivity.
Qed.
Lemma define_merge array body b t arrays : put_all body [] = Some b -> plains b -> rels b t ->
  forall header pre es es' k, header <> [] -> host_kind k -> rels es es' -> wfs es -> flags arrays pre header es -> fresh array header (map fst body) es ->
  gives (define array header body es) k (merge_table k es' (chain arrays pre header array (Tab Table t))).
Proof.
  intros HB HP HT. induction header as [|key h IH]; intros pre es es' k HN HK HF HW HA HFr; [contradiction|].
  pose proof (rels_lookup es es' key HF) as HL. destruct h as [|key2 h].
  - cbn [chain]. rewrite merge_single by (apply host_no_conflict; exact HK). rewrite host_merged. cbn [define]. destruct array.
    + destruct (assoc key es) as [n|] eqn:Ea; destruct (lookup key es') as [w|] eqn:El; try contradiction.
      * unfold merge_entry. rewrite El. inversion HL as [d v Hd Hs|o k0 sub sub' Ho HF0|ts vs HT0 HF0]; subst n w.
        -- cbn [gives snd]. destruct v as [x|kv ev|av vv]; cbn [static] in Hs; try (cbn; discriminate). destruct av; try contradiction. cbn. discriminate.
        -- cbn. discriminate.
        -- rewrite HB. cbn [option_map gives can_merge_arrays merge_array fst snd]. eexists. split; [reflexivity|]. apply rels_set; [exact HF|]. constructor; [destruct ts; discriminate|].
           apply Forall2_app; [exact HF0|]. constructor; [|constructor]. constructor; [exact I|exact HT].
      * rewrite HB. cbn [option_map gives]. unfold merge_entry. rewrite El. cbn [fst snd]. eexists. split; [reflexivity|]. apply rels_snoc; [exact HF|].
        constructor; [discriminate|]. constructor; [|constructor]. constructor; [exact I|exact HT].
    + destruct (assoc key es) as [n|] eqn:Ea; destruct (lookup key es') as [w|] eqn:El; try contradiction.
      * inversion HL as [d v Hd Hs|o k0 sub sub' Ho HF0|ts vs HT0 HF0]; subst n w.
        -- cbn [gives snd]. apply (static_merge_err v _ Table key es' Hs El). eauto 6.
        -- destruct o; destruct k0; cbn [kind_ok] in Ho; try contradiction; unfold merge_entry; rewrite El.
           ++ pose proof (wfs_assoc _ _ _ HW Ea) as Hw. inversion Hw as [|o es1 HS HF1|]; subst. specialize (HS eq_refl).
              rewrite merge_unfold. cbn [conflict kinds_conflict merged_kind]. rewrite <- (app_nil_r sub) at 1. rewrite put_all_app by exact HS. rewrite HB.
              destruct (put_all_keys _ _ _ HB) as [HD HI]. specialize (HD (NoDup_nil _)). cbn [map In] in HI.
              destruct (existsb (fun kv => bound sub (fst kv)) body) eqn:EB.
              ** cbn [option_map gives]. pose proof (merge_entries_clash t sub') as HC. destruct (merge_entries sub' t) as [es2 e2]. cbn [snd] in *.
                 rewrite (rels_keys _ _ HT) in HC. apply HC; [exact HD|exact (plains_mild _ _ HT HP)| |].
                 --- intros k1 Hk1. apply HI in Hk1 as [[]|(r & d & Hin)]. pose proof (rels_lookup _ _ k1 HF0) as HL1.
                     specialize (HFr eq_refl sub). cbn [at_path] in HFr. specialize (HFr Ea k1 r). specialize (HFr (in_map fst _ _ Hin)).
                     destruct (assoc k1 sub) as [n1|] eqn:E1; destruct (lookup k1 sub') as [w1|]; try contradiction; [|auto].
                     destruct (assoc_forall _ _ _ _ HS E1) as [k' Hn]. cbn [snd] in Hn. inversion HL1; subst; [contradiction| |eauto].
                     exfalso. eapply HFr. reflexivity.
                 --- apply existsb_exists in EB as ((keys & d) & Hin & Hb). cbn [fst] in Hb. destruct keys as [|k1 r]; [discriminate|]. exists k1. split; [apply HI; right; eauto|].
                     pose proof (rels_lookup _ _ k1 HF0) as HL1. cbn [bound] in Hb. destruct (assoc k1 sub); [|discriminate]. destruct (lookup k1 sub'); [discriminate|contradiction].
              ** cbn [option_map gives]. rewrite merge_entries_new.
                 --- cbn [fst snd]. eexists. split; [reflexivity|]. apply rels_set; [exact HF|]. constructor; [exact I|]. apply Forall2_app; assumption.
                 --- rewrite (rels_keys _ _ HT). exact HD.
                 --- rewrite (rels_keys _ _ HT). intros k1 Hk1. apply HI in Hk1 as [[]|(r & d & Hin)]. pose proof (rels_lookup _ _ k1 HF0) as HL1.
                     destruct (assoc k1 sub) as [n1|] eqn:E1; destruct (lookup k1 sub') as [w1|]; try contradiction; [|reflexivity]. exfalso.
                     assert (EB' : existsb (fun kv => bound sub (fst kv)) body = true); [|congruence]. apply existsb_exists. exists (k1 :: r, d). split; [exact Hin|]. cbn [fst bound]. rewrite E1. reflexivity.
           ++ rewrite merge_unfold. cbn. discriminate.
           ++ rewrite merge_unfold. cbn. discriminate.
           ++ rewrite merge_unfold. cbn. discriminate.
        -- cbn [gives snd]. unfold merge_entry. rewrite El. cbn. discriminate.
      * rewrite HB. cbn [option_map gives]. unfold merge_entry. rewrite El. cbn [fst snd]. eexists. split; [reflexivity|]. apply rels_snoc; [exact HF|]. constructor; [exact I|exact HT].
  - assert (HN2 : key2 :: h <> []) by discriminate. set (h2 := key2 :: h) in *. rewrite chain_cons by exact HN2.
    rewrite merge_single by (apply host_no_conflict; exact HK). rewrite host_merged. rewrite define_cons by exact HN2.
    pose proof (HA [key] h2 eq_refl ltac:(discriminate) HN2) as HA1. cbn [at_path] in HA1.
    assert (HA2 : forall sub, (forall p, p <> [] -> at_path (key :: p) es = at_path p sub) -> flags arrays (pre ++ [key]) h2 sub).
    { intros sub Hsub p q E Hp Hq. rewrite <- app_assoc. cbn [app]. rewrite (HA (key :: p) q); [rewrite Hsub by exact Hp; reflexivity|rewrite E; reflexivity|discriminate|exact Hq]. }
    assert (HF2 : forall sub, (forall p, p <> [] -> at_path (key :: p) es = at_path p sub) -> fresh array h2 (map fst body) sub).
    { intros sub Hsub Harr sub1 E. apply (HFr Harr sub1). rewrite Hsub by exact HN2. exact E. }
    set (c := chain arrays (pre ++ [key]) h2 array (Tab Table t)) in *.
    assert (Ec : exists w, c = Tab ParentTable w) by (unfold c, h2; destruct h; cbn [chain]; eauto). destruct Ec as [cw Ec].
    destruct (assoc key es) as [n|] eqn:Ea; destruct (lookup key es') as [w|] eqn:El; try contradiction.
    + inversion HL as [d v Hd Hs|o k0 sub sub' Ho HF0|ts vs HT0 HF0]; subst n w; rewrite HA1.
      * cbn [gives snd]. apply (static_merge_err v _ ParentTable key es' Hs El). eauto 6.
      * pose proof (wfs_assoc _ _ _ HW Ea) as Hw. inversion Hw as [|? ? HS HF1|]; subst. 
        specialize (IH (pre ++ [key]) sub sub' k0 HN2). unfold merge_entry. rewrite El, Ec, <- Ec.
        assert (Hsub : forall p, p <> [] -> at_path (key :: p) es = at_path p sub) by (intros p Hp; rewrite at_path_cons, Ea by exact Hp; reflexivity).
        specialize (IH ltac:(destruct o, k0; cbn in *; tauto) HF0 HF1 (HA2 _ Hsub) (HF2 _ Hsub)). fold c in IH.
        destruct (define array h2 body sub) as [sub2|]; cbn [option_map gives] in *.
        -- destruct IH as (es2 & E2 & HR2). rewrite E2. cbn [fst snd]. eexists. split; [reflexivity|]. apply rels_set; [exact HF|]. constructor; assumption.
        -- destruct (merge_table k0 sub' c) as [w e]. exact IH.
      * pose proof (wfs_assoc _ _ _ HW Ea) as Hw. inversion Hw as [| |? HF1]; subst. 
        destruct (elems_split ts vs HT0 HF0) as (v0 & es0' & -> & HR0 & HRr). 
        specialize (IH (pre ++ [key]) (last ts []) es0' Table HN2). unfold merge_entry. rewrite El. cbn [can_merge_arrays merge_array rev app]. rewrite Ec, rev_app_distr, <- Ec. cbn [rev app]. rewrite rev_involutive.
        assert (Hsub : forall p, p <> [] -> at_path (key :: p) es = at_path p (last ts [])) by (intros p Hp; rewrite at_path_cons, Ea by exact Hp; reflexivity).
        specialize (IH I HR0 (forall_last _ _ (Forall_nil _) HF1) (HA2 _ Hsub) (HF2 _ Hsub)). fold c in IH.
        destruct (define array h2 body (last ts [])) as [t2|]; cbn [option_map gives] in *.
        -- destruct IH as (es2 & E2 & HR2). rewrite E2. cbn [fst snd]. eexists. split; [reflexivity|]. apply rels_set; [exact HF|]. constructor; [destruct (removelast ts); discriminate|].
           apply Forall2_app; [exact HRr|]. constructor; [|constructor]. constructor; [exact I|exact HR2].
        -- destruct (merge_table Table es0' c) as [w e]. exact IH.
    + rewrite HA1. unfold merge_entry. rewrite El. cbn [fst snd]. specialize (IH (pre ++ [key]) [] [] ParentTable HN2 I (Forall2_nil _) (Forall_nil _)).
      assert (Hsub : forall p, p <> [] -> at_path (key :: p) es = at_path p []) by (intros p Hp; rewrite at_path_cons, Ea, at_path_nil by exact Hp; reflexivity).
      specialize (IH (HA2 _ Hsub) (HF2 _ Hsub)). fold c in IH.
      assert (Em : merge_table ParentTable [] c = (c, [])).
      { unfold c, h2. destruct h as [|k3 h]; [cbn [chain]|rewrite chain_cons by discriminate]; rewrite merge_single by reflexivity; reflexivity. }
      rewrite Em in IH. destruct (define array h2 body []) as [sub|]; cbn [option_map gives snd] in *; [|contradiction].
      destruct IH as (es2 & E2 & HR2). eexists. split; [reflexivity|]. apply rels_snoc; [exact HF|]. assert (E3 : c = Tab ParentTable es2) by congruence. rewrite E3. constructor; [exact I|exact HR2].
Qed.

(** ** Whole documents *)
Lemma put_plains keys : forall d es es2, plains es -> put keys d es = Some es2 -> plains es2.
Proof.
  induction keys as [|k h IH]; intros d es es2 HP H; [discriminate|]. destruct h as [|k2 h].
  - cbn [put] in H. destruct (assoc k es); [discriminate|]. injection H as <-. apply plains_snoc; [exact HP|constructor].
  - rewrite put_cons in H by discriminate. destruct (assoc k es) as [[x|o sub|ts]|] eqn:E; try discriminate.
    + destruct o; try discriminate. destruct (put (k2 :: h) d sub) as [sub2|] eqn:E2; [|discriminate]. injection H as <-. apply plains_set; [exact HP|]. constructor.
      eapply IH; [|exact E2]. pose proof (plains_assoc _ _ _ HP E) as Hp. inversion Hp; subst. assumption.
    + destruct (put (k2 :: h) d []) as [sub2|] eqn:E2; [|discriminate]. injection H as <-. apply plains_snoc; [exact HP|]. constructor. eapply IH; [constructor|exact E2].
Qed.
Lemma put_all_plains : forall kvs es es2, plains es -> put_all kvs es = Some es2 -> plains es2.
Proof.
  induction kvs as [|[keys [d|]] kvs IH]; intros es es2 HP H; cbn [put_all] in H; [injection H as <-; exact HP| |discriminate].
  destruct (put keys d es) as [es1|] eqn:E; [|discriminate]. eapply IH; [|exact H]. eapply put_plains; [exact HP|exact E].
Qed.
Lemma define_solid array header body es es2 : define array header body es = Some es2 -> solids es -> solids es2.
Proof.
  intros H HS. destruct header as [|k h]; [discriminate|]. destruct h as [|k2 h].
  - cbn [define] in H. destruct array; destruct (assoc k es) as [[x|o sub|ts]|] eqn:E; try discriminate.
    + destruct (put_all body []); [|discriminate]. injection H as <-. apply set_forall; [exact HS|exact I].
    + destruct (put_all body []); [|discriminate]. injection H as <-. apply snoc_forall; [exact HS|exact I].
    + destruct o; try discriminate. destruct (put_all body sub); [|discriminate]. injection H as <-. apply set_forall; [exact HS|exact I].
    + destruct (put_all body []); [|discriminate]. injection H as <-. apply snoc_forall; [exact HS|exact I].
  - rewrite define_cons in H by discriminate. destruct (assoc k es) as [[x|o sub|ts]|] eqn:E; try discriminate.
    + destruct (define array (k2 :: h) body sub); [|discriminate]. injection H as <-. apply set_forall; [exact HS|].
      destruct (assoc_forall _ _ _ _ HS E) as [k' Hn]. destruct o; exact Hn.
    + destruct (define array (k2 :: h) body (last ts [])); [|discriminate]. injection H as <-. apply set_forall; [exact HS|exact I].
    + destruct (define array (k2 :: h) body []); [|discriminate]. injection H as <-. apply snoc_forall; [exact HS|exact I].
Qed.
Lemma define_wf array body : forall header es es2, define array header body es = Some es2 -> wfs es -> wfs es2.
Proof.
  assert (HB : forall b, put_all body [] = Some b -> wfs b) by (intros b Hb; apply plains_wfs; eapply put_all_plains; [constructor|exact Hb]).
  induction header as [|k h IH]; intros es es2 H HW; [discriminate|]. destruct h as [|k2 h].
  - cbn [define] in H. destruct array; destruct (assoc k es) as [[x|o sub|ts]|] eqn:E; try discriminate.
    + destruct (put_all body []) as [b|]; [|discriminate]. injection H as <-. apply set_forall; [exact HW|]. pose proof (wfs_assoc _ _ _ HW E) as Hw. inversion Hw; subst.
      constructor. apply Forall_app. split; [assumption|]. constructor; [|constructor]. apply HB. reflexivity.
    + destruct (put_all body []) as [b|]; [|discriminate]. injection H as <-. apply snoc_forall; [exact HW|]. constructor. constructor; [|constructor]. apply HB. reflexivity.
    + destruct o; try discriminate. destruct (put_all body sub) as [b|] eqn:Eb; [|discriminate]. injection H as <-. apply set_forall; [exact HW|].
      pose proof (wfs_assoc _ _ _ HW E) as Hw. inversion Hw as [|? ? HS HF|]; subst. constructor; [discriminate|].
      rewrite <- (app_nil_r sub), put_all_app in Eb by auto. destruct (existsb _ body); [discriminate|]. destruct (put_all body []) as [b0|]; [|discriminate]. injection Eb as <-.
      apply Forall_app. split; [exact HF|]. apply HB. reflexivity.
    + destruct (put_all body []) as [b|]; [|discriminate]. injection H as <-. apply snoc_forall; [exact HW|]. constructor; [discriminate|]. apply HB. reflexivity.
  - rewrite define_cons in H by discriminate. destruct (assoc k es) as [[x|o sub|ts]|] eqn:E; try discriminate.
    + destruct (define array (k2 :: h) body sub) as [sub2|] eqn:E2; [|discriminate]. injection H as <-. apply set_forall; [exact HW|].
      pose proof (wfs_assoc _ _ _ HW E) as Hw. inversion Hw as [|? ? HS HF|]; subst. constructor; [|eapply IH; eassumption]. intros Ho. eapply define_solid; [exact E2|auto].
    + destruct (define array (k2 :: h) body (last ts [])) as [t2|] eqn:E2; [|discriminate]. injection H as <-. apply set_forall; [exact HW|].
      pose proof (wfs_assoc _ _ _ HW E) as Hw. inversion Hw as [| |? HF]; subst. constructor. apply Forall_app. split.
      * destruct ts as [|t ts]; [constructor|]. rewrite (app_removelast_last (l := t :: ts) []) in HF by discriminate. apply Forall_app in HF. apply HF.
      * constructor; [|constructor]. eapply IH; [exact E2|]. apply forall_last; [constructor|exact HF].
    + destruct (define array (k2 :: h) body []) as [sub|] eqn:E2; [|discriminate]. injection H as <-. apply snoc_forall; [exact HW|].
      constructor; [|eapply IH; [exact E2|constructor]]. intros _. eapply define_solid; [exact E2|constructor].
Qed.
Lemma define_fresh array body : forall header es es2, define array header body es = Some es2 -> wfs es -> fresh array header (map fst body) es.
Proof.
  induction header as [|k h IH]; intros es es2 H HW Harr sub Hat; [discriminate|]. subst array. destruct h as [|k2 h].
  - cbn [define at_path] in *. rewrite Hat in H. destruct (put_all body sub) as [b|] eqn:Eb; [|discriminate].
    pose proof (wfs_assoc _ _ _ HW Hat) as Hw. inversion Hw as [|? ? HS HF|]; subst. rewrite <- (app_nil_r sub), put_all_app in Eb by auto.
    destruct (existsb (fun kv => bound sub (fst kv)) body) eqn:EB; [discriminate|]. intros k1 r Hin o t E1.
    apply in_map_iff in Hin as ((keys & d) & Ek & Hin). cbn [fst] in Ek. subst keys.
    assert (EB' : existsb (fun kv => bound sub (fst kv)) body = true); [|congruence]. apply existsb_exists. exists (k1 :: r, d). split; [exact Hin|]. cbn [fst bound]. rewrite E1. reflexivity.
  - rewrite define_cons in H by discriminate. rewrite at_path_cons in Hat by discriminate. destruct (assoc k es) as [[x|o sub0|ts]|] eqn:E; try discriminate; pose proof (wfs_assoc _ _ _ HW E) as Hw.
    + destruct (define false (k2 :: h) body sub0) as [sub2|] eqn:E2; [|discriminate]. eapply IH; [exact E2| |reflexivity|exact Hat]. inversion Hw; assumption.
    + destruct (define false (k2 :: h) body (last ts [])) as [t2|] eqn:E2; [|discriminate]. eapply IH; [exact E2| |reflexivity|exact Hat]. inversion Hw; subst. apply forall_last; [constructor|assumption].
Qed.

(** the condition under which a section is placed as TOML says *)
Definition placed (before : list section) (s : section) (es : list (str * node)) : Prop :=
  flags (array_keys before (s_header s)) [] (s_header s) es.
Definition section_fresh (s : section) (es : list (str * node)) : Prop := fresh (s_array s) (s_header s) (map fst (s_body s)) es.
Lemma eval_body_keys kvs : map fst (eval_body kvs) = map fst kvs.
Proof. unfold eval_body. rewrite map_map. reflexivity. Qed.

Lemma section_merge before s es es' : s_header s <> [] -> keyed_body (s_body s) -> rels es es' -> wfs es -> placed before s es -> section_fresh s es ->
  let '(t, errs) := build_section before s in
  let '(v, e) := merge_table Root es' t in
  gives (define (s_array s) (s_header s) (eval_body (s_body s)) es) Root (v, errs ++ e).
Proof.
  intros HN HK HF HW HA HFr. rewrite build_section_chain by exact HN.
  destruct (body_merge (s_body s) Table [] [] I (Forall2_nil _) (Forall_nil _) (body_built _ HK)) as [HG HP].
  destruct (merge_all (Tab Table []) (map build_key_value (s_body s))) as [t errs].
  destruct (put_all (eval_body (s_body s)) []) as [b|] eqn:EB; cbn [gives] in HG.
  - destruct HG as (t' & E & HT). injection E as -> ->. unfold section_fresh in HFr. rewrite <- eval_body_keys in HFr.
    pose proof (define_merge (s_array s) _ b t' (array_keys before (s_header s)) EB (HP b eq_refl) HT (s_header s) [] es es' Root HN I HF HW HA HFr) as HM.
    destruct (merge_table Root es' _) as [v e]. exact HM.
  - rewrite (define_none _ (s_array s) EB) by exact HW. cbn [snd] in HG. destruct (merge_table Root es' _) as [v e]. cbn [gives snd]. intros E. apply app_eq_nil in E as [E _]. contradiction.
Qed.
Lemma merge_keeps_table k es v2 : exists k' es', fst (merge_table k es v2) = Tab k' es'.
Proof.
  destruct v2 as [x|k2 es2|a vs]; cbn [merge_table fst]; eauto. destruct (conflict k es k2 es2); cbn [fst]; eauto.
  match goal with |- exists k' es', fst (let '(_, _) := ?x in _) = _ => destruct x as [y z] end. cbn [fst]. eauto.
Qed.
Lemma sections_merge : forall l before es es', (forall s, In s l -> s_header s <> [] /\ keyed_body (s_body s)) -> rels es es' -> wfs es ->
  (forall l1 s l2 es1, l = l1 ++ s :: l2 -> define_all l1 es = Some es1 -> placed (rev l1 ++ before) s es1) ->
  (forall l1 s l2 es1, l = l1 ++ s :: l2 -> define_all l1 es = Some es1 -> section_fresh s es1) ->
  gives (define_all l es) Root (merge_sections (Tab Root es') before l).
Proof.
  induction l as [|s l IH]; intros before es es' HK HF HW HP HR.
  - cbn. eauto.
  - destruct (HK s (or_introl eq_refl)) as [HN HB].
    pose proof (section_merge before s es es' HN HB HF HW (HP [] s l es eq_refl eq_refl) (HR [] s l es eq_refl eq_refl)) as HM.
    cbn [define_all merge_sections]. destruct (build_section before s) as [t errs]. cbn [merge]. destruct (merge_table Root es' t) as [v e] eqn:EM.
    destruct (define (s_array s) (s_header s) (eval_body (s_body s)) es) as [es1|] eqn:ED; cbn [gives] in HM.
    + destruct HM as (es1' & E & HF1). injection E as -> E2. apply app_eq_nil in E2 as [-> ->]. specialize (IH (s :: before) es1 es1').
      destruct (merge_sections (Tab Root es1') (s :: before) l) as [v2 e2]. cbn [app]. apply IH.
      * intros s' Hs. apply HK. right. exact Hs.
      * exact HF1.
      * eapply define_wf; [exact ED|exact HW].
      * intros l1 s' l2 es2 -> Hd. specialize (HP (s :: l1) s' l2 es2 eq_refl). cbn [define_all rev] in HP. rewrite ED in HP. rewrite <- app_assoc in HP. apply HP. exact Hd.
      * intros l1 s' l2 es2 -> Hd. specialize (HR (s :: l1) s' l2 es2 eq_refl). cbn [define_all] in HR. rewrite ED in HR. apply HR. exact Hd.
    + destruct (merge_sections v (s :: before) l) as [v2 e2]. cbn [gives snd] in *. rewrite app_assoc. intros E. apply app_eq_nil in E as [E _]. contradiction.
Qed.
Lemma merge_all_root_table l : forall k es, exists k' es', fst (merge_all (Tab k es) l) = Tab k' es'.
Proof.
  induction l as [|[w e] l IH]; intros k es; cbn [merge_all]; [cbn; eauto|]. cbn [merge]. destruct (merge_keeps_table k es w) as (k1 & es1 & E).
  destruct (merge_table k es w) as [v' e']. cbn [fst] in E. subst v'. specialize (IH k1 es1). destruct (merge_all (Tab k1 es1) l) as [v2 e2]. exact IH.
Qed.
Lemma document_merge d : keyed_document d ->
  (forall l1 s l2 es, d_sections d = l1 ++ s :: l2 -> read d l1 = Some es -> placed (rev l1) s es) ->
  (forall l1 s l2 es, d_sections d = l1 ++ s :: l2 -> read d l1 = Some es -> section_fresh s es) ->
  match toml d with
  | Some t => exists v, build_document d = (v, []) /\ data_of v = t
  | None => snd (build_document d) <> []
  end.
Proof.
  intros [HB HS] HP HR. destruct (body_merge (d_body d) Root [] [] I (Forall2_nil _) (Forall_nil _) (body_built _ HB)) as [HG HPl].
  unfold toml, build_document, read in *. destruct (merge_all (Tab Root []) (map build_key_value (d_body d))) as [v errs].
  destruct (put_all (eval_body (d_body d)) []) as [es|]; cbn [gives] in HG.
  - destruct HG as (es' & E & HF). injection E as -> ->.
    pose proof (sections_merge (d_sections d) [] es es' HS HF (plains_wfs _ (HPl es eq_refl))) as HM.
    destruct (merge_sections (Tab Root es') [] (d_sections d)) as [v2 e2]. specialize (HM ltac:(intros; rewrite app_nil_r; eapply HP; eassumption) ltac:(intros; eapply HR; eassumption)).
    destruct (define_all (d_sections d) es) as [es2|]; cbn [option_map gives app] in *.
    + destruct HM as (es2' & E & HF2). injection E as -> ->. eexists. split; [reflexivity|]. cbn [data_of table_meaning meaning]. unfold table_meaning. cbn [meaning]. f_equal. apply rels_data. exact HF2.
    + exact HM.
  - destruct (merge_sections v [] (d_sections d)) as [v2 e2]. cbn [snd] in *. intros E. apply app_eq_nil in E as [E _]. contradiction.
Qed.
Lemma read_fresh d t : toml d = Some t -> forall l1 s l2 es, d_sections d = l1 ++ s :: l2 -> read d l1 = Some es -> section_fresh s es.
Proof.
  unfold toml, read. destruct (put_all (eval_body (d_body d)) []) as [es0|] eqn:E0; [|discriminate]. intros HT l1 s l2 es Hl Hr. rewrite Hl in HT.
  assert (HW0 : wfs es0) by (apply plains_wfs; eapply put_all_plains; [constructor|exact E0]). clear E0 Hl.
  revert es0 HT Hr HW0. induction l1 as [|s1 l1 IH]; intros es0 HT Hr HW0.
  - cbn [define_all app] in *. injection Hr as <-. destruct (define (s_array s) (s_header s) (eval_body (s_body s)) es0) as [es2|] eqn:ED; [|discriminate].
    unfold section_fresh. rewrite <- eval_body_keys. eapply define_fresh; [exact ED|exact HW0].
  - cbn [define_all app] in *. destruct (define (s_array s1) (s_header s1) (eval_body (s_body s1)) es0) as [es2|] eqn:ED; [|discriminate]. eapply IH; [exact HT|exact Hr|]. eapply define_wf; [exact ED|exact HW0].
Qed.

(** ** Which arrays of tables a header is told about *)
Lemma starts_with_app : forall a b, starts_with (a ++ b) a = true.
Proof. induction a as [|k a IH]; intros b; [destruct b; reflexivity|]. cbn [starts_with app]. rewrite str_eqb_refl. apply IH. Qed.
Lemma starts_with_spec : forall a b, starts_with a b = true <-> exists c, a = b ++ c.
Proof.
  intros a b. split.
  - revert a. induction b as [|k b IH]; intros a; [exists a; reflexivity|]. destruct a as [|k' a]; [discriminate|]. cbn [starts_with]. intros H. apply andb_true_iff in H as [H1 H2].
    apply str_eqb_eq in H1. subst. destruct (IH _ H2) as [c ->]. exists c. reflexivity.
  - intros [c ->]. apply starts_with_app.
Qed.
Lemma is_array_key_in arrays p : is_array_key arrays p = true <-> In p arrays.
Proof.
  unfold is_array_key. rewrite existsb_exists. split.
  - intros (q & Hin & H). apply andb_true_iff in H as [H1 H2]. apply starts_with_spec in H1 as [c ->]. apply starts_with_spec in H2 as [c2 E].
    rewrite <- app_assoc in E. rewrite <- (app_nil_r q) in E at 1. apply app_inv_head in E. symmetry in E. apply app_eq_nil in E as [-> _]. rewrite app_nil_r. exact Hin.
  - intros H. exists p. split; [exact H|]. rewrite andb_true_iff, !starts_with_spec. split; exists []; rewrite app_nil_r; reflexivity.
Qed.
Lemma same_first_spec a b : a <> [] -> same_first a b = true <-> hd_error b = hd_error a.
Proof.
  intros HN. destruct a as [|x a]; [contradiction|]. destruct b as [|y b]; cbn [same_first hd_error]; [split; discriminate|].
  split; [intros H; apply str_eqb_eq in H; congruence|]. intros H. injection H as ->. apply str_eqb_refl.
Qed.
Lemma in_take_while {A} (f : A -> bool) : forall l x, In x (take_while f l) <-> exists l1 l2, l = l1 ++ x :: l2 /\ forallb f l1 = true /\ f x = true.
Proof.
  induction l as [|y l IH]; intros x; cbn [take_while].
  - split; [intros []|]. intros (l1 & l2 & E & _). destruct l1; discriminate.
  - destruct (f y) eqn:Ef.
    + cbn [In]. rewrite IH. split.
      * intros [->|(l1 & l2 & -> & H1 & H2)]; [exists [], l; auto|]. exists (y :: l1), l2. cbn [forallb app]. rewrite Ef. auto.
      * intros (l1 & l2 & E & H1 & H2). destruct l1 as [|z l1]; injection E as -> ->; [auto|]. cbn [forallb] in H1. apply andb_true_iff in H1 as [_ H1]. right. eauto.
    + split; [intros []|]. intros (l1 & l2 & E & H1 & H2). destruct l1 as [|z l1]; injection E as -> ->; [congruence|]. cbn [forallb] in H1. rewrite Ef in H1. discriminate.
Qed.
Lemma filter_split {A} (f : A -> bool) : forall l l1 x l2, filter f l = l1 ++ x :: l2 -> exists a b, l = a ++ x :: b /\ filter f a = l1 /\ filter f b = l2 /\ f x = true.
Proof.
  induction l as [|y l IH]; intros l1 x l2 H; [destruct l1; discriminate|]. cbn [filter] in H. destruct (f y) eqn:Ef.
  - destruct l1 as [|z l1]; injection H as -> H.
    + exists [], l. auto.
    + destruct (IH _ _ _ H) as (a & b & -> & H1 & H2 & H3). exists (z :: a), b. cbn [filter app]. rewrite Ef, H1. auto.
  - destruct (IH _ _ _ H) as (a & b & -> & H1 & H2 & H3). exists (y :: a), b. cbn [filter app]. rewrite Ef, H1. auto.
Qed.
Lemma announced_spec earlier s p q : s_header s = p ++ q -> p <> [] ->
  is_array_key (array_keys (rev earlier) (s_header s)) p = true <-> announced earlier s p.
Proof.
  intros EH HP. assert (HN : s_header s <> []) by (rewrite EH; destruct p; [contradiction|discriminate]).
  rewrite is_array_key_in. unfold array_keys. rewrite filter_In, in_take_while. split.
  - intros [(l1 & l2 & E & H1 & H2) _]. apply map_eq_app in E as (m1 & m2 & E & E1 & E2). destruct m2 as [|a m2]; [discriminate|]. cbn [map] in E2. injection E2 as E2 E3.
    apply filter_split in E as (x & y & E & Hx & Hy & Ha). exists (rev y), a, (rev x).
    split; [rewrite <- (rev_involutive earlier), E, rev_app_distr; cbn [rev]; rewrite <- app_assoc; reflexivity|]. split; [exact Ha|]. split; [exact E2|].
    intros b Hb Hab. apply in_rev in Hb. assert (Hb2 : In b m1) by (rewrite <- Hx; apply filter_In; auto).
    apply same_first_spec; [exact HN|]. rewrite forallb_forall in H1. apply H1. rewrite <- E1. apply in_map. exact Hb2.
  - intros (l1 & a & l2 & -> & Ha & Ep & Hb). split; [|rewrite EH; apply starts_with_app].
    exists (map s_header (filter s_array (rev l2))), (map s_header (filter s_array (rev l1))). rewrite rev_app_distr. cbn [rev]. rewrite <- app_assoc, filter_app, map_app. cbn [app filter].
    rewrite Ha. cbn [map]. rewrite Ep. split; [reflexivity|]. split.
    + apply forallb_forall. intros h Hh. apply in_map_iff in Hh as (b & <- & Hin). apply filter_In in Hin as [Hin Hab]. apply in_rev in Hin. apply same_first_spec; [exact HN|]. apply Hb; assumption.
    + apply same_first_spec; [exact HN|]. rewrite EH. destruct p; [contradiction|reflexivity].
Qed.

(** ** Nothing panics, nothing is lost *)
Fixpoint val_ind (P : value -> Prop) (HS : forall x, P (Scalar x)) (HT : forall k es, Forall (fun e => P (snd e)) es -> P (Tab k es))
    (HA : forall a vs, Forall P vs -> P (Arr a vs)) (v : value) : P v :=
  match v with
  | Scalar x => HS x
  | Tab k es => HT k es ((fix go l : Forall (fun e => P (snd e)) l := match l with [] => Forall_nil _ | x :: l => Forall_cons x (val_ind P HS HT HA (snd x)) (go l) end) es)
  | Arr a vs => HA a vs ((fix go l : Forall P l := match l with [] => Forall_nil _ | x :: l => Forall_cons x (val_ind P HS HT HA x) (go l) end) vs)
  end.
(** arrays standing for the elements of an array of tables hold one table *)
Inductive single : value -> Prop :=
| single_scalar x : single (Scalar x)
| single_tab k es : Forall (fun e : str * value => single (snd e)) es -> single (Tab k es)
| single_arr a vs : (a = ParentArrayOfTable -> exists k es, vs = [Tab k es]) -> Forall single vs -> single (Arr a vs).
Lemma update_perm es k w w1 : lookup k es = Some w1 -> forall extra, Permutation (scalars w) (scalars w1 ++ extra) ->
  Permutation (scalars (Tab Root (update k w es))) (scalars (Tab Root es) ++ extra).
Proof.
  cbn [scalars]. induction es as [|[k' v'] es IH]; intros HL extra HP; [discriminate|]. cbn [lookup update] in *. destruct (str_eqb k k').
  - injection HL as ->. cbn [flat_map snd]. rewrite HP, <- !app_assoc. apply Permutation_app_head. apply Permutation_app_comm.
  - cbn [flat_map snd]. rewrite (IH HL extra HP), app_assoc. reflexivity.
Qed.
Definition sound (es1 : list (str * value)) (r : value * list error) (v2 : value) : Prop :=
  ~ In Unreachable (snd r) /\ (snd r = [] -> Permutation (scalars (fst r)) (scalars (Tab Root es1) ++ scalars v2)).
Lemma merge_sound v2 : single v2 ->
  match v2 with
  | Tab _ _ => forall k1 es1, sound es1 (merge_table k1 es1 v2) v2
  | Arr ParentArrayOfTable ws => forall w, ws = [w] -> match w with Tab _ _ => forall k1 es1, sound es1 (merge_table k1 es1 w) w | _ => True end
  | _ => True
  end.
Proof.
  induction v2 as [x|k2 es2 IH|a vs IH] using val_ind; intros HS.
  - exact I.
  - intros k1 es1. rewrite merge_unfold. destruct (conflict k1 es1 k2 es2).
    + split; cbn [snd]; [intros [H|[]]; discriminate|discriminate].
    + inversion HS as [|? ? HSe|]; subst. revert es1. induction es2 as [|[key w2] es2 IHe]; intros es1.
      * cbn [merge_entries]. split; [intros []|]. intros _. cbn [fst scalars flat_map]. rewrite app_nil_r. reflexivity.
      * inversion IH as [|? ? Hw2 IH']; subst. inversion HSe as [|? ? HSw HSe']; subst. cbn [snd] in *.
        assert (HE : ~ In Unreachable (snd (merge_entry key w2 es1)) /\ (snd (merge_entry key w2 es1) = [] ->
            Permutation (scalars (Tab Root (fst (merge_entry key w2 es1)))) (scalars (Tab Root es1) ++ scalars w2))).
        { unfold merge_entry. destruct (lookup key es1) as [w1|] eqn:EL.
          - destruct w1 as [x|k es|a1 vs]; destruct w2 as [x2|k' es'|a2 ws]; try (split; cbn [snd]; [intros [H|[]]; discriminate|discriminate]).
            + specialize (Hw2 HSw k es). destruct (merge_table k es (Tab k' es')) as [w e]. destruct Hw2 as [H1 H2]. cbn [fst snd] in *.
              split; [exact H1|]. intros ->. eapply update_perm; [exact EL|]. exact (H2 eq_refl).
            + destruct (can_merge_arrays a1 a2) eqn:EC; [|split; cbn [snd]; [intros [H|[]]; discriminate|discriminate]].
              destruct a2.
              * cbn [merge_array fst snd]. split; [intros []|]. intros _. eapply update_perm; [exact EL|]. cbn [scalars]. rewrite flat_map_app. reflexivity.
              * inversion HSw as [| |? ? Hone HSvs]; subst. destruct (Hone eq_refl) as (k3 & es3 & ->). specialize (Hw2 HSw _ eq_refl). cbn beta iota in Hw2.
                unfold merge_array. cbn [rev app].
                destruct (rev vs) as [|v r] eqn:ER.
                -- cbn [fst snd]. split; [intros []|]. intros _. eapply update_perm; [exact EL|]. cbn [scalars]. rewrite flat_map_app. reflexivity.
                -- assert (Ev : vs = rev r ++ [v]) by (rewrite <- (rev_involutive vs), ER; reflexivity). 
                   destruct v as [x|k es|a0 vs0].
                   ++ cbn [fst snd]. split; [intros []|]. intros _. eapply update_perm; [exact EL|]. cbn [scalars]. rewrite flat_map_app. reflexivity.
                   ++ specialize (Hw2 k es). destruct (merge_table k es (Tab k3 es3)) as [w e]. destruct Hw2 as [H1 H2]. cbn [fst snd] in *. split; [exact H1|]. intros ->.
                      eapply update_perm; [exact EL|]. specialize (H2 eq_refl). rewrite Ev. cbn [scalars flat_map] in *. rewrite !flat_map_app. cbn [flat_map scalars]. rewrite !app_nil_r.
                      rewrite <- app_assoc. apply Permutation_app_head. exact H2.
                   ++ cbn [fst snd]. split; [intros []|]. intros _. eapply update_perm; [exact EL|]. cbn [scalars]. rewrite flat_map_app. reflexivity.
              * destruct a1; discriminate.
          - cbn [fst snd]. split; [intros []|]. intros _. cbn [scalars]. rewrite flat_map_app. cbn [flat_map snd]. rewrite app_nil_r. reflexivity. }
        cbn [merge_entries]. destruct (merge_entry key w2 es1) as [es1' e]. cbn [fst snd] in HE. destruct HE as [HE1 HE2].
        specialize (IHe IH' (single_tab _ _ HSe') HSe' es1'). destruct (merge_entries es1' es2) as [es1'' e']. destruct IHe as [H1 H2]. cbn [fst snd] in *.
        split; cbn [fst snd].
        -- rewrite in_app_iff. tauto.
        -- intros E. apply app_eq_nil in E as [-> ->]. cbn [scalars] in *. rewrite (H2 eq_refl), (HE2 eq_refl). cbn [flat_map snd]. rewrite <- app_assoc. reflexivity.
  - destruct a; try exact I. intros w ->. inversion HS as [| |? ? Hone HSvs]; subst. inversion IH as [|? ? Hw _]; subst. inversion HSvs as [|? ? HSw _]; subst.
    specialize (Hw HSw). destruct w; try exact I. exact Hw.
Qed.

Lemma wrap_keys_scalars keys v : scalars (wrap_keys keys v) = scalars v.
Proof.
  induction keys as [|k h IH]; [reflexivity|]. destruct h as [|k2 h]; [cbn; apply app_nil_r|].
  change (wrap_keys (k :: k2 :: h) v) with (Tab ParentKey [(k, wrap_keys (k2 :: h) v)]). cbn [scalars flat_map snd]. rewrite app_nil_r. exact IH.
Qed.
Lemma wrap_keys_single keys v : single v -> single (wrap_keys keys v).
Proof.
  intros HS. induction keys as [|k h IH]; [exact HS|]. destruct h as [|k2 h]; [cbn; repeat constructor; exact HS|].
  change (wrap_keys (k :: k2 :: h) v) with (Tab ParentKey [(k, wrap_keys (k2 :: h) v)]). repeat constructor. exact IH.
Qed.
(** values hold plain arrays only *)
Inductive closed : value -> Prop :=
| closed_scalar x : closed (Scalar x)
| closed_tab k es : Forall (fun e : str * value => closed (snd e)) es -> closed (Tab k es)
| closed_arr vs : Forall closed vs -> closed (Arr PlainArray vs).
Notation closeds := (Forall (fun e : str * value => closed (snd e))).
Lemma closed_single v : closed v -> single v.
Proof.
  induction v as [x|k es IH|a vs IH] using val_ind; intros H; inversion H as [|? ? HF|? HF]; subst.
  - constructor.
  - constructor. rewrite Forall_forall in *. auto.
  - constructor; [discriminate|]. rewrite Forall_forall in *. auto.
Qed.
Lemma closeds_lookup es k v : closeds es -> lookup k es = Some v -> closed v.
Proof. induction 1 as [|[k' n'] es H _ IH]; [discriminate|]. cbn [lookup]. destruct (str_eqb k k'); [intros E; injection E as <-; exact H|exact IH]. Qed.
Lemma closeds_update es k v : closeds es -> closed v -> closeds (update k v es).
Proof. intros HF HP. induction HF as [|[k' n'] es H HF IH]; [constructor|]. cbn [update]. destruct (str_eqb k k'); constructor; auto. Qed.
Lemma merge_closed v2 : closed v2 -> forall k1 es1, closeds es1 -> closed (fst (merge_table k1 es1 v2)).
Proof.
  induction v2 as [x|k2 es2 IH|a vs _] using val_ind; intros HC k1 es1 HC1; [constructor; exact HC1| |constructor; exact HC1].
  rewrite merge_unfold. destruct (conflict k1 es1 k2 es2); [constructor; exact HC1|]. inversion HC as [|? ? HF|]; subst. clear HC.
  assert (HG : closeds (fst (merge_entries es1 es2))).
  { revert es1 HC1. induction es2 as [|[key w2] es2 IHe]; intros es1 HC1; [exact HC1|]. inversion IH as [|? ? Hw IH']; subst. inversion HF as [|? ? HCw HF']; subst. cbn [snd merge_entries] in *.
    assert (HE : closeds (fst (merge_entry key w2 es1))).
    { unfold merge_entry. destruct (lookup key es1) as [w1|] eqn:EL.
      - pose proof (closeds_lookup _ _ _ HC1 EL) as H1. destruct w1 as [x|k es|a1 vs]; destruct w2 as [x2|k' es'|a2 ws]; try exact HC1.
        + specialize (Hw HCw k es ltac:(inversion H1; assumption)). destruct (merge_table k es (Tab k' es')) as [w e]. apply closeds_update; assumption.
        + inversion H1; subst. exact HC1.
      - cbn [fst]. apply Forall_app. split; [exact HC1|]. constructor; [exact HCw|constructor]. }
    destruct (merge_entry key w2 es1) as [es1' e]. specialize (IHe IH' HF' es1' HE). destruct (merge_entries es1' es2). exact IHe. }
  destruct (merge_entries es1 es2). constructor. exact HG.
Qed.
Lemma merge_all_closed : forall others, Forall (fun r : value * list error => closed (fst r)) others -> forall k es, closeds es -> closed (fst (merge_all (Tab k es) others)).
Proof.
  induction 1 as [|[w errs] others HC _ IH]; intros k es HC1; [constructor; exact HC1|]. cbn [merge_all merge fst] in *. pose proof (merge_closed w HC k es HC1) as H.
  destruct (merge_keeps_table k es w) as (k3 & es3 & E3). destruct (merge_table k es w) as [v' e]. cbn [fst] in *. subst v'.
  specialize (IH k3 es3 ltac:(inversion H; assumption)). destruct (merge_all (Tab k3 es3) others). exact IH.
Qed.
Lemma wrap_keys_closed keys v : closed v -> closed (wrap_keys keys v).
Proof.
  intros HS. induction keys as [|k h IH]; [exact HS|]. destruct h as [|k2 h]; [cbn; repeat constructor; exact HS|].
  change (wrap_keys (k :: k2 :: h) v) with (Tab ParentKey [(k, wrap_keys (k2 :: h) v)]). repeat constructor. exact IH.
Qed.

(** a built part: what it reports and what it holds *)
Definition held (r : value * list error) (l : list str) : Prop :=
  (exists k es, fst r = Tab k es) /\ ~ In Unreachable (snd r) /\ (snd r = [] -> Permutation (scalars (fst r)) l).
Lemma merge_all_held : forall others l, Forall2 (fun r x => single (fst r) /\ held r x) others l -> forall k es,
  held (merge_all (Tab k es) others) (scalars (Tab Root es) ++ concat l).
Proof.
  induction 1 as [|[w errs] x others l [HS (HT & HU & HP)] _ IH]; intros k es.
  - unfold held. cbn. split; [eauto|]. split; [intros []|]. intros _. rewrite app_nil_r. reflexivity.
  - cbn [merge_all merge fst snd concat] in *. destruct HT as (k2 & es2 & ->). pose proof (merge_sound (Tab k2 es2) HS k es) as [H1 H2].
    destruct (merge_keeps_table k es (Tab k2 es2)) as (k3 & es3 & E3). destruct (merge_table k es (Tab k2 es2)) as [v' e]. cbn [fst snd] in *. subst v'.
    specialize (IH k3 es3). destruct (merge_all (Tab k3 es3) others) as [v'' e'']. destruct IH as (H3 & H4 & H5). cbn [fst snd] in *.
    unfold held. cbn [fst snd]. split; [exact H3|]. split; [rewrite !in_app_iff; tauto|]. intros E. apply app_eq_nil in E as [-> E]. apply app_eq_nil in E as [-> ->].
    rewrite (H5 eq_refl). change (scalars (Tab Root es3)) with (scalars (Tab k3 es3)). rewrite (H2 eq_refl), (HP eq_refl), <- app_assoc. reflexivity.
Qed.
Definition value_held (v : syn_value) : Prop :=
  closed (fst (build_value v)) /\ ~ In Unreachable (snd (build_value v)) /\ (snd (build_value v) = [] -> Permutation (scalars (fst (build_value v))) (syn_scalars v)).
Lemma key_value_held keys v : keys <> [] -> value_held v -> closed (fst (build_key_value (keys, v))) /\ held (build_key_value (keys, v)) (syn_scalars v).
Proof.
  intros HN (H1 & H2 & H3). unfold build_key_value. destruct (build_value v) as [w e]. cbn [fst snd] in *.
  replace (match keys with [] => (Tab KeyValue [], e) | _ => (wrap_keys keys w, e) end) with (wrap_keys keys w, e) by (destruct keys; [contradiction|reflexivity]).
  split; [apply wrap_keys_closed; exact H1|]. split; [destruct (wrap_tab keys w HN) as (k & es & E & _); eauto|]. split; [exact H2|]. cbn [fst snd]. rewrite wrap_keys_scalars. exact H3.
Qed.
Lemma body_held kvs : Forall (fun kv : list str * syn_value => fst kv <> [] /\ value_held (snd kv)) kvs -> forall k es, closeds es ->
  closed (fst (merge_all (Tab k es) (map build_key_value kvs))) /\ held (merge_all (Tab k es) (map build_key_value kvs)) (scalars (Tab Root es) ++ body_scalars kvs).
Proof.
  intros HF k es HC. split.
  - apply merge_all_closed; [|exact HC]. rewrite Forall_map. eapply Forall_impl; [|exact HF]. intros [keys v] [H1 H2]. apply (key_value_held keys v H1 H2).
  - unfold body_scalars. rewrite flat_map_concat_map. apply merge_all_held. clear HC. induction HF as [|[keys v] kvs [H1 H2] _ IH]; [constructor|]. cbn [map]. constructor; [|exact IH].
    destruct (key_value_held keys v H1 H2) as [H3 H4]. split; [apply closed_single; exact H3|exact H4].
Qed.
Lemma value_is_held v : keyed_value v -> value_held v.
Proof.
  induction v as [x|vs IH|kvs IH] using syn_ind; intros HK.
  - split; [constructor|]. split; [intros []|]. reflexivity.
  - inversion HK as [|? HV|]; subst. rewrite Forall_forall in IH. unfold value_held. cbn [build_value fst snd syn_scalars scalars].
    assert (HG : Forall value_held vs) by (apply Forall_forall; auto). clear HK HV IH. induction HG as [|v vs (H1 & H2 & H3) _ IHvs]; [split; [constructor; constructor|split; [intros []|reflexivity]]|].
    destruct IHvs as (I1 & I2 & I3). cbn [map flat_map]. split; [|split].
    + constructor. constructor; [exact H1|]. inversion I1; assumption.
    + rewrite in_app_iff. tauto.
    + intros E. apply app_eq_nil in E as [E1 E2]. rewrite (H3 E1), (I3 E2). reflexivity.
  - inversion HK as [| |? HV]; subst. rewrite Forall_forall in IH.
    assert (HB : Forall (fun kv : list str * syn_value => fst kv <> [] /\ value_held (snd kv)) kvs).
    { apply Forall_forall. intros [keys v] Hin. destruct (HV keys v Hin) as [H1 H2]. split; [exact H1|]. apply (IH (keys, v) Hin). exact H2. }
    destruct (body_held kvs HB Table [] (Forall_nil _)) as [H1 (H2 & H3 & H4)]. unfold value_held. cbn [build_value syn_scalars].
    change (map (fun kv => let '(keys, v) := kv in let '(w, e) := build_value v in match keys with [] => (Tab KeyValue [], e) | _ => (wrap_keys keys w, e) end) kvs) with (map build_key_value kvs).
    destruct (merge_all (Tab Table []) (map build_key_value kvs)) as [t e]. cbn [fst snd] in *. destruct H2 as (k & es & ->). cbn [fst snd].
    split; [constructor; inversion H1; assumption|]. split; [exact H3|exact H4].
Qed.
Lemma chain_single arrays array t : single t -> (exists k es, t = Tab k es) -> forall header pre, single (chain arrays pre header array t).
Proof.
  intros HS HT. induction header as [|k h IH]; intros pre; [exact HS|]. destruct h as [|k2 h].
  - cbn [chain]. destruct array; repeat constructor; try exact HS. discriminate.
  - rewrite chain_cons by discriminate. constructor. constructor; [|constructor]. cbn [snd]. destruct (is_array_key arrays (pre ++ [k])); [|apply IH].
    constructor; [|constructor; [apply IH|constructor]]. intros _. destruct h; cbn [chain]; eauto.
Qed.
Lemma chain_scalars arrays array t : forall header pre, scalars (chain arrays pre header array t) = scalars t.
Proof.
  induction header as [|k h IH]; intros pre; [reflexivity|]. destruct h as [|k2 h].
  - cbn [chain scalars flat_map snd]. rewrite app_nil_r. destruct array; [cbn [scalars flat_map]; apply app_nil_r|reflexivity].
  - rewrite chain_cons by discriminate. cbn [scalars flat_map snd]. rewrite app_nil_r. destruct (is_array_key arrays (pre ++ [k])); [|apply IH]. cbn [scalars flat_map]. rewrite app_nil_r. apply IH.
Qed.
Lemma keyed_held kvs : keyed_body kvs -> Forall (fun kv : list str * syn_value => fst kv <> [] /\ value_held (snd kv)) kvs.
Proof. intros H. apply Forall_forall. intros [keys v] Hin. destruct (H keys v Hin) as [H1 H2]. split; [exact H1|]. apply value_is_held. exact H2. Qed.
Lemma section_held before s : s_header s <> [] -> keyed_body (s_body s) -> single (fst (build_section before s)) /\ held (build_section before s) (body_scalars (s_body s)).
Proof.
  intros HN HK. rewrite build_section_chain by exact HN. destruct (body_held (s_body s) (keyed_held _ HK) Table [] (Forall_nil _)) as [H1 (H2 & H3 & H4)].
  destruct (merge_all (Tab Table []) (map build_key_value (s_body s))) as [t e]. cbn [fst snd] in *. split; [apply chain_single; [apply closed_single; exact H1|exact H2]|].
  split; [destruct (s_header s) as [|k [|k2 h]]; [contradiction| |]; cbn [chain fst]; eauto|]. split; [exact H3|]. cbn [fst snd]. rewrite chain_scalars. exact H4.
Qed.
Lemma sections_held : forall l before k es, (forall s, In s l -> s_header s <> [] /\ keyed_body (s_body s)) ->
  held (merge_sections (Tab k es) before l) (scalars (Tab Root es) ++ flat_map (fun s => body_scalars (s_body s)) l).
Proof.
  induction l as [|s l IH]; intros before k es HK.
  - unfold held. cbn. split; [eauto|]. split; [intros []|]. intros _. rewrite app_nil_r. reflexivity.
  - destruct (HK s (or_introl eq_refl)) as [HN HB]. destruct (section_held before s HN HB) as [HS (HT & HU & HP)]. cbn [merge_sections flat_map].
    destruct (build_section before s) as [w errs]. cbn [fst snd merge] in *. destruct HT as (k2 & es2 & ->). pose proof (merge_sound (Tab k2 es2) HS k es) as [H1 H2].
    destruct (merge_keeps_table k es (Tab k2 es2)) as (k3 & es3 & E3). destruct (merge_table k es (Tab k2 es2)) as [v' e]. cbn [fst snd] in *. subst v'.
    specialize (IH (s :: before) k3 es3 ltac:(intros s' Hs; apply HK; right; exact Hs)). destruct (merge_sections (Tab k3 es3) (s :: before) l) as [v'' e'']. destruct IH as (H3 & H4 & H5). cbn [fst snd] in *.
    unfold held. cbn [fst snd]. split; [exact H3|]. split; [rewrite !in_app_iff; tauto|]. intros E. apply app_eq_nil in E as [-> E]. apply app_eq_nil in E as [-> ->].
    rewrite (H5 eq_refl). change (scalars (Tab Root es3)) with (scalars (Tab k3 es3)). rewrite (H2 eq_refl), (HP eq_refl), <- app_assoc. reflexivity.
Qed.
Lemma document_held d : keyed_document d -> held (build_document d) (doc_scalars d).
Proof.
  intros [HB HS]. destruct (body_held (d_body d) (keyed_held _ HB) Root [] (Forall_nil _)) as [_ (H2 & H3 & H4)]. unfold build_document, doc_scalars.
  destruct (merge_all (Tab Root []) (map build_key_value (d_body d))) as [v e]. cbn [fst snd] in *. destruct H2 as (k & es & ->).
  pose proof (sections_held (d_sections d) [] k es HS) as (H5 & H6 & H7). destruct (merge_sections (Tab k es) [] (d_sections d)) as [v' e']. cbn [fst snd] in *.
  unfold held. cbn [fst snd]. split; [exact H5|]. split; [rewrite in_app_iff; tauto|]. intros E. apply app_eq_nil in E as [-> ->]. rewrite (H7 eq_refl).
  change (scalars (Tab Root es)) with (scalars (Tab k es)). rewrite (H4 eq_refl). reflexivity.
Qed.

(** ** Documents without arrays of tables *)
Inductive flat : node -> Prop :=
| flat_leaf d : flat (Leaf d)
| flat_dir o es : Forall (fun e : str * node => flat (snd e)) es -> flat (Dir o es).
Notation flats := (Forall (fun e : str * node => flat (snd e))).
Lemma plain_flat : forall n, plain n -> flat n.
Proof.
  fix IH 2. intros n H. destruct H as [d|es HF]; [constructor|]. constructor. revert es HF. fix IHF 2. intros es HF.
  destruct HF as [|e l He HF]; [constructor|]. constructor; [apply IH; exact He|apply IHF; exact HF].
Qed.
Lemma flats_assoc es k n : flats es -> assoc k es = Some n -> flat n.
Proof. intros H E. destruct (assoc_forall _ _ _ _ H E) as [k' Hn]. exact Hn. Qed.
Lemma put_flat keys : forall d es es2, flats es -> put keys d es = Some es2 -> flats es2.
Proof.
  induction keys as [|k h IH]; intros d es es2 HP H; [discriminate|]. destruct h as [|k2 h].
  - cbn [put] in H. destruct (assoc k es); [discriminate|]. injection H as <-. apply snoc_forall; [exact HP|constructor].
  - rewrite put_cons in H by discriminate. destruct (assoc k es) as [[x|o sub|ts]|] eqn:E; try discriminate.
    + destruct o; try discriminate. destruct (put (k2 :: h) d sub) as [sub2|] eqn:E2; [|discriminate]. injection H as <-. apply set_forall; [exact HP|]. constructor.
      eapply IH; [|exact E2]. pose proof (flats_assoc _ _ _ HP E) as Hp. inversion Hp; subst. assumption.
    + destruct (put (k2 :: h) d []) as [sub2|] eqn:E2; [|discriminate]. injection H as <-. apply snoc_forall; [exact HP|]. constructor. eapply IH; [constructor|exact E2].
Qed.
Lemma put_all_flat : forall kvs es es2, flats es -> put_all kvs es = Some es2 -> flats es2.
Proof.
  induction kvs as [|[keys [d|]] kvs IH]; intros es es2 HP H; cbn [put_all] in H; [injection H as <-; exact HP| |discriminate].
  destruct (put keys d es) as [es1|] eqn:E; [|discriminate]. eapply IH; [|exact H]. eapply put_flat; [exact HP|exact E].
Qed.
Lemma define_flat body : forall header es es2, define false header body es = Some es2 -> flats es -> flats es2.
Proof.
  induction header as [|k h IH]; intros es es2 H HW; [discriminate|]. destruct h as [|k2 h].
  - cbn [define] in H. destruct (assoc k es) as [[x|o sub|ts]|] eqn:E; try discriminate.
    + destruct o; try discriminate. destruct (put_all body sub) as [b|] eqn:Eb; [|discriminate]. injection H as <-. apply set_forall; [exact HW|]. constructor.
      eapply put_all_flat; [|exact Eb]. pose proof (flats_assoc _ _ _ HW E) as Hf. inversion Hf; assumption.
    + destruct (put_all body []) as [b|] eqn:Eb; [|discriminate]. injection H as <-. apply snoc_forall; [exact HW|]. constructor. eapply put_all_flat; [constructor|exact Eb].
  - rewrite define_cons in H by discriminate. destruct (assoc k es) as [[x|o sub|ts]|] eqn:E; try discriminate; try (pose proof (flats_assoc _ _ _ HW E) as Hf; inversion Hf; subst).
    + destruct (define false (k2 :: h) body sub) as [sub2|] eqn:E2; [|discriminate]. injection H as <-. apply set_forall; [exact HW|]. constructor. eapply IH; eassumption.
    + destruct (define false (k2 :: h) body []) as [sub|] eqn:E2; [|discriminate]. injection H as <-. apply snoc_forall; [exact HW|]. constructor. eapply IH; [exact E2|constructor].
Qed.
Lemma flat_path : forall p es ts, flats es -> at_path p es <> Some (Elems ts).
Proof.
  induction p as [|k p IH]; intros es ts HF; [discriminate|]. destruct p as [|k2 p].
  - cbn [at_path]. intros E. pose proof (flats_assoc _ _ _ HF E) as H. inversion H.
  - rewrite at_path_cons by discriminate. destruct (assoc k es) as [[x|o sub|ts']|] eqn:E; try discriminate; pose proof (flats_assoc _ _ _ HF E) as H; inversion H; subst. apply IH. assumption.
Qed.
Lemma read_flat d l1 es : (forall s, In s l1 -> s_array s = false) -> read d l1 = Some es -> flats es.
Proof.
  unfold read. destruct (put_all (eval_body (d_body d)) []) as [es0|] eqn:E0; [|discriminate]. intros HA.
  assert (HF : flats es0) by (eapply put_all_flat; [constructor|exact E0]). clear E0. revert es0 HF. induction l1 as [|s l1 IH]; intros es0 HF H.
  - injection H as <-. exact HF.
  - cbn [define_all] in H. rewrite (HA s (or_introl eq_refl)) in H. destruct (define false (s_header s) (eval_body (s_body s)) es0) as [es1|] eqn:E; [|discriminate].
    eapply IH; [intros s' Hs; apply HA; right; exact Hs| |exact H]. eapply define_flat; [exact E|exact HF].
Qed.

(** ** Documents whose arrays of tables have one key *)
Definition top (earlier : list section) (k : str) (n : node) : Prop :=
  flat n \/ (exists ts, n = Elems ts /\ Forall (fun t => flats t) ts) /\ exists s, In s earlier /\ s_array s = true /\ s_header s = [k].
Definition tops (earlier : list section) (es : list (str * node)) : Prop :=
  Forall (fun e => top earlier (fst e) (snd e)) es /\
  forall s k, In s earlier -> s_array s = true -> s_header s = [k] -> exists ts, assoc k es = Some (Elems ts).
Lemma top_more earlier s k n : top earlier k n -> top (earlier ++ [s]) k n.
Proof. intros [H|[H (s' & Hs & H1)]]; [left; exact H|]. right. split; [exact H|]. exists s'. split; [apply in_or_app; left; exact Hs|exact H1]. Qed.
Lemma tops_set (P : str -> node -> Prop) es k n : Forall (fun e => P (fst e) (snd e)) es -> P k n -> Forall (fun e => P (fst e) (snd e)) (assoc_set k n es).
Proof.
  intros HF HP. induction HF as [|[k' n'] es H HF IH]; [constructor|]. cbn [assoc_set]. destruct (str_eqb k k') eqn:E; constructor; auto.
  apply str_eqb_eq in E. subst. exact HP.
Qed.
Lemma tops_assoc (P : str -> node -> Prop) es k n : Forall (fun e => P (fst e) (snd e)) es -> assoc k es = Some n -> P k n.
Proof.
  induction 1 as [|[k' n'] es H _ IH]; [discriminate|]. cbn [assoc]. destruct (str_eqb k k') eqn:E; [|exact IH].
  apply str_eqb_eq in E. subst. intros E. injection E as <-. exact H.
Qed.
Lemma assoc_set_same {A} k (n : A) es : assoc k es <> None -> assoc k (assoc_set k n es) = Some n.
Proof.
  induction es as [|[k' n'] es IH]; [contradiction|]. cbn [assoc assoc_set]. destruct (str_eqb k k') eqn:E; cbn [assoc]; rewrite E; [reflexivity|exact IH].
Qed.
Lemma assoc_set_other {A} k k2 (n : A) es : k2 <> k -> assoc k2 (assoc_set k n es) = assoc k2 es.
Proof.
  intros HN. induction es as [|[k' n'] es IH]; [reflexivity|]. cbn [assoc assoc_set]. destruct (str_eqb k k') eqn:E; cbn [assoc].
  - apply str_eqb_eq in E. subst. apply str_eqb_neq in HN. rewrite HN. reflexivity.
  - rewrite IH. reflexivity.
Qed.
Lemma define_flat_inner array body h es es2 : array = false -> define array h body es = Some es2 -> flats es -> flats es2.
Proof. intros ->. apply define_flat. Qed.
Local Ltac fin := first [discriminate | intros; discriminate | solve [eauto]].
Lemma define_tops earlier s es es2 : (s_array s = true -> length (s_header s) = 1%nat) -> tops earlier es ->
  define (s_array s) (s_header s) (eval_body (s_body s)) es = Some es2 -> tops (earlier ++ [s]) es2.
Proof.
  intros H1 [HT HE] HD. destruct (s_header s) as [|k h] eqn:Eh; [discriminate|].
  assert (HT' : Forall (fun e => top (earlier ++ [s]) (fst e) (snd e)) es) by (eapply Forall_impl; [|exact HT]; intros e; apply top_more).
  assert (HB : forall b, put_all (eval_body (s_body s)) [] = Some b -> flats b) by (intros b; apply put_all_flat; constructor).
  assert (HO : forall n, (es2 = assoc_set k n es /\ assoc k es <> None) \/ (es2 = es ++ [(k, n)] /\ assoc k es = None) ->
    (forall ts, assoc k es = Some (Elems ts) -> exists ts', n = Elems ts') -> (s_array s = true -> exists ts, n = Elems ts) -> 
    top (earlier ++ [s]) k n -> tops (earlier ++ [s]) es2).
  { intros n H2 Hold Hnew Htop. 
    assert (Hk : assoc k es2 = Some n).
    { destruct H2 as [[-> H2]|[-> H2]]; [apply assoc_set_same; exact H2|]. rewrite assoc_app, H2. cbn [assoc]. rewrite str_eqb_refl. reflexivity. }
    assert (Hother : forall k2, k2 <> k -> assoc k2 es2 = assoc k2 es).
    { intros k2 Hk2. destruct H2 as [[-> H2]|[-> H2]]; [apply assoc_set_other; exact Hk2|]. rewrite assoc_app. cbn [assoc]. apply str_eqb_neq in Hk2. rewrite Hk2. destruct (assoc k2 es); reflexivity. }
    split.
    - destruct H2 as [[-> H2]|[-> H2]]; [apply tops_set; assumption|]. apply Forall_app. split; [exact HT'|]. constructor; [exact Htop|constructor].
    - intros s' k' Hs Ha Hh. apply in_app_iff in Hs as [Hs|[<-|[]]].
      + destruct (HE s' k' Hs Ha Hh) as [ts Ets]. destruct (list_eq_dec N.eq_dec k' k) as [->|Hne]; [|rewrite Hother by exact Hne; eauto].
        destruct (Hold _ Ets) as [ts' ->]. eauto.
      + rewrite Eh in Hh. injection Hh as -> _. rewrite Hk. destruct (Hnew Ha) as [ts ->]. eauto. }
  destruct h as [|k2 h].
  - cbn [define] in HD. destruct (s_array s) eqn:Ea.
    + assert (Hs : exists s', In s' (earlier ++ [s]) /\ s_array s' = true /\ s_header s' = [k]) by (exists s; rewrite Ea, Eh; split; [apply in_or_app; right; left; reflexivity|auto]).
      destruct (assoc k es) as [[x|o sub|ts]|] eqn:E; try discriminate.
      * destruct (put_all (eval_body (s_body s)) []) as [b|]; [|discriminate]. injection HD as <-. eapply HO; [left; split; [reflexivity|discriminate]|fin|fin|].
        right. split; [|exact Hs]. eexists. split; [reflexivity|]. apply Forall_app. split.
        -- destruct (tops_assoc _ _ _ _ HT E) as [Hf|[(ts' & Ets & Hf) _]]; [inversion Hf|]. injection Ets as <-. exact Hf.
        -- constructor; [apply HB; reflexivity|constructor].
      * destruct (put_all (eval_body (s_body s)) []) as [b|]; [|discriminate]. injection HD as <-. eapply HO; [right; split; reflexivity|fin|fin|].
        right. split; [|exact Hs]. eexists. split; [reflexivity|]. constructor; [apply HB; reflexivity|constructor].
    + destruct (assoc k es) as [[x|o sub|ts]|] eqn:E; try discriminate.
      * destruct o; try discriminate. destruct (put_all (eval_body (s_body s)) sub) as [b|] eqn:Eb; [|discriminate]. injection HD as <-. eapply HO; [left; split; [reflexivity|discriminate]|fin|fin|].
        left. constructor. eapply put_all_flat; [|exact Eb]. destruct (tops_assoc _ _ _ _ HT E) as [Hf|[(ts' & Ets & Hf) _]]; [inversion Hf; assumption|discriminate].
      * destruct (put_all (eval_body (s_body s)) []) as [b|]; [|discriminate]. injection HD as <-. eapply HO; [right; split; reflexivity|fin|fin|]. left. constructor. apply HB. reflexivity.
  - assert (Ea : s_array s = false) by (destruct (s_array s); [specialize (H1 eq_refl); discriminate|reflexivity]). rewrite define_cons in HD by discriminate. rewrite Ea in *.
    destruct (assoc k es) as [[x|o sub|ts]|] eqn:E; try discriminate.
    + destruct (define false (k2 :: h) (eval_body (s_body s)) sub) as [sub2|] eqn:E2; [|discriminate]. injection HD as <-. eapply HO; [left; split; [reflexivity|discriminate]|fin|fin|].
      left. constructor. eapply define_flat; [exact E2|]. destruct (tops_assoc _ _ _ _ HT E) as [Hf|[(ts' & Ets & Hf) _]]; [inversion Hf; assumption|discriminate].
    + destruct (define false (k2 :: h) (eval_body (s_body s)) (last ts [])) as [t2|] eqn:E2; [|discriminate]. injection HD as <-. eapply HO; [left; split; [reflexivity|discriminate]|fin|fin|].
      destruct (tops_assoc _ _ _ _ HT E) as [Hf|[(ts' & Ets & Hf) Hs]]; [inversion Hf|]. injection Ets as <-. right. split.
      * eexists. split; [reflexivity|]. apply Forall_app. split.
        -- destruct ts as [|t ts]; [constructor|]. rewrite (app_removelast_last (l := t :: ts) []) in Hf by discriminate. apply Forall_app in Hf. apply Hf.
        -- constructor; [|constructor]. eapply define_flat; [exact E2|]. apply forall_last; [constructor|exact Hf].
      * destruct Hs as (s' & Hs & Hr). exists s'. split; [apply in_or_app; left; exact Hs|exact Hr].
    + destruct (define false (k2 :: h) (eval_body (s_body s)) []) as [sub|] eqn:E2; [|discriminate]. injection HD as <-. eapply HO; [right; split; reflexivity|fin|fin|].
      left. constructor. eapply define_flat; [exact E2|constructor].
Qed.
Lemma read_tops d : forall l1 es, (forall s, In s l1 -> s_array s = true -> length (s_header s) = 1%nat) -> read d l1 = Some es -> tops l1 es.
Proof.
  unfold read. destruct (put_all (eval_body (d_body d)) []) as [es0|] eqn:E0; [|discriminate].
  assert (HF : flats es0) by (eapply put_all_flat; [constructor|exact E0]). clear E0.
  assert (HG : forall l2 l1 es0, (forall s, In s l2 -> s_array s = true -> length (s_header s) = 1%nat) -> tops l1 es0 -> forall es, define_all l2 es0 = Some es -> tops (l1 ++ l2) es).
  { induction l2 as [|s l2 IH]; intros l1 es1 HA HT es H.
    - injection H as <-. rewrite app_nil_r. exact HT.
    - cbn [define_all] in H. destruct (define (s_array s) (s_header s) (eval_body (s_body s)) es1) as [es2|] eqn:E; [|discriminate].
      replace (l1 ++ s :: l2) with ((l1 ++ [s]) ++ l2) by (rewrite <- app_assoc; reflexivity). eapply IH; [intros s' Hs; apply HA; right; exact Hs| |exact H].
      eapply define_tops; [apply HA; left; reflexivity|exact HT|exact E]. }
  intros l1 es HA H. apply (HG l1 [] es0 HA); [|exact H]. split; [|intros s k []]. eapply Forall_impl; [|exact HF]. intros e He. left. exact He.
Qed.
Lemma tops_path earlier es : tops earlier es -> forall p ts, at_path p es = Some (Elems ts) -> exists k, p = [k].
Proof.
  intros [HT _] p ts H. destruct p as [|k [|k2 p]]; [discriminate|eauto|]. exfalso. rewrite at_path_cons in H by discriminate.
  destruct (assoc k es) as [[x|o sub|ts']|] eqn:E; try discriminate; destruct (tops_assoc _ _ _ _ HT E) as [Hf|[(ts2 & Ets & Hf) _]]; try discriminate; try (inversion Hf; fail).
  - inversion Hf; subst. exact (flat_path _ _ _ ltac:(eassumption) H).
  - injection Ets as <-. exact (flat_path _ _ _ (forall_last _ _ (Forall_nil _) Hf) H).
Qed.
