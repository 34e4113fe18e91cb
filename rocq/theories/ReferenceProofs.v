(** Proofs about references within a schema document. *)
From Coq Require Import String Ascii List NArith ZArith Bool Arith Lia ZifyBool ZifyN.
From Verif Require Import Base JsonModel PointerModel PointerSpec PointerProofs ReferenceModel ReferenceSpec.
Import ListNotations.
Open Scope N_scope.
Open Scope list_scope.

(** ** What a semantic schema accepts, given what each schema accepts on its own *)
Fixpoint accepts (valid : jvalue -> Prop) (s : semantics) : Prop :=
  match s with
  | Alone v => valid v
  | AllOf l => fold_right (fun x p => accepts valid x /\ p) True l
  end.

(** * Members *)
Lemma regular_entries es : regular (JObject es) -> NoDup (map fst es) /\ Forall (fun e => regular (snd e)) es.
Proof. intros H. inversion H; subst. auto. Qed.
Lemma string_at_in k s es : NoDup (map fst es) -> In (k, JString s) es -> string_at k es = Some s.
Proof. intros HN HI. unfold string_at. rewrite (in_member _ _ _ HN HI). reflexivity. Qed.
Lemma in_string_at k s es : string_at k es = Some s -> In (k, JString s) es.
Proof. unfold string_at. destruct (member k es) as [[| | |x| |]|] eqn:E; try discriminate. intros H. injection H as ->. apply member_in, E. Qed.
Lemma string_at_none k es : NoDup (map fst es) -> (forall s, ~ In (k, JString s) es) -> string_at k es = None.
Proof. intros HN H. destruct (string_at k es) as [s|] eqn:E; [|reflexivity]. apply in_string_at in E. destruct (H _ E). Qed.

Lemma denotes_two section name doc t : is_section section ->
  denotes [section; name] doc t ->
  exists es v, doc = JObject es /\ In (section, v) es /\
    ((exists ds, v = JObject ds /\ In (name, t) ds) \/ exists items, v = JArray items).
Proof.
  intros HS H. inversion H as [|? ? es v ? HI HD|? n ? items v ? HX HE HD]; subst.
  - exists es, v. split; [reflexivity|]. split; [exact HI|]. inversion HD as [|? ? ds u ? HI2 HD2|? n ? items u ? HX2 HE2 HD2]; subst.
    + inversion HD2; subst. left. eauto.
    + right. eauto.
  - exfalso. destruct HX as [[E _]|E].
    + destruct HS as [-> | ->]; discriminate.
    + apply array_index_digits in E. destruct E as (_ & _ & c & rest & E & Hc). destruct HS as [-> | ->]; injection E as <- _; lia.
Qed.

  Lemma plain_pointer section name : is_section section -> plain_name name -> reference_to section name = 35 :: pointer_text [section; name] /\ fragment (pointer_text [section; name]) (pointer_text [section; name]).
  Proof.
    intros HS [_ HN]. assert (E : escape name = name).
    { induction HN as [|c name (_ & H1 & H2 & _) HN IH]; [reflexivity|]. change (escape (c :: name)) with (escape_char c ++ escape name). destruct (escape_char_cases c) as [[-> _]|[[-> _]|(_ & _ & ->)]]; try contradiction. rewrite IH. reflexivity. }
    assert (E2 : pointer_text [section; name] = 47 :: section ++ 47 :: name).
    { cbn [pointer_text flat_map]. rewrite E, app_nil_r. destruct HS as [-> | ->]; reflexivity. }
    rewrite E2. split; [reflexivity|]. assert (K : forall s, Forall (fun c => c <> 37) s -> fragment s s) by (induction 1; [constructor|apply fragment_plain; assumption]).
    apply K. constructor; [discriminate|]. apply Forall_app. split; [destruct HS as [-> | ->]; repeat constructor; discriminate|]. constructor; [discriminate|]. eapply Forall_impl; [|exact HN]. cbv beta. tauto.
  Qed.

Section Reference.
  Context {deprecated : Type} (deprecation_of : list (str * jvalue) -> option deprecated).
  Context (hidden : list (str * jvalue) -> bool) (lossy : list N -> str) (anchors : list (str * jvalue)).
  Notation from_value := (from_value deprecation_of hidden).
  Notation definitions := (definitions deprecation_of hidden).
  Notation lookup := (lookup deprecation_of hidden anchors).
  Notation resolve := (resolve deprecation_of hidden lossy anchors).
  Notation leads := (leads hidden).

  (** * The map of definitions *)
  Lemma find_in k m (r : referable (deprecated := deprecated)) : find k m = Some r -> In (k, r) m.
  Proof.
    induction m as [|[k' r'] m IH]; [discriminate|]. cbn [find]. destruct (str_eqb k k') eqn:E; [|right; auto].
    apply str_eqb_eq in E. intros H. injection H as ->. left. congruence.
  Qed.
  Lemma in_find k m (r : referable (deprecated := deprecated)) : In (k, r) m -> (forall r', In (k, r') m -> r' = r) -> find k m = Some r.
  Proof.
    induction m as [|[k' r'] m IH]; intros HI HU; [contradiction|]. cbn [find]. destruct (str_eqb k k') eqn:E.
    - apply str_eqb_eq in E. subst k'. f_equal. apply HU. left. reflexivity.
    - destruct HI as [HI|HI]; [injection HI as -> ->; rewrite str_eqb_refl in E; discriminate|]. apply IH; [exact HI|]. intros r'' H. apply HU. right. exact H.
  Qed.
  Lemma in_section section prefix es k r : In (k, r) (section_definitions deprecation_of hidden section prefix es) <->
    exists ds name t, member section es = Some (JObject ds) /\ In (name, t) ds /\ k = prefix ++ name /\ from_value t = Some r.
  Proof.
    unfold section_definitions. split.
    - destruct (member section es) as [[| | | | |ds]|]; try contradiction. intros H. apply in_flat_map in H. destruct H as ([name t] & HI & H). unfold keep in H. cbn [fst snd] in H.
      destruct (from_value t) as [x|] eqn:E; [|contradiction]. destruct H as [H|[]]. injection H as <- <-. exists ds, name, t. auto.
    - intros (ds & name & t & E & HI & -> & Hf). rewrite E. apply in_flat_map. exists (name, t). split; [exact HI|]. unfold keep. cbn [fst snd]. rewrite Hf. left. reflexivity.
  Qed.
  Lemma reference_to_inj s n s' n' : is_section s -> is_section s' -> reference_to s n = reference_to s' n' -> s = s' /\ n = n'.
  Proof. intros [-> | ->] [-> | ->] H; try discriminate; injection H as ->; auto. Qed.
  Lemma in_definitions doc k r : In (k, r) (definitions doc) <->
    exists es section ds name t, doc = JObject es /\ is_section section /\ member section es = Some (JObject ds) /\ In (name, t) ds /\
      k = reference_to section name /\ from_value t = Some r.
  Proof.
    unfold ReferenceModel.definitions. split.
    - destruct doc as [| | | | |es]; try contradiction. intros H. apply in_app_or in H. destruct H as [H|H]; apply in_section in H; destruct H as (ds & name & t & A & B & -> & D).
      + exists es, (lit "definitions"), ds, name, t. split; [reflexivity|]. split; [left; reflexivity|]. auto.
      + exists es, (lit "$defs"), ds, name, t. split; [reflexivity|]. split; [right; reflexivity|]. auto.
    - intros (es & section & ds & name & t & -> & HS & A & B & -> & D). apply in_or_app. destruct HS as [-> | ->]; [left|right]; apply in_section; exists ds, name, t; auto.
  Qed.
  Lemma is_schema_value t : is_schema hidden t <-> exists r, from_value t = Some r.
  Proof.
    unfold is_schema, ReferenceModel.from_value, new. split.
    - intros [[b ->]|[es [-> ->]]]; [eauto|]. destruct (string_at _ es); eauto.
    - intros [r H]. destruct t as [|b| | | |es]; try discriminate; [left; eauto|right; exists es; split; [reflexivity|]]. destruct (hidden es); [discriminate|reflexivity].
  Qed.
  Lemma member_unique (es : list (str * jvalue)) k v w : NoDup (map fst es) -> In (k, v) es -> In (k, w) es -> v = w.
  Proof. intros HN A B. apply (in_member _ _ _ HN) in A. apply (in_member _ _ _ HN) in B. congruence. Qed.
  Lemma section_object doc section name t : regular doc -> is_section section -> denotes [section; name] doc t ->
    forall es ds, doc = JObject es -> member section es = Some (JObject ds) -> In (name, t) ds.
  Proof.
    intros HR HS HD es ds -> HM. destruct (denotes_two _ _ _ _ HS HD) as (es' & v & E & HI & HV). injection E as <-. apply regular_entries in HR. destruct HR as [HN _].
    apply member_in in HM. assert (v = JObject ds) by (eapply member_unique; eassumption). subst v. destruct HV as [(ds' & E & H)|[items E]]; [injection E as <-; exact H|discriminate].
  Qed.
  (** an array among the definitions is no map of schemas: its elements are reached by the pointer only *)
  Definition proper (doc : jvalue) : Prop := forall es section v, doc = JObject es -> is_section section -> In (section, v) es -> exists ds, v = JObject ds.
  Lemma defined_found doc r t x : regular doc -> proper doc -> defined doc r t -> from_value t = Some x -> find r (definitions doc) = Some x.
  Proof.
    intros HR HP (section & name & HS & -> & HD) Hx. destruct (denotes_two _ _ _ _ HS HD) as (es & v & -> & HI & HV). destruct (HP _ _ _ eq_refl HS HI) as [ds ->].
    destruct HV as [(ds' & E & HN)|[items E]]; [injection E as <-|discriminate]. pose proof (regular_entries _ HR) as [HU HF].
    assert (HM : member section es = Some (JObject ds)) by (apply in_member; assumption). apply in_find.
    - apply in_definitions. exists es, section, ds, name, t. auto 8.
    - intros r' H. apply in_definitions in H. destruct H as (es' & section' & ds' & name' & t' & E & HS' & HM' & HN' & E' & Hr). injection E as <-.
      destruct (reference_to_inj _ _ _ _ HS HS' E') as [<- <-]. rewrite HM in HM'. injection HM' as <-.
      assert (regular (JObject ds)) by (rewrite Forall_forall in HF; exact (HF _ HI)). apply regular_entries in H. destruct H as [HU' _]. assert (t' = t) by (eapply member_unique; eassumption). congruence.
  Qed.
  Lemma found_defined doc r x : regular doc -> find r (definitions doc) = Some x -> exists t, from_value t = Some x /\ defined doc r t /\ regular t.
  Proof.
    intros HR H. apply find_in, in_definitions in H. destruct H as (es & section & ds & name & t & -> & HS & HM & HN & -> & Hf). exists t. split; [exact Hf|].
    apply member_in in HM. pose proof (regular_entries _ HR) as [_ HF]. rewrite Forall_forall in HF. pose proof (HF _ HM) as HR2. cbn [snd] in HR2. apply regular_entries in HR2. destruct HR2 as [_ HF2]. rewrite Forall_forall in HF2.
    split; [|exact (HF2 _ HN)]. exists section, name. split; [exact HS|]. split; [reflexivity|]. eapply denotes_member; [exact HM|]. eapply denotes_member; [exact HN|constructor].
  Qed.

  Lemma anchor_reference_spec r : is_anchor_reference r = true <-> exists name, r = 35 :: name /\ name <> [] /\ ~ In 47 name.
  Proof.
    unfold is_anchor_reference. split.
    - destruct r as [|c name]; [discriminate|]. intros H. apply andb_true_iff in H. destruct H as [H H3]. apply andb_true_iff in H. destruct H as [H1 H2]. exists name.
      apply N.eqb_eq in H1. subst c. split; [reflexivity|]. split; [intros ->; discriminate|]. intros HI. apply negb_true_iff in H3.
      assert (existsb (N.eqb 47) name = true) by (apply existsb_exists; exists 47; split; [exact HI|reflexivity]). congruence.
    - intros (name & -> & HN & HI). rewrite N.eqb_refl. destruct name as [|c name]; [contradiction|]. cbn [andb nonempty]. apply negb_true_iff. destruct (existsb (N.eqb 47) (c :: name)) eqn:E; [|reflexivity].
      apply existsb_exists in E. destruct E as (x & Hx & E). apply N.eqb_eq in E. subst x. destruct (HI Hx).
  Qed.
  Lemma in_anchor_map k r : In (k, r) (anchor_map deprecation_of hidden anchors) <-> exists t, In (k, t) anchors /\ from_value t = Some r.
  Proof.
    unfold anchor_map. rewrite in_flat_map. split.
    - intros ([k' t] & HI & H). unfold keep in H. cbn [fst snd] in H. destruct (from_value t) eqn:E; [|contradiction]. destruct H as [H|[]]. injection H as <- <-. eauto.
    - intros (t & HI & E). exists (k, t). split; [exact HI|]. unfold keep. cbn [fst snd]. rewrite E. left. reflexivity.
  Qed.

  Context (doc : jvalue) (HR : regular doc) (HP : proper doc).
  Context (HA : NoDup (map fst anchors)) (HAR : Forall (fun a => regular (snd a)) anchors).

  (** the reference of a schema, and of a referable *)
  Definition ref_of (v : jvalue) : option str := match v with JObject es => string_at (lit "$ref") es | _ => None end.
  Definition points (r : referable (deprecated := deprecated)) : option str := match r with Ref x _ _ => Some x | Resolved _ _ _ => None end.
  Lemma from_value_points v r : from_value v = Some r -> points r = ref_of v.
  Proof.
    unfold ReferenceModel.from_value, new. destruct v as [|b| | | |es]; try discriminate; [intros H; injection H as <-; reflexivity|].
    destruct (hidden es); [discriminate|]. cbn [ref_of]. destruct (string_at (lit "$ref") es); intros H; injection H as <-; reflexivity.
  Qed.
  Lemma points_apply n s r : points (apply_annotations n (apply_semantics s r)) = points r.
  Proof. destruct r; reflexivity. Qed.
  Lemma from_value_inj v w r : from_value v = Some r -> from_value w = Some r -> v = w.
  Proof.
    assert (K : forall v r, from_value v = Some r -> match r with Resolved _ _ s | Ref _ _ s => s end = Some (Alone v)).
    { clear. intros v r. unfold ReferenceModel.from_value, new. destruct v as [|b| | | |es]; try discriminate; [intros H; injection H as <-; reflexivity|].
      destruct (hidden es); [discriminate|]. destruct (string_at (lit "$ref") es); intros H; injection H as <-; reflexivity. }
    intros A B. apply K in A. apply K in B. destruct r; congruence.
  Qed.
  Lemma ref_has v x : regular v -> ref_of v = Some x <-> has_string (lit "$ref") x v.
  Proof.
    clear -v x. intros H. unfold ref_of, has_string. split.
    - destruct v as [| | | | |es]; try discriminate. intros E. exists es. split; [reflexivity|]. apply in_string_at, E.
    - intros (es & -> & HI). apply regular_entries in H. apply string_at_in; tauto.
  Qed.

  Lemma leads_lookup s t : regular s -> leads doc anchors s t ->
    exists x target, ref_of s = Some x /\ lookup doc x = Some target /\ from_value t = Some target.
  Proof.
    intros Hs (x & Hx & Ht & H). apply (ref_has _ _ Hs) in Hx. apply is_schema_value in Ht. destruct Ht as [target Ht]. exists x, target. split; [exact Hx|]. split; [|exact Ht].
    unfold ReferenceModel.lookup. destruct H as [H|[HN [HE HI]]].
    - rewrite (defined_found _ _ _ _ HR HP H Ht). reflexivity.
    - destruct (find x (definitions doc)) as [y|] eqn:E.
      + exfalso. destruct (found_defined _ _ _ HR E) as (u & Hu & Hd & _). apply (HN u); [apply is_schema_value; eauto|exact Hd].
      + apply anchor_reference_spec in HE. rewrite HE. apply in_find; [apply in_anchor_map; eauto|]. intros r' H. apply in_anchor_map in H. destruct H as (t' & HI' & Hr).
        assert (t' = t) by (eapply member_unique; eassumption). congruence.
  Qed.
  Lemma lookup_leads x target : lookup doc x = Some target ->
    exists t, from_value t = Some target /\ regular t /\ forall s, regular s -> ref_of s = Some x -> leads doc anchors s t.
  Proof.
    unfold ReferenceModel.lookup. destruct (find x (definitions doc)) as [y|] eqn:E.
    - intros H. injection H as ->. destruct (found_defined _ _ _ HR E) as (t & Hf & Hd & Ht). exists t. split; [exact Hf|]. split; [exact Ht|]. intros s Hs Hx. exists x.
      split; [apply ref_has; assumption|]. split; [apply is_schema_value; eauto|]. left. exact Hd.
    - destruct (is_anchor_reference x) eqn:EA; [|discriminate]. intros H. apply find_in, in_anchor_map in H. destruct H as (t & HI & Hf). exists t. split; [exact Hf|].
      split; [rewrite Forall_forall in HAR; exact (HAR _ HI)|]. intros s Hs Hx. exists x. split; [apply ref_has; assumption|]. split; [apply is_schema_value; eauto|]. right. split.
      + intros u Hu Hd. apply is_schema_value in Hu. destruct Hu as [y Hu]. rewrite (defined_found _ _ _ _ HR HP Hd Hu) in E. discriminate.
      + split; [apply anchor_reference_spec, EA|exact HI].
  Qed.
  Lemma leads_regular s t : leads doc anchors s t -> regular s -> regular t.
  Proof. intros H Hs. destruct (leads_lookup _ _ Hs H) as (x & target & Hx & HL & Hf). destruct (lookup_leads _ _ HL) as (t' & Hf' & Ht & _). rewrite (from_value_inj _ _ _ Hf Hf'). exact Ht. Qed.

  (** * Circles *)
  Lemma circular_step s : circular (leads doc anchors) s -> exists t, leads doc anchors s t /\ circular (leads doc anchors) t.
  Proof.
    intros (t & HS & HT). destruct HS as [<- |HS].
    - inversion HT as [? ? H|? u ? H HO]; subst; [exists s; split; [exact H|]; exists s; auto|]. exists u. split; [exact H|]. exists s. split; [right; exact HO|exact HT].
    - inversion HS as [? ? H|? u ? H HO]; subst; [exists t; split; [exact H|]; exists t; auto|]. exists u. split; [exact H|]. exists t. split; [right; exact HO|exact HT].
  Qed.
  Lemma circular_diverges : forall fuel s r, regular s -> circular (leads doc anchors) s -> points r = ref_of s -> resolve fuel doc r = None.
  Proof.
    induction fuel as [|fuel IH]; intros s r Hs HC Hr; destruct (circular_step _ HC) as (t & HL & HC'); destruct (leads_lookup _ _ Hs HL) as (x & target & Hx & HF & Hv);
      rewrite Hx in Hr; destruct r as [|reference n sem]; try discriminate; cbn [points] in Hr; injection Hr as ->; cbn [ReferenceModel.resolve]; rewrite HF; [reflexivity|].
    apply IH with (s := t); [eapply leads_regular; eassumption|exact HC'|]. rewrite points_apply. apply from_value_points, Hv.
  Qed.

  Inductive trace : list str -> jvalue -> Prop :=
  | trace_nil s : trace [] s
  | trace_cons x xs s t target : ref_of s = Some x -> lookup doc x = Some target -> from_value t = Some target -> leads doc anchors s t -> regular t ->
      trace xs t -> trace (x :: xs) s.
  Lemma out_of_fuel : forall fuel s r, regular s -> points r = ref_of s -> resolve fuel doc r = None -> exists xs, length xs = S fuel /\ trace xs s.
  Proof.
    induction fuel as [|fuel IH]; intros s r Hs Hr; destruct r as [|reference n sem]; try discriminate; cbn [ReferenceModel.resolve points] in *;
      (destruct (lookup doc reference) as [target|] eqn:EL; [|destruct reference as [|c rest]; [discriminate|destruct (c =? 35); discriminate]]);
      destruct (lookup_leads _ _ EL) as (t & Hf & Ht & Hl).
    - intros _. exists [reference]. split; [reflexivity|]. eapply trace_cons; eauto. constructor.
    - intros H. destruct (IH t _ Ht ltac:(rewrite points_apply; apply from_value_points, Hf) H) as (xs & HL & HT). exists (reference :: xs). split; [cbn; lia|]. eapply trace_cons; eauto.
  Qed.
  Lemma find_key k m (r : referable (deprecated := deprecated)) : find k m = Some r -> In k (map fst m).
  Proof. intros H. apply find_in in H. change k with (fst (k, r)). apply in_map, H. Qed.
  Definition keys : list str := map fst (definitions doc) ++ map fst (anchor_map deprecation_of hidden anchors).
  Lemma lookup_key x target : lookup doc x = Some target -> In x keys.
  Proof.
    unfold ReferenceModel.lookup, keys. intros H. apply in_or_app. destruct (find x (definitions doc)) as [y|] eqn:E; [left; eapply find_key, E|].
    destruct (is_anchor_reference x); [|discriminate]. right. eapply find_key, H.
  Qed.
  Lemma trace_keys xs s : trace xs s -> incl xs keys.
  Proof. induction 1 as [|x xs s t target A B C D E F IH]; [intros y []|]. intros y [<- |H]; [eapply lookup_key, B|apply IH, H]. Qed.
  Lemma str_dec : forall a b : str, {a = b} + {a <> b}.
  Proof. apply list_eq_dec, N.eq_dec. Qed.
  Lemma repeated (xs : list str) : NoDup xs \/ exists l1 x l2 l3, xs = l1 ++ x :: l2 ++ x :: l3.
  Proof.
    induction xs as [|x xs [IH|(l1 & y & l2 & l3 & ->)]]; [left; constructor| |right; exists (x :: l1), y, l2, l3; reflexivity].
    destruct (in_dec str_dec x xs) as [H|H]; [|left; constructor; assumption]. right. apply in_split in H. destruct H as (l2 & l3 & ->). exists [], x, l2, l3. reflexivity.
  Qed.
  Lemma trace_at l1 x r s : trace (l1 ++ x :: r) s ->
    exists t target, lookup doc x = Some target /\ from_value t = Some target /\ leads_on (leads doc anchors) s t /\ trace r t.
  Proof.
    revert s. induction l1 as [|y l1 IH]; intros s H; inversion H as [|? ? ? t target A B C D E F]; subst.
    - exists t, target. split; [exact B|]. split; [exact C|]. split; [apply leads_one, D|exact F].
    - destruct (IH _ F) as (u & target' & A' & B' & C' & D'). exists u, target'. split; [exact A'|]. split; [exact B'|]. split; [eapply leads_more; eassumption|exact D'].
  Qed.
  Lemma fuel_or_circle s r : regular s -> points r = ref_of s -> resolve (length keys) doc r = None -> circular (leads doc anchors) s.
  Proof.
    intros Hs Hr H. destruct (out_of_fuel _ _ _ Hs Hr H) as (xs & HL & HT). destruct (repeated xs) as [HN|(l1 & x & l2 & l3 & ->)].
    - pose proof (NoDup_incl_length HN (trace_keys _ _ HT)). lia.
    - destruct (trace_at _ _ _ _ HT) as (t & target & A & B & C & D). destruct (trace_at _ _ _ _ D) as (t' & target' & A' & B' & C' & _).
      rewrite A in A'. injection A' as <-. pose proof (from_value_inj _ _ _ B B') as <-. exists t. auto.
  Qed.

  (** * Chains *)
  Definition merged (a b : notes (deprecated := deprecated)) : notes :=
    Notes (or_else (n_title a) (n_title b)) (or_else (n_description a) (n_description b)) (or_else (n_default a) (n_default b))
          (or_else (n_examples a) (n_examples b)) (or_else (n_deprecation a) (n_deprecation b)).
  Definition no_notes : notes (deprecated := deprecated) := Notes None None None None None.
  Definition notes_at (v : jvalue) : notes := match v with JObject es => notes_of deprecation_of es | _ => no_notes end.
  Definition chain_notes (refs : list jvalue) : notes := fold_right (fun v n => merged (notes_at v) n) no_notes refs.
  Definition set_by (n : notes (deprecated := deprecated)) : settings :=
    Settings (option_map Some (n_title n)) (option_map Some (n_description n)) (n_default n) (n_examples n) (n_deprecation n).
  Lemma or_else_assoc {A} (a b c : option A) : or_else (or_else a b) c = or_else a (or_else b c).
  Proof. destruct a; reflexivity. Qed.
  Lemma merged_assoc a b c : merged (merged a b) c = merged a (merged b c).
  Proof. unfold merged. cbn [n_title n_description n_default n_examples n_deprecation]. rewrite !or_else_assoc. reflexivity. Qed.
  Lemma merged_none n : merged n no_notes = n.
  Proof. destruct n as [a b c d e]. unfold merged, no_notes. cbn. destruct a, b, c, d, e; reflexivity. Qed.
  Definition conj (a : option semantics) (l : list jvalue) (valid : jvalue -> Prop) : Prop :=
    match a with Some s => accepts valid s | None => True end /\ Forall valid l.
  Lemma refers_leads s t : refers doc anchors s t -> is_schema hidden t -> leads doc anchors s t.
  Proof.
    clear. intros [section name HRf HSec HPl HD|name HRf HN H47 HI] Ht.
    - exists (reference_to section name). split; [exact HRf|]. split; [exact Ht|]. left. exists section, name. auto.
    - exists (35 :: name). split; [exact HRf|]. split; [exact Ht|]. right. split.
      + intros u _ (section & nm & _ & E & _). unfold reference_to in E. injection E as ->. apply H47. left. reflexivity.
      + split; [exists name; auto|exact HI].
  Qed.
  Lemma chain_resolves : forall s refs last, chain doc anchors s refs last -> regular s ->
    Forall (is_schema hidden) (refs ++ [last]) ->
    forall r n sem, from_value s = Some r ->
    exists sem', (forall fuel, (length refs <= fuel)%nat -> resolve fuel doc (apply_annotations n (apply_semantics sem r)) = Some (Schema last (set_by (merged n (chain_notes refs))) (Some sem'))) /\
      forall valid, accepts valid sem' <-> conj sem (refs ++ [last]) valid.
  Proof.
    induction 1 as [s HS|s t refs last HRf HC IH]; intros Hs HV r n sem Hr.
    - assert (E : r = Resolved s nothing_set (Some (Alone s))).
      { destruct HS as [[b ->]|[es [-> HS]]]; [cbn in Hr; congruence|]. unfold ReferenceModel.from_value, new in Hr. apply regular_entries in Hs. destruct Hs as [HN _].
        destruct (hidden es); [discriminate|]. rewrite (string_at_none _ _ HN HS) in Hr. congruence. }
      subst r. cbn [apply_semantics apply_annotations]. exists (match sem with Some l => AllOf [l; Alone s] | None => Alone s end). split.
      + intros fuel HL. destruct fuel; cbn [ReferenceModel.resolve]; (f_equal; f_equal; [|destruct sem; reflexivity]); cbn [chain_notes fold_right]; rewrite merged_none; unfold set_by; cbn [s_title s_description s_default s_examples s_deprecation nothing_set];
          destruct n as [a b c d e]; cbn; destruct a, b, c, d, e; reflexivity.
      + intros valid. unfold conj. cbn [app]. destruct sem as [l|]; cbn [accepts fold_right]; split.
        * intros (A & B & _). split; [exact A|]. constructor; [exact B|constructor].
        * intros [A B]. inversion B; subst. auto.
        * intros A. split; [exact I|]. constructor; [exact A|constructor].
        * intros [_ B]. inversion B; subst. auto.
    - inversion HV as [|? ? Hsch HV']; subst.
      assert (Ht : is_schema hidden t) by (destruct HC; [inversion HV'; assumption|inversion HV'; assumption]).
      apply (refers_leads _ _ HRf) in Ht. destruct (leads_lookup _ _ Hs Ht) as (x & target & HX & HLk & Hv). clear Ht HRf. rename Hv into Ht. rename HX into HRf.
      assert (HRt : regular t) by (destruct (lookup_leads _ _ HLk) as (t' & Hf' & Ht' & _); rewrite (from_value_inj _ _ _ Ht Hf'); exact Ht').
      destruct s as [| | | | |es]; try discriminate HRf. cbn [ref_of] in HRf.
      assert (E : r = Ref x (notes_of deprecation_of es) (Some (Alone (JObject es)))).
      { unfold ReferenceModel.from_value, new in Hr. destruct (hidden es); [discriminate|]. rewrite HRf in Hr. congruence. }
      subst r. cbn [apply_semantics apply_annotations].
      destruct (IH HRt HV' target (merged n (notes_of deprecation_of es)) (combine sem (Some (Alone (JObject es)))) Ht) as (sem' & A & B).
      exists sem'. split.
      + intros fuel HL. destruct fuel as [|fuel]; [cbn [length] in HL; lia|]. cbn [ReferenceModel.resolve]. rewrite HLk.
        rewrite merged_assoc in A. apply A. cbn [length] in HL. lia.
      + intros valid. rewrite B. unfold conj. cbn [app]. rewrite Forall_cons_iff. destruct sem as [l|]; cbn [combine accepts fold_right]; tauto.
  Qed.
End Reference.
