(** C61: following the references of a schema within its document. *)
From Coq Require Import String Ascii List NArith ZArith Bool Arith Lia ZifyBool ZifyN.
From Verif Require Import Base JsonModel PointerModel PointerSpec PointerProofs PointerProps ReferenceModel ReferenceSpec ReferenceProofs.
Import ListNotations.
Open Scope N_scope.
Open Scope list_scope.

(** the sections of definitions are objects, where the document has them *)
Definition definitions_are_objects (doc : jvalue) : Prop :=
  forall es section v, doc = JObject es -> is_section section -> In (section, v) es -> exists ds, v = JObject ds.

Lemma first_string k refs f : Forall regular refs ->
  (forall es, f (JObject es) = string_at k es) -> (forall v, (forall es, v <> JObject es) -> f v = None) ->
  first_with (has_string k) refs (fold_right (fun v x => or_else (f v) x) None refs).
Proof.
  intros H Ho Hn. induction H as [|v refs Hv H IH]; [constructor|]. cbn [fold_right]. destruct (f v) as [x|] eqn:E; cbn [or_else].
  - apply first_here. destruct v as [| | | | |es]; try (rewrite Hn in E by discriminate; discriminate). rewrite Ho in E. exists es. split; [reflexivity|]. apply in_string_at, E.
  - apply first_later; [|exact IH]. intros y (es & -> & HI). rewrite Ho in E. apply regular_entries in Hv. rewrite (string_at_in _ _ _ (proj1 Hv) HI) in E. discriminate.
Qed.
Lemma first_value {A} k (wrap : A -> jvalue) refs (f : jvalue -> option A) : Forall regular refs ->
  (forall es x, f (JObject es) = Some x <-> member k es = Some (wrap x)) -> (forall v, (forall es, v <> JObject es) -> f v = None) ->
  first_with (fun x v => has_value k (wrap x) v) refs (fold_right (fun v x => or_else (f v) x) None refs).
Proof.
  intros H Ho Hn. induction H as [|v refs Hv H IH]; [constructor|]. cbn [fold_right]. destruct (f v) as [x|] eqn:E; cbn [or_else].
  - apply first_here. destruct v as [| | | | |es]; try (rewrite Hn in E by discriminate; discriminate). apply Ho in E. exists es. split; [reflexivity|]. apply member_in, E.
  - apply first_later; [|exact IH]. intros y (es & -> & HI). apply regular_entries in Hv. apply (in_member _ _ _ (proj1 Hv)), Ho in HI. congruence.
Qed.
Lemma chain_regular doc anchors s refs last : chain doc anchors s refs last -> regular doc -> Forall (fun a => regular (snd a)) anchors -> regular s -> Forall regular refs.
Proof.
  induction 1 as [s HS|s t refs last HRf HC IH]; intros HR HAR Hs; [constructor|]. constructor; [exact Hs|]. apply IH; [exact HR|exact HAR|].
  destruct HRf as [section name HRf HSec HPl HD|name HRf HN H47 HI]; [|rewrite Forall_forall in HAR; exact (HAR _ HI)].
  clear -HD HR. assert (K : forall ts v w, denotes ts v w -> regular v -> regular w).
  { induction 1 as [v|t0 ts es v w HI H IH|t0 n ts items v w HX HE H IH]; intros Hv; [exact Hv| |].
    - apply IH. apply regular_entries in Hv. destruct Hv as [_ Hv]. rewrite Forall_forall in Hv. exact (Hv _ HI).
    - apply IH. inversion Hv as [| | | |? HF _|]; subst. rewrite Forall_forall in HF. apply HF. eapply nth_error_In, HE. }
  eapply K; eassumption.
Qed.

(** ** C61, part 1: a chain of references to definitions and anchors resolves to its last schema. What the result
    accepts is what every schema of the chain accepts, and the annotations set on it are those of the first
    reference that gives them. Missing: references by pointers to other places in the middle of a chain, other documents. *)
Theorem C61_chain_partial : forall deprecated (deprecation_of : list (str * jvalue) -> option deprecated) hidden lossy anchors doc s refs last,
  regular doc -> definitions_are_objects doc -> regular s -> NoDup (map fst anchors) -> Forall (fun a => regular (snd a)) anchors ->
  chain doc anchors s refs last ->
  Forall (is_schema hidden) (refs ++ [last]) ->
  exists r set sem,
    from_value deprecation_of hidden s = Some r /\
    (forall fuel, (length refs <= fuel)%nat -> resolve deprecation_of hidden lossy anchors fuel doc r = Some (Schema last set (Some sem))) /\
    (forall valid, accepts valid sem <-> Forall valid (refs ++ [last])) /\
    (exists t, s_title set = option_map Some t /\ first_with (has_string (lit "title")) refs t) /\
    (exists d, s_description set = option_map Some d /\ first_with (has_string (lit "description")) refs d) /\
    first_with (has_value (lit "default")) refs (s_default set) /\
    first_with (fun items => has_value (lit "examples") (JArray items)) refs (s_examples set) /\
    first_with (fun x v => exists es, v = JObject es /\ deprecation_of es = Some x) refs (s_deprecation set).
Proof.
  intros deprecated deprecation_of hidden lossy anchors doc s refs last HR HP Hs HA HAR HC HV.
  assert (Hsch : is_schema hidden s) by (destruct HC; inversion HV; assumption).
  apply (is_schema_value deprecation_of) in Hsch. destruct Hsch as [r Hr].
  pose proof (chain_regular _ _ _ _ _ HC HR HAR Hs) as HF.
  assert (K : apply_annotations no_notes (apply_semantics None r) = r).
  { destruct r as [src [a b c d e] sm|x [a b c d e] sm]; destruct sm; reflexivity. }
  destruct (chain_resolves deprecation_of hidden lossy anchors doc HR HP HA HAR _ _ _ HC Hs HV r no_notes None Hr) as (sem & HX & HE). rewrite K in HX.
  exists r, (set_by (merged no_notes (chain_notes deprecation_of refs))), sem. split; [exact Hr|]. split; [exact HX|]. split; [|split; [|split; [|split; [|split]]]].
  - intros valid. rewrite HE. unfold conj. tauto.
  - exists (n_title (chain_notes deprecation_of refs)). split; [reflexivity|].
    replace (n_title (chain_notes deprecation_of refs)) with (fold_right (fun v x => or_else (n_title (notes_at deprecation_of v)) x) None refs)
      by (clear; induction refs as [|v refs IH]; [reflexivity|]; cbn [fold_right chain_notes]; rewrite IH; reflexivity).
    apply first_string; [exact HF|reflexivity|]. intros v Hv. destruct v; try reflexivity. destruct (Hv _ eq_refl).
  - exists (n_description (chain_notes deprecation_of refs)). split; [reflexivity|].
    replace (n_description (chain_notes deprecation_of refs)) with (fold_right (fun v x => or_else (n_description (notes_at deprecation_of v)) x) None refs)
      by (clear; induction refs as [|v refs IH]; [reflexivity|]; cbn [fold_right chain_notes]; rewrite IH; reflexivity).
    apply first_string; [exact HF|reflexivity|]. intros v Hv. destruct v; try reflexivity. destruct (Hv _ eq_refl).
  - replace (s_default (set_by (merged no_notes (chain_notes deprecation_of refs)))) with (fold_right (fun v x => or_else (n_default (notes_at deprecation_of v)) x) None refs)
      by (clear; cbn; induction refs as [|v refs IH]; [reflexivity|]; cbn [fold_right chain_notes]; rewrite IH; reflexivity).
    apply (first_value (lit "default") (fun x => x)); [exact HF|intros es x; reflexivity|]. intros v Hv. destruct v; try reflexivity. destruct (Hv _ eq_refl).
  - replace (s_examples (set_by (merged no_notes (chain_notes deprecation_of refs)))) with (fold_right (fun v x => or_else (n_examples (notes_at deprecation_of v)) x) None refs)
      by (clear; cbn; induction refs as [|v refs IH]; [reflexivity|]; cbn [fold_right chain_notes]; rewrite IH; reflexivity).
    apply (first_value (lit "examples") JArray); [exact HF| |intros v Hv; destruct v; try reflexivity; destruct (Hv _ eq_refl)].
    intros es x. cbn [notes_at notes_of n_examples]. destruct (member (lit "examples") es) as [[]|]; split; congruence.
  - replace (s_deprecation (set_by (merged no_notes (chain_notes deprecation_of refs)))) with (fold_right (fun v x => or_else (n_deprecation (notes_at deprecation_of v)) x) None refs)
      by (clear; cbn; induction refs as [|v refs IH]; [reflexivity|]; cbn [fold_right chain_notes]; rewrite IH; reflexivity).
    clear. induction refs as [|v refs IH]; [constructor|]. cbn [fold_right]. destruct (n_deprecation (notes_at deprecation_of v)) as [x|] eqn:E; cbn [or_else].
    + apply first_here. destruct v as [| | | | |es]; try discriminate. exists es. auto.
    + apply first_later; [|exact IH]. intros y (es & -> & HI). cbn in E. congruence.
Qed.
Print Assumptions C61_chain_partial.

(** a reference to a plainly named definition is the JSON pointer to that definition *)
Theorem C61_reference_is_pointer : forall section name, is_section section -> plain_name name ->
  exists e, reference_to section name = 35 :: e /\ fragment (pointer_text [section; name]) e.
Proof. intros section name HS HN. destruct (plain_pointer section name HS HN) as [E H]. eauto. Qed.
Print Assumptions C61_reference_is_pointer.

(** ** C61, part 2: following references returns exactly when they do not go round. *)
Theorem C61_returns : forall deprecated (deprecation_of : list (str * jvalue) -> option deprecated) hidden lossy anchors doc s r,
  regular doc -> definitions_are_objects doc -> regular s -> NoDup (map fst anchors) -> Forall (fun a => regular (snd a)) anchors ->
  from_value deprecation_of hidden s = Some r ->
  (exists fuel, resolve deprecation_of hidden lossy anchors fuel doc r <> None) <-> ~ circular (leads hidden doc anchors) s.
Proof.
  intros deprecated deprecation_of hidden lossy anchors doc s r HR HP Hs HA HAR Hr. pose proof (from_value_points _ _ _ _ Hr) as HPt. split.
  - intros [fuel HF] HC. apply HF. eapply circular_diverges; eassumption.
  - intros HN. exists (length (keys deprecation_of hidden anchors doc)). intros HF. apply HN. eapply fuel_or_circle; eassumption.
Qed.
Print Assumptions C61_returns.

(** ** C61, part 3: a reference that names no definition and no anchor is a pointer to any other place of the document, and the schema
    found there is applied together with the reference. Missing: a reference of the schema found is not followed (C61_pointer_refuted). *)
Theorem C61_pointer_partial : forall deprecated (deprecation_of : list (str * jvalue) -> option deprecated) hidden lossy anchors doc es e ts v,
  regular doc -> regular (JObject es) -> hidden es = false ->
  In (lit "$ref", JString (35 :: e)) es ->
  Forall (fun t => t <> []) ts -> Forall (Forall is_scalar) ts -> fragment (pointer_text ts) e -> denotes ts doc v ->
  (exists b, v = JBool b) \/ (exists fs, v = JObject fs) ->
  (forall u, ~ defined doc (35 :: e) u) -> (forall u, ~ In (35 :: e, u) anchors) ->
  exists r set sem,
    from_value deprecation_of hidden (JObject es) = Some r /\
    (forall fuel, resolve deprecation_of hidden lossy anchors fuel doc r = Some (Schema v set (Some sem))) /\
    (forall valid, accepts valid sem <-> valid (JObject es) /\ valid v) /\
    (forall t, In (lit "title", JString t) es -> s_title set = Some (Some t)) /\
    (forall t, In (lit "description", JString t) es -> s_description set = Some (Some t)) /\
    (forall x, In (lit "default", x) es -> s_default set = Some x) /\
    (forall x, In (lit "examples", JArray x) es -> s_examples set = Some x) /\
    s_deprecation set = deprecation_of es.
Proof.
  intros deprecated deprecation_of hidden lossy anchors doc es e ts v HR Hs HH HI HN HSc HF HD Hv HU HA.
  pose proof (proj1 (regular_entries _ Hs)) as ND. pose proof (string_at_in _ _ _ ND HI) as HS.
  assert (HL : ReferenceModel.lookup deprecation_of hidden anchors doc (35 :: e) = None).
  { unfold ReferenceModel.lookup. destruct (find (35 :: e) (definitions deprecation_of hidden doc)) as [y|] eqn:E.
    - destruct (found_defined deprecation_of hidden _ _ _ HR E) as (u & _ & Hu & _). destruct (HU u Hu).
    - destruct (is_anchor_reference (35 :: e)); [|reflexivity]. destruct (find (35 :: e) (anchor_map deprecation_of hidden anchors)) as [y|] eqn:E'; [|reflexivity].
      apply find_in, in_anchor_map in E'. destruct E' as (u & Hu & _). destruct (HA u Hu). }
  pose proof (C60_found_partial lossy doc ts e v HR HN HSc HF HD) as HP.
  eexists. eexists. eexists. split; [cbn [from_value]; unfold new; rewrite HH, HS; reflexivity|]. split; [|split; [|split; [|split; [|split; [|split]]]]].
  - intros fuel. assert (E : resolve deprecation_of hidden lossy anchors fuel doc (Ref (35 :: e) (notes_of deprecation_of es) (Some (Alone (JObject es)))) =
      Some (at_pointer lossy doc (35 :: e) (notes_of deprecation_of es) (Some (Alone (JObject es))))) by (destruct fuel; cbn [resolve]; rewrite HL; reflexivity).
    rewrite E. unfold at_pointer. rewrite HP. destruct Hv as [[b ->]|[fs ->]]; reflexivity.
  - intros valid. cbn [accepts fold_right]. tauto.
  - intros t Ht. cbn [s_title]. unfold notes_of. cbn [n_title n_description]. rewrite (string_at_in _ _ _ ND Ht). reflexivity.
  - intros t Ht. cbn [s_description]. unfold notes_of. cbn [n_title n_description]. rewrite (string_at_in _ _ _ ND Ht). destruct (string_at (lit "title") es); reflexivity.
  - intros x Hx. cbn [s_default notes_of n_default]. apply in_member; assumption.
  - intros x Hx. cbn [s_examples notes_of n_examples]. rewrite (in_member _ _ _ ND Hx). reflexivity.
  - reflexivity.
Qed.
Print Assumptions C61_pointer_partial.

(** ** Examples
    [{"$ref": "#/$defs/a", "description": "D", "$defs": {"a": {"$ref": "#/$defs/b", "title": "T"}, "b": {"type": "string"}}}] *)
Definition target : jvalue := JObject [(lit "type", JString (lit "string"))].
Definition middle : jvalue := JObject [(lit "$ref", JString (lit "#/$defs/b")); (lit "title", JString (lit "T"))].
Definition root : jvalue :=
  JObject [(lit "$ref", JString (lit "#/$defs/a")); (lit "description", JString (lit "D")); (lit "$defs", JObject [(lit "a", middle); (lit "b", target)])].
Ltac regular_tac := repeat (first [apply regular_object; [repeat constructor; cbn; intuition congruence|] | apply regular_string | apply regular_bool | apply regular_null | apply Forall_cons; [cbn [snd]|] | apply Forall_nil]).
Lemma root_regular : regular root.
Proof. unfold root, middle, target. regular_tac. Qed.
Example C61_example_chain : chain root [] root [root; middle] target.
Proof.
  apply chain_ref with (t := middle).
  - apply refers_definition with (section := lit "$defs") (name := lit "a").
    + eexists. split; [reflexivity|]. left. reflexivity.
    + right. reflexivity.
    + split; [discriminate|]. repeat constructor; unfold is_scalar; vm_compute; intuition discriminate.
    + eapply denotes_member; [right; right; left; reflexivity|]. eapply denotes_member; [left; reflexivity|constructor].
  - apply chain_ref with (t := target).
    + apply refers_definition with (section := lit "$defs") (name := lit "b").
      * eexists. split; [reflexivity|]. left. reflexivity.
      * right. reflexivity.
      * split; [discriminate|]. repeat constructor; unfold is_scalar; vm_compute; intuition discriminate.
      * eapply denotes_member; [right; right; left; reflexivity|]. eapply denotes_member; [right; left; reflexivity|constructor].
    + apply chain_end. right. eexists. split; [reflexivity|]. intros s [H|[]]. discriminate.
Qed.
Example C61_example_hypotheses : regular root /\ definitions_are_objects root /\ Forall (is_schema (fun _ => false)) ([root; middle] ++ [target]).
Proof.
  split; [exact root_regular|]. split.
  - intros es section v E HS HI. injection E as <-. destruct HI as [E|[E|[E|[]]]]; injection E as <- <-; [destruct HS; discriminate|destruct HS; discriminate|eauto].
  - repeat (apply Forall_cons; [right; eexists; split; reflexivity|]). apply Forall_nil.
Qed.
Definition no_deprecation (es : list (str * jvalue)) : option unit := None.
Definition resolve_root (fuel : nat) (doc : jvalue) : option outcome :=
  match from_value no_deprecation (fun _ => false) doc with
  | Some r => resolve no_deprecation (fun _ => false) (fun _ => []) [] fuel doc r
  | None => None
  end.
Example C61_example :
  resolve_root 2 root = Some (Schema target (Settings (Some (Some (lit "T"))) (Some (Some (lit "D"))) None None None)
                                (Some (AllOf [AllOf [Alone root; Alone middle]; Alone target]))).
Proof. vm_compute. reflexivity. Qed.

(** ** What the code does otherwise.
    A schema whose references go round, [{"$ref": "#/$defs/a", "$defs": {"a": {"$ref": "#/$defs/b"}, "b": {"$ref": "#/$defs/a"}}}],
    is never resolved; the reference of the root is followed when the schema is loaded. *)
Definition round : jvalue :=
  JObject [(lit "$ref", JString (lit "#/$defs/a"));
           (lit "$defs", JObject [(lit "a", JObject [(lit "$ref", JString (lit "#/$defs/b"))]); (lit "b", JObject [(lit "$ref", JString (lit "#/$defs/a"))])])].
Theorem C61_cycle_refuted : regular round /\ forall fuel, resolve_root fuel round = None.
Proof.
  assert (HR : regular round) by (unfold round; regular_tac). split; [exact HR|]. intros fuel. unfold resolve_root. destruct (from_value no_deprecation (fun _ => false) round) as [r|] eqn:E; [|discriminate E].
  assert (HD : definitions_are_objects round).
  { intros es section v E' HS HI. injection E' as <-. destruct HI as [E'|[E'|[]]]; injection E' as <- <-; [destruct HS; discriminate|eauto]. }
  eapply circular_diverges; [exact HR|exact HD|constructor|constructor|exact HR| |apply from_value_points in E; exact E].
  set (a := JObject [(lit "$ref", JString (lit "#/$defs/b"))]). set (b := JObject [(lit "$ref", JString (lit "#/$defs/a"))]).
  assert (La : forall s, has_string (lit "$ref") (lit "#/$defs/a") s -> leads (fun _ => false) round [] s a).
  { intros s H. exists (lit "#/$defs/a"). split; [exact H|]. split; [right; eexists; split; reflexivity|]. left. exists (lit "$defs"), (lit "a"). split; [right; reflexivity|]. split; [reflexivity|].
    eapply denotes_member; [right; left; reflexivity|]. eapply denotes_member; [left; reflexivity|constructor]. }
  assert (Lb : leads (fun _ => false) round [] a b).
  { exists (lit "#/$defs/b"). split; [eexists; split; [reflexivity|left; reflexivity]|]. split; [right; eexists; split; reflexivity|]. left. exists (lit "$defs"), (lit "b"). split; [right; reflexivity|]. split; [reflexivity|].
    eapply denotes_member; [right; left; reflexivity|]. eapply denotes_member; [right; left; reflexivity|constructor]. }
  exists a. split.
  - right. apply leads_one. apply La. eexists. split; [reflexivity|left; reflexivity].
  - eapply leads_more; [exact Lb|]. apply leads_one, La. eexists. split; [reflexivity|left; reflexivity].
Qed.
Print Assumptions C61_cycle_refuted.

(** A reference to another place of the document is followed for one step only:
    [{"$ref": "#/properties/p", "title": "T", "properties": {"p": {"$ref": "#/$defs/b", "description": "D"}}, "$defs": {"b": false}}]
    accepts what the schema at [properties/p] accepts by itself, and the schema [b], which it refers to and
    which accepts nothing, takes no part. The description of the schema found is erased by the title given. *)
Definition pointing : jvalue :=
  JObject [(lit "$ref", JString (lit "#/properties/p")); (lit "title", JString (lit "T"));
           (lit "properties", JObject [(lit "p", JObject [(lit "$ref", JString (lit "#/$defs/b")); (lit "description", JString (lit "D"))])]);
           (lit "$defs", JObject [(lit "b", JBool false)])].
Definition pointed : jvalue := JObject [(lit "$ref", JString (lit "#/$defs/b")); (lit "description", JString (lit "D"))].
Theorem C61_pointer_refuted :
  denotes [lit "properties"; lit "p"] pointing pointed /\ chain pointing [] pointed [pointed] (JBool false) /\
  exists set sem, resolve_root 9 pointing = Some (Schema pointed set (Some sem)) /\
    (forall valid : jvalue -> Prop, valid pointing -> valid pointed -> accepts valid sem) /\
    s_title set = Some (Some (lit "T")) /\ s_description set = Some None.
Proof.
  split; [|split].
  - eapply denotes_member; [right; right; left; reflexivity|]. eapply denotes_member; [left; reflexivity|constructor].
  - apply chain_ref with (t := JBool false).
    + apply refers_definition with (section := lit "$defs") (name := lit "b").
      * eexists. split; [reflexivity|]. left. reflexivity.
      * right. reflexivity.
      * split; [discriminate|]. repeat constructor; unfold is_scalar; vm_compute; intuition discriminate.
      * eapply denotes_member; [right; right; right; left; reflexivity|]. eapply denotes_member; [left; reflexivity|constructor].
    + apply chain_end. left. eauto.
  - eexists. eexists. split; [vm_compute; reflexivity|]. split; [|split; reflexivity]. intros valid A B. cbn [accepts fold_right]. split; [exact A|]. split; [exact B|exact I].
Qed.
Print Assumptions C61_pointer_refuted.

(** The name of a definition is compared with the reference as it is written, so a definition named [a/b]
    takes the reference [#/$defs/a/b] away from the schema that the pointer denotes, and a definition whose
    reference is escaped, [#/$defs/a~1b], is found only as the target of a pointer. *)
Definition slashed : jvalue :=
  JObject [(lit "$ref", JString (lit "#/$defs/a/b")); (lit "$defs", JObject [(lit "a/b", JBool false); (lit "a", JObject [(lit "b", JBool true)])])].
Theorem C61_name_refuted :
  denotes [lit "$defs"; lit "a"; lit "b"] slashed (JBool true) /\
  fragment (pointer_text [lit "$defs"; lit "a"; lit "b"]) (lit "/$defs/a/b") /\
  exists set sem, resolve_root 9 slashed = Some (Schema (JBool false) set sem).
Proof.
  split; [|split].
  - eapply denotes_member; [right; left; reflexivity|]. eapply denotes_member; [right; left; reflexivity|]. eapply denotes_member; [left; reflexivity|constructor].
  - cbn. repeat (apply fragment_plain; [discriminate|]). constructor.
  - eexists. eexists. vm_compute. reflexivity.
Qed.
Print Assumptions C61_name_refuted.

(** An anchor and a pointer: [{"$ref": "#mine", "$defs": {"a": {"$anchor": "mine", "type": "string"}}}], and the schema [pointing] above,
    which meets the hypotheses of [C61_pointer_partial]. *)
Definition anchored_schema : jvalue := JObject [(lit "$anchor", JString (lit "mine")); (lit "type", JString (lit "string"))].
Definition anchoring : jvalue := JObject [(lit "$ref", JString (lit "#mine")); (lit "$defs", JObject [(lit "a", anchored_schema)])].
Example C61_example_anchor : chain anchoring [(lit "#mine", anchored_schema)] anchoring [anchoring] anchored_schema.
Proof.
  apply chain_ref with (t := anchored_schema).
  - apply refers_anchor with (name := lit "mine"); [eexists; split; [reflexivity|left; reflexivity]|discriminate|cbn; intuition discriminate|left; reflexivity].
  - apply chain_end. right. eexists. split; [reflexivity|]. intros s [H|[H|[]]]; discriminate.
Qed.
Example C61_example_pointer :
  regular pointing /\ fragment (pointer_text [lit "properties"; lit "p"]) (lit "/properties/p") /\
  Forall (Forall is_scalar) [lit "properties"; lit "p"] /\ forall u, ~ defined pointing (lit "#/properties/p") u.
Proof.
  split; [unfold pointing; regular_tac|]. split; [cbn; repeat (apply fragment_plain; [discriminate|]); constructor|]. split; [repeat constructor; unfold is_scalar; vm_compute; intuition discriminate|].
  intros u (section & name & [-> | ->] & E & _); discriminate.
Qed.
