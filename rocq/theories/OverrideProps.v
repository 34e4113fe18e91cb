(** C63: the overrides of the configuration apply to the paths their targets stand for.
    C64: paths are read as they are written. *)
From Coq Require Import String Ascii List NArith Bool Arith Lia ZifyBool ZifyN.
From Verif Require Import Base TomlStringGrammar PointerSpec OverrideModel OverrideSpec OverrideProofs.
Import ListNotations.
Open Scope N_scope.
Open Scope list_scope.

(** * C64 *)
(** Every text of the documented notation is read as the path it stands for. *)
Theorem C64_read : forall s ps, path_text s ps -> parse s = Read ps.
Proof. exact parse_text. Qed.
Print Assumptions C64_read.
(** So the notation is unambiguous. *)
Theorem C64_unambiguous : forall s ps qs, path_text s ps -> path_text s qs -> ps = qs.
Proof. intros s ps qs H H'. apply parse_text in H, H'. congruence. Qed.
Print Assumptions C64_unambiguous.
(** What is shown (in messages, and to the language server) stands for the path and is read back as it. *)
Theorem C64_round_trip_partial : forall ps, ps <> [] -> Forall writable ps -> path_text (show ps) ps /\ parse (show ps) = Read ps.
Proof. intros ps HN HF. pose proof (show_path ps HN HF) as H. split; [exact H|exact (parse_text _ _ H)]. Qed.
Print Assumptions C64_round_trip_partial.
Theorem C64_no_panic : forall s, parse s <> Crashed.
Proof. intros [|c s]; [discriminate|]. apply read_no_panic. Qed.
Print Assumptions C64_no_panic.
Example C64_example :
  let ps := [PKey (lit "tool"); PKey (lit "a.b"); PAnyKey; PIndex 10; PAnyIndex; PKey (lit "*"); PKey (lit "${x}")] in
  Forall writable ps /\ show ps = lit "tool.""a.b"".*[10][*].""*"".${x}" /\ parse (lit "tool.'a.b'.*[10][*].""*"".${x}") = Read ps.
Proof.
  split; [|split; vm_compute; reflexivity].
  assert (HW : forall k, (forall r, k <> 36 :: r) -> Forall writable_char k -> writable (PKey k)) by (intros k H1 H2; right; split; [intros (u & E & _); exact (H1 _ E)|exact H2]).
  assert (HB : forall k, forallb (fun c => (28 <=? c) && (c <? 128)) k = true -> Forall writable_char k) by (intros k H; rewrite forallb_forall in H; apply Forall_forall; intros c Hc; specialize (H c Hc); unfold writable_char, is_scalar; lia).
  repeat (apply Forall_cons || apply Forall_nil); try exact I; try reflexivity.
  1-3: apply HW; [discriminate|apply HB; vm_compute; reflexivity].
  left. split; [exists (lit "x}"); split; [reflexivity|exists (lit "${x"); reflexivity]|]. split; [discriminate|]. split; [repeat (apply Forall_cons || apply Forall_nil); split; discriminate|]. split; discriminate.
Qed.
(** Texts outside of the notation are not all rejected: empty keys are dropped, an index may have a sign or zeros before
    it, and a key may follow a quoted one or an index without a dot. *)
Theorem C64_lenient_refuted :
  parse (lit "a..b.") = Read [PKey (lit "a"); PKey (lit "b")] /\ parse (lit ".") = Read [] /\
  parse (lit "a[+1]") = Read [PKey (lit "a"); PIndex 1] /\ parse (lit "a[01]") = Read [PKey (lit "a"); PIndex 1] /\
  parse (lit "'a'b") = Read [PKey (lit "a"); PKey (lit "b")] /\ parse (lit "[0]a") = Read [PIndex 0; PKey (lit "a")].
Proof. vm_compute. repeat split. Qed.
Print Assumptions C64_lenient_refuted.
(** Keys of the form [${...}] with a dot, and keys with a character that the printer has an escape of its own for, are not read back. *)
Theorem C64_round_trip_refuted :
  parse (show [PKey (lit "${a.b}")]) = Read [PKey (lit "${a"); PKey (lit "b}")] /\ parse (show [PKey [7]]) = Rejected.
Proof. vm_compute. repeat split. Qed.
Print Assumptions C64_round_trip_refuted.

(** * C63 *)
(** Of all targets that stand for a path the one with the most definite parts counts, of several the first one; there is
    no override exactly if no target stands for the path. *)
Theorem C63_chosen : forall rule (items : list (list pattern * rule)) path o, find_best items path = Some o <-> chosen items path o.
Proof. intros. apply find_best_spec. Qed.
Print Assumptions C63_chosen.
Theorem C63_none : forall rule (items : list (list pattern * rule)) path, find_best items path = None <-> forall x, In x items -> ~ covers (fst x) path.
Proof. intros. apply find_best_none. Qed.
Print Assumptions C63_none.
(** From the configuration: the overrides are the targets of the items with a rule, in order; those that are texts of
    the notation, or empty for the root, are all there. *)
Definition target_text (t : str) (ps : list pattern) : Prop := (t = [] /\ ps = []) \/ path_text t ps.
Lemma targets_listed ts : forall pss, Forall2 target_text ts pss -> targets_of ts = pss.
Proof.
  induction ts as [|t ts IH]; intros pss H; inversion H as [|? ps ? pss' HT HF]; subst; [reflexivity|]. cbn [targets_of].
  assert (HP : parse_target t = Read ps). { destruct HT as [[-> ->]|HT]; [reflexivity|]. pose proof (parse_text _ _ HT) as HR. unfold parse_target. destruct t; [discriminate HR|exact HR]. }
  rewrite HP, (IH pss' HF). reflexivity.
Qed.
Inductive configured {rule} : list (list str * option rule) -> list (list pattern * rule) -> Prop :=
| configured_nil : configured [] []
| configured_rule ts r pss items os : Forall2 target_text ts pss -> configured items os -> configured ((ts, Some r) :: items) (map (fun p => (p, r)) pss ++ os)
| configured_other ts items os : configured items os -> configured ((ts, None) :: items) os.
Lemma configured_all rule (items : list (list str * option rule)) os : configured items os -> overrides_of items = os.
Proof. induction 1 as [|ts r pss items os HT HC IH|ts items os HC IH]; [reflexivity| |exact IH]. unfold overrides_of. cbn [flat_map fst snd]. rewrite (targets_listed ts pss HT). unfold overrides_of in IH. rewrite IH. reflexivity. Qed.
Theorem C63_configured_partial : forall rule (items : list (list str * option rule)) os path o,
  configured items os -> (find_best (overrides_of items) path = Some o <-> chosen os path o).
Proof. intros rule items os path o H. rewrite (configured_all rule items os H). apply find_best_spec. Qed.
Print Assumptions C63_configured_partial.
(** The overrides of the schema at hand come before those of the root schema, however precise those are. *)
Theorem C63_schema_first : forall rule (all : str -> option (list (list pattern * rule))) u root path o os,
  all u = Some os -> chosen os path o -> override_for all (Some u) root path = Some o.
Proof. intros rule all u root path o os HU HC. unfold override_for. rewrite HU, (proj2 (find_best_spec os path o) HC). reflexivity. Qed.
Print Assumptions C63_schema_first.
Theorem C63_root_next : forall rule (all : str -> option (list (list pattern * rule))) u r path o os,
  (forall os', all u = Some os' -> forall x, In x os' -> ~ covers (fst x) path) -> all r = Some os -> chosen os path o -> override_for all (Some u) (Some r) path = Some o.
Proof.
  intros rule all u r path o os HN HR HC. unfold override_for. rewrite HR, (proj2 (find_best_spec os path o) HC). destruct (all u) as [os'|] eqn:E; [|reflexivity].
  rewrite (proj2 (find_best_none os' path) (HN os' eq_refl)). reflexivity.
Qed.
Print Assumptions C63_root_next.
(** What is sorted: a comment directive decides before the configuration, and the configuration before the schema; switching the
    order off in a comment or in the configuration always has effect. *)
Theorem C63_comment_decides : forall order from_schema (c : @order_rule order) o (schema : option from_schema) has enabled,
  (disabled c = true -> forall r, order_for (Some c) o schema has enabled = Some r -> off r = true) /\
  (forall x, disabled c = false -> given c = Some x -> order_for (Some c) o schema has enabled = Some (Resolved (All _ x) false)).
Proof.
  intros order from_schema c o schema has enabled. unfold order_for. split.
  - intros H r. rewrite H. destruct (order_without_comment o schema has enabled); cbn [option_map]; [|discriminate]. intros E. injection E as <-. reflexivity.
  - intros x H1 H2. rewrite H1, H2. reflexivity.
Qed.
Print Assumptions C63_comment_decides.
Theorem C63_override_decides : forall order from_schema (c : @order_rule order) (schema : option from_schema) has enabled,
  (disabled c = true -> forall r, order_for None (Some c) schema has enabled = Some r -> off r = true) /\
  (forall x, disabled c = false -> given c = Some x -> order_for None (Some c) schema has enabled = Some (Resolved (All _ x) false)).
Proof.
  intros order from_schema c schema has enabled. cbn [order_for order_without_comment]. split.
  - intros H r. rewrite H. destruct schema; cbn [option_map]; [|discriminate]. intros E. injection E as <-. reflexivity.
  - intros x H1 H2. rewrite H1, H2. reflexivity.
Qed.
Print Assumptions C63_override_decides.
Theorem C63_schema_decides : forall order from_schema (s : from_schema) enabled,
  order_for (order := order) None None (Some s) true enabled = Some (Resolved (FromSchema _ s) (negb enabled)) /\
  order_for (order := order) (from_schema := from_schema) None None None true enabled = None.
Proof. intros. split; reflexivity. Qed.
Print Assumptions C63_schema_decides.
Example C63_example :
  let items := [([lit "tool.*"; lit ""], Some 1); ([lit "tool.x"], None); ([lit "tool.x"; lit "[bad"], Some 2); ([lit "*.x"; lit "tool.'x'"], Some 3)] in
  let path := [AccKey (lit "tool"); AccKey (lit "x")] in
  overrides_of items = [([PKey (lit "tool"); PAnyKey], 1); ([], 1); ([PKey (lit "tool"); PKey (lit "x")], 2); ([PAnyKey; PKey (lit "x")], 3); ([PKey (lit "tool"); PKey (lit "x")], 3)] /\
  find_best (overrides_of items) path = Some ([PKey (lit "tool"); PKey (lit "x")], 2) /\
  chosen (overrides_of items) path ([PKey (lit "tool"); PKey (lit "x")], 2) /\ find_best (overrides_of items) [] = Some ([], 1).
Proof.
  cbv zeta. split; [vm_compute; reflexivity|]. split; [vm_compute; reflexivity|]. split; [|vm_compute; reflexivity]. apply find_best_spec. vm_compute. reflexivity.
Qed.
(** A target that cannot be read has no effect on the other targets and items. *)
Theorem C63_others_kept : forall rule (before after : list (list str * option rule)) ts t us r,
  t <> [] -> (forall ps, parse t <> Read ps) ->
  overrides_of (before ++ (ts ++ t :: us, r) :: after) = overrides_of (before ++ (ts ++ us, r) :: after).
Proof.
  intros rule before after ts t us r HT HN. unfold overrides_of. rewrite !flat_map_app. f_equal. cbn [flat_map fst snd]. f_equal. destruct r as [r|]; [|reflexivity]. f_equal.
  induction ts as [|x ts IH]; cbn [app targets_of].
  - unfold parse_target. destruct t as [|c t]; [contradiction|]. destruct (parse (c :: t)) as [ps| |] eqn:E; try reflexivity. destruct (HN ps eq_refl).
  - rewrite IH. reflexivity.
Qed.
Print Assumptions C63_others_kept.
Example C63_example_unreadable : forall ps, parse (lit "items[x]") <> Read ps.
Proof. intros ps. vm_compute. discriminate. Qed.
(** A target that cannot be read is left out without a message: its item has no effect. *)
Theorem C63_unreadable_refuted : overrides_of [([lit "items[x]"], Some 1)] = [] /\ overrides_of [([lit "'a"], Some 1)] = [].
Proof. vm_compute. split; reflexivity. Qed.
Print Assumptions C63_unreadable_refuted.
