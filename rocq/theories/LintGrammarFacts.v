(** The grammar of LintGrammarSpec.v over sequences that are cut into items, and what stands between them. *)
From Coq Require Import List Bool Arith Lia.
From Verif Require Import SyntaxKind ParserModel TomlTextModel LintGrammarSpec.
Import ListNotations.
Open Scope list_scope.

Definition lc (k : kind) : Prop := k = COMMENT \/ k = LINE_BREAK.
Notation lcs := (Forall lc).
(** What follows a comment is a line break, and what follows an equals sign is none. *)
Definition closed (K : list kind) : Prop := forall a k b, K = a ++ COMMENT :: k :: b -> k = LINE_BREAK.
Definition tied (K : list kind) : Prop := forall a k b, K = a ++ EQUAL :: k :: b -> ~ lc k.
Lemma closed_l a b : closed (a ++ b) -> closed a.
Proof. intros H x k y ->. apply (H x k (y ++ b)). rewrite <- app_assoc. reflexivity. Qed.
Lemma closed_r a b : closed (a ++ b) -> closed b.
Proof. intros H x k y ->. apply (H (a ++ x) k y). rewrite <- app_assoc. reflexivity. Qed.
Lemma tied_l a b : tied (a ++ b) -> tied a.
Proof. intros H x k y ->. apply (H x k (y ++ b)). rewrite <- app_assoc. reflexivity. Qed.
Lemma tied_r a b : tied (a ++ b) -> tied b.
Proof. intros H x k y ->. apply (H (a ++ x) k y). rewrite <- app_assoc. reflexivity. Qed.
Lemma gap_lcs G : gap G -> lcs G.
Proof. intros H. induction H; [constructor|constructor; [right; reflexivity|assumption]|constructor; [left; reflexivity|constructor; [right; reflexivity|assumption]]]. Qed.
Lemma lc_gap G : lcs G -> forall x R, closed (G ++ x :: R) -> x <> LINE_BREAK -> gap G.
Proof.
  remember (length G) as n eqn:E. assert (HL : length G <= n) by lia. clear E. revert G HL. induction n as [|n IH]; intros G HL HG x R HC HX; (destruct G as [|k G]; [constructor|cbn in HL; try lia]).
  inversion HG as [|? ? [-> | ->] HG']; subst.
  - destruct G as [|k G]; [exfalso; apply HX; apply (HC [] x R); reflexivity|]. assert (k = LINE_BREAK) as -> by (apply (HC [] k (G ++ x :: R)); reflexivity).
    constructor. cbn in HL. apply (IH G ltac:(lia)) with (x := x) (R := R); auto; [inversion HG'; auto|exact (closed_r [COMMENT; LINE_BREAK] _ HC)].
  - constructor. apply (IH G ltac:(lia)) with (x := x) (R := R); auto. exact (closed_r [LINE_BREAK] _ HC).
Qed.
(** Two lists of gaps before something else *)
Lemma lcs_unique G : lcs G -> forall H x R y S, lcs H -> ~ lc x -> ~ lc y -> G ++ x :: R = H ++ y :: S -> G = H /\ x :: R = y :: S.
Proof.
  induction 1 as [|k G HK HG IH]; intros [|h H] x R y S HH HX HY E; cbn [app] in E.
  - auto.
  - injection E as -> _. inversion HH; contradiction.
  - injection E as -> _. contradiction.
  - injection E as <- E. inversion HH; subst. destruct (IH H x R y S) as [-> E2]; auto.
Qed.
Lemma lcs_none G x R : lcs (G ++ x :: R) -> lc x.
Proof. intros H. apply Forall_app in H as [_ H]. inversion H; auto. Qed.

(** * Where a value ends *)
Definition opening (k : kind) : bool := match k with BRACKET_START | BRACE_START | DOUBLE_BRACKET_START => true | _ => false end.
Definition closing (k : kind) : bool := match k with BRACKET_END | BRACE_END | DOUBLE_BRACKET_END => true | _ => false end.
Fixpoint skip (n : nat) (K : list kind) : option (list kind) :=
  match K with
  | [] => None
  | k :: K => if opening k then skip (S n) K else if closing k then match n with O => Some K | S n => skip n K end else skip n K
  end.
Definition even (K : list kind) : Prop := forall n R, skip n (K ++ R) = skip n R.
Definition plain (k : kind) : Prop := opening k = false /\ closing k = false.
Lemma even_nil : even []. Proof. intros n R. reflexivity. Qed.
Lemma even_app a b : even a -> even b -> even (a ++ b).
Proof. intros HA HB n R. rewrite <- app_assoc, HA. apply HB. Qed.
Lemma even_plain K : Forall plain K -> even K.
Proof. induction 1 as [|k K [H1 H2] _ IH]; intros n R; [reflexivity|]. cbn [app skip]. rewrite H1, H2. apply IH. Qed.
Lemma even_box o B c : opening o = true -> closing c = true -> opening c = false -> even B -> even (o :: B ++ [c]).
Proof. intros HO HC HC2 HB n R. cbn [app skip]. rewrite HO, <- app_assoc, HB. cbn [app skip]. rewrite HC2, HC. reflexivity. Qed.
Definition after_value (K : list kind) : option (list kind) := match K with [] => None | k :: K => if opening k then skip 0 K else Some K end.
Fixpoint after_equal (K : list kind) : option (list kind) := match K with [] => None | EQUAL :: K => Some K | _ :: K => after_equal K end.
Definition after_pair (K : list kind) : option (list kind) :=
  match K with k :: _ => if opening k then None else match after_equal K with Some K => after_value K | None => None end | [] => None end.
Definition after_statement (K : list kind) : option (list kind) := match K with k :: K' => if opening k then skip 0 K' else after_pair K | [] => None end.
(** an item of an array, or a key/value *)
Definition after_item (table : bool) : list kind -> option (list kind) := if table then after_pair else after_value.
Definition ends {A} (after : list kind -> option A) (E : list kind) (f : list kind -> A) : Prop := forall R, after (E ++ R) = Some (f R).
Definition head_ok (E : list kind) : Prop := exists k r, E = k :: r /\ ~ lc k /\ k <> COMMA /\ closing k = false.
Definition shape (after : list kind -> option (list kind)) (E : list kind) : Prop := (forall R, after (E ++ R) = Some R) /\ head_ok E.
Lemma shape_unique after E F R S : shape after E -> shape after F -> E ++ R = F ++ S -> E = F /\ R = S.
Proof. intros [HE _] [HF _] H. assert (R = S) as -> by (specialize (HE R); rewrite H, HF in HE; congruence). split; [|reflexivity]. eapply app_inv_tail; eauto. Qed.
Lemma box_after o B c : opening o = true -> closing c = true -> opening c = false -> even B -> forall R, after_value ((o :: B ++ [c]) ++ R) = Some R.
Proof. intros HO HC HC2 HB R. cbn [app after_value]. rewrite HO, <- app_assoc, HB. cbn [app skip]. rewrite HC2, HC. reflexivity. Qed.
Lemma plain_lc k : lc k -> plain k.
Proof. intros [-> | ->]; split; reflexivity. Qed.
Lemma even_lcs G : lcs G -> even G.
Proof. intros H. apply even_plain. eapply Forall_impl; [|exact H]. apply plain_lc. Qed.
Lemma key_plain Ks : key Ks -> Forall plain Ks /\ (forall R, after_equal (Ks ++ EQUAL :: R) = Some R) /\ head_ok Ks.
Proof.
  induction 1 as [k HK|k K HK HKs [I1 [I2 I3]]].
  - destruct HK; (split; [repeat constructor|]; split; [reflexivity|]; eexists _, _; split; [reflexivity|]; split; [intros [X|X]; discriminate|split; [discriminate|reflexivity]]).
  - destruct HK; (split; [repeat constructor; auto|]; split; [intros R; cbn [app after_equal]; apply I2|]; eexists _, _; split; [reflexivity|]; split; [intros [X|X]; discriminate|split; [discriminate|reflexivity]]).
Qed.
Lemma scalar_plain k : scalar k = true -> plain k /\ ~ lc k /\ k <> COMMA.
Proof. destruct k; try discriminate; intros _; (split; [split; reflexivity|]; split; [intros [X|X]; discriminate|discriminate]). Qed.
Lemma pair_shape Ks K : key Ks -> shape after_value K -> shape after_pair (Ks ++ EQUAL :: K).
Proof.
  intros HK [HE HH]. destruct (key_plain _ HK) as (HP & HA & (k & r & -> & H1 & H2 & H3)). split.
  - intros R. rewrite <- app_assoc. cbn [app after_pair]. inversion HP as [|? ? [HO _] _]; subst. rewrite HO. change (k :: r ++ EQUAL :: K ++ R) with ((k :: r) ++ EQUAL :: K ++ R). rewrite HA. apply HE.
  - exists k, (r ++ EQUAL :: K). auto.
Qed.
Lemma pair_statement E : shape after_pair E -> shape after_statement E /\ exists k r, E = k :: r /\ opening k = false.
Proof.
  intros [HE (k & r & -> & H1 & H2 & H3)]. assert (HO : opening k = false) by (specialize (HE []); cbn [app after_pair] in HE; destruct (opening k); [discriminate|reflexivity]).
  split; [|eauto]. split; [|exists k, r; auto]. intros R. specialize (HE R). cbn [app after_statement] in *. rewrite HO. exact HE.
Qed.
Lemma header_shape o Ks c : opening o = true -> closing c = true -> opening c = false -> closing o = false -> ~ lc o -> o <> COMMA -> Forall plain Ks -> shape after_statement (o :: Ks ++ [c]).
Proof.
  intros HO HC HC2 HO2 HL HM HP. split; [|exists o, (Ks ++ [c]); auto]. intros R. cbn [app after_statement]. rewrite HO, <- app_assoc, (even_plain _ HP). cbn [app skip]. rewrite HC2, HC. reflexivity.
Qed.

Section Strict.
Context (v : toml_version).
Lemma room_lcs table G : room v table G -> lcs G.
Proof. unfold room. destruct (single_line v table); [intros ->; constructor|apply gap_lcs]. Qed.
Fixpoint value_even K (H : value v K) {struct H} : even K
with element_even table K (H : element v table K) {struct H} : even K
with elements_even table K (H : elements v table K) {struct H} : even K.
Proof.
  - destruct H as [k HK|B HB|B HB].
    + apply even_plain. constructor; [apply scalar_plain; exact HK|constructor].
    + apply even_box; auto. exact (elements_even _ _ HB).
    + apply even_box; auto. exact (elements_even _ _ HB).
  - destruct H as [K HK|Ks K HKs HK]; [exact (value_even _ HK)|]. apply even_app; [apply even_plain; apply key_plain; exact HKs|]. apply (even_app [EQUAL]); [apply even_plain; repeat constructor|exact (value_even _ HK)].
  - destruct H as [table G HG|table G E G' HG HE HG'|table G E G' B HG HE HG' HB _].
    + apply even_lcs. eapply room_lcs; eauto.
    + apply even_app; [apply even_lcs; eapply room_lcs; eauto|]. apply even_app; [exact (element_even _ _ HE)|apply even_lcs; eapply room_lcs; eauto].
    + apply even_app; [apply even_lcs; eapply room_lcs; eauto|]. apply even_app; [exact (element_even _ _ HE)|]. apply even_app; [apply even_lcs; eapply room_lcs; eauto|].
      apply (even_app [COMMA]); [apply even_plain; repeat constructor|exact (elements_even _ _ HB)].
Qed.
Lemma value_shape K : value v K -> shape after_value K.
Proof.
  intros H. destruct H as [k HK|B HB|B HB].
  - destruct (scalar_plain _ HK) as ([H1 H2] & H3 & H4). split; [intros R; cbn; rewrite H1; reflexivity|]. exists k, []. auto.
  - split; [apply box_after; auto; eapply elements_even; eauto|]. eexists _, _. split; [reflexivity|]. split; [intros [X|X]; discriminate|split; [discriminate|reflexivity]].
  - split; [apply box_after; auto; eapply elements_even; eauto|]. eexists _, _. split; [reflexivity|]. split; [intros [X|X]; discriminate|split; [discriminate|reflexivity]].
Qed.
Lemma element_shape table K : element v table K -> shape (after_item table) K.
Proof. intros H. destruct H as [K HK|Ks K HKs HK]; cbn [after_item]; [apply value_shape; exact HK|apply pair_shape; auto using value_shape]. Qed.

(** * Items and what stands between them *)
Record slot := Slot { s_before : list kind; s_item : list kind; s_behind : list kind; s_comma : bool }.
Definition body : Type := (list slot * list kind).
Definition comma_if (c : bool) : list kind := if c then [COMMA] else [].
Definition slot_kinds (s : slot) : list kind := s_before s ++ s_item s ++ s_behind s ++ comma_if (s_comma s).
Definition kinds_of (b : body) : list kind := flat_map slot_kinds (fst b) ++ snd b.
Definition gaps_of (b : body) : list kind := flat_map (fun s => s_before s ++ s_behind s) (fst b) ++ snd b.
Definition flags (b : body) : list bool := map s_comma (fst b).
Definition items (b : body) : list (list kind) := map s_item (fst b).
Definition with_before (G : list kind) (s : slot) : slot := Slot (G ++ s_before s) (s_item s) (s_behind s) (s_comma s).
Definition cat (a b : body) : body := match fst b with [] => (fst a, snd a ++ snd b) | s :: r => (fst a ++ with_before (snd a) s :: r, snd b) end.
Lemma cat_kinds a b : kinds_of (cat a b) = kinds_of a ++ kinds_of b.
Proof.
  destruct a as [sa ga], b as [[|s r] gb]; unfold cat, kinds_of; cbn [fst snd flat_map app]; [rewrite <- app_assoc; reflexivity|].
  rewrite flat_map_app. cbn [flat_map]. assert (E : slot_kinds (with_before ga s) = ga ++ slot_kinds s) by (unfold slot_kinds; cbn [with_before s_before s_item s_behind s_comma]; rewrite <- !app_assoc; reflexivity).
  rewrite E, <- !app_assoc. reflexivity.
Qed.
Lemma cat_gaps a b : gaps_of (cat a b) = gaps_of a ++ gaps_of b.
Proof.
  destruct a as [sa ga], b as [[|s r] gb]; unfold cat, gaps_of; cbn [fst snd flat_map app]; [rewrite <- app_assoc; reflexivity|].
  rewrite flat_map_app. cbn [flat_map]. cbn [with_before s_before s_item s_behind s_comma]. rewrite <- !app_assoc. reflexivity.
Qed.
Lemma cat_flags a b : flags (cat a b) = flags a ++ flags b.
Proof. destruct a as [sa ga], b as [[|s r] gb]; unfold cat, flags; cbn [fst snd map]; [rewrite app_nil_r; reflexivity|]. rewrite map_app. reflexivity. Qed.
Lemma cat_items a b : items (cat a b) = items a ++ items b.
Proof. destruct a as [sa ga], b as [[|s r] gb]; unfold cat, items; cbn [fst snd map]; [rewrite app_nil_r; reflexivity|]. rewrite map_app. reflexivity. Qed.

Fixpoint all_but_last (l : list bool) : bool := match l with [] => true | [_] => true | b :: l => b && all_but_last l end.
Lemma slot_head after s r G : Forall (shape after) (items (s :: r, G)) -> lcs (gaps_of (s :: r, G)) -> shape after (s_item s) /\ lcs (s_before s) /\ lcs (s_behind s) /\ Forall (shape after) (items (r, G)) /\ lcs (gaps_of (r, G)).
Proof.
  unfold items, gaps_of. cbn [fst snd map flat_map]. intros H1 H2. inversion H1 as [|? ? A1 A2]; subst. rewrite <- !app_assoc in H2. apply Forall_app in H2 as [B1 B2]. apply Forall_app in B2 as [B2 B3]. auto.
Qed.
(** What is not a gap comes first *)
Lemma kinds_first after s r G : Forall (shape after) (items (s :: r, G)) -> lcs (gaps_of (s :: r, G)) -> exists k R, kinds_of (s :: r, G) = s_before s ++ k :: R /\ ~ lc k /\ k <> COMMA.
Proof.
  intros H1 H2. destruct (slot_head _ _ _ _ H1 H2) as ([_ (k & q & E & A & B & _)] & _). unfold kinds_of. cbn [fst snd flat_map]. unfold slot_kinds at 1. rewrite E. do 2 eexists. split; [rewrite <- !app_assoc; cbn [app]; reflexivity|]. auto.
Qed.
Theorem elements_iff table sl : forall G close, close <> LINE_BREAK -> Forall (shape (after_item table)) (items (sl, G)) -> lcs (gaps_of (sl, G)) -> closed (kinds_of (sl, G) ++ [close]) ->
  (elements v table (kinds_of (sl, G)) <->
   all_but_last (flags (sl, G)) = true /\ (single_line v table = true -> gaps_of (sl, G) = [] /\ last (flags (sl, G)) false = false) /\ Forall (element v table) (items (sl, G))).
Proof.
  intros G close HCL. revert G. induction sl as [|s sl IH]; intros G HS HG HC.
  - unfold kinds_of, gaps_of, flags, items in *. cbn [fst snd flat_map map app all_but_last last] in *. split.
    + intros H. split; [reflexivity|]. split; [|constructor]. intros HSL. split; [|reflexivity]. clear HC. destruct H as [table G HR|table G0 E G' H0 HE H1|table G0 E G' B H0 HE H1 HB HX].
      * unfold room in HR. rewrite HSL in HR. exact HR.
      * exfalso. destruct (element_shape _ _ HE) as [_ (k & r & -> & HK & _)]. cbn [app] in HG. apply lcs_none in HG. contradiction.
      * exfalso. destruct (element_shape _ _ HE) as [_ (k & r & -> & HK & _)]. cbn [app] in HG. apply lcs_none in HG. contradiction.
    + intros (_ & H & _). apply es_none. unfold room. destruct (single_line v table); [apply H; reflexivity|]. apply lc_gap with (x := close) (R := []); auto.
  - destruct (slot_head _ _ _ _ HS HG) as (HE & HB & HBh & HS' & HG'). destruct s as [B E F c]. cbn [s_before s_item s_behind s_comma] in *.
    assert (EK : kinds_of (Slot B E F c :: sl, G) = B ++ E ++ F ++ comma_if c ++ kinds_of (sl, G)) by (unfold kinds_of, slot_kinds; cbn [fst snd flat_map s_before s_item s_behind s_comma]; rewrite <- !app_assoc; reflexivity).
    assert (EG : gaps_of (Slot B E F c :: sl, G) = B ++ F ++ gaps_of (sl, G)) by (unfold gaps_of; cbn [fst snd flat_map s_before s_behind]; rewrite <- !app_assoc; reflexivity).
    assert (EF : flags (Slot B E F c :: sl, G) = c :: flags (sl, G)) by reflexivity. assert (EI : items (Slot B E F c :: sl, G) = E :: items (sl, G)) by reflexivity.
    rewrite EK in *. rewrite EG, EF, EI. destruct HE as [HE1 (k0 & r0 & EE & K1 & K2 & K3)].
    assert (HC' : closed (kinds_of (sl, G) ++ [close])) by (rewrite <- !app_assoc in HC; do 4 apply closed_r in HC; exact HC).
    specialize (IH G HS' HG' HC').
    assert (HSB : forall x R, x <> LINE_BREAK -> closed (B ++ x :: R) -> gap B) by (intros x R HX HY; eapply lc_gap; eauto).
    split.
    + intros H. remember (B ++ E ++ F ++ comma_if c ++ kinds_of (sl, G)) as K eqn:EKK. destruct H as [table G0 HR|table G0 E0 G1 H0 HE0 H1|table G0 E0 G1 B0 H0 HE0 H1 HB0 HX].
      * exfalso. subst G0. apply room_lcs in HR. rewrite EE in HR. cbn [app] in HR. apply lcs_none in HR. contradiction.
      * destruct (element_shape _ _ HE0) as [HE3 (k1 & r1 & EE1 & L1 & L2 & L3)]. assert (G0 = B /\ E0 ++ G1 = E ++ F ++ comma_if c ++ kinds_of (sl, G)) as [-> EQ].
        { rewrite EE, EE1 in EKK. cbn [app] in EKK. apply lcs_unique in EKK; auto; [|eapply room_lcs; eauto]. destruct EKK as [-> E2]. rewrite EE, EE1. auto. }
        destruct (shape_unique (after_item table) E0 E _ _ (element_shape _ _ HE0) (conj HE1 (ex_intro _ k0 (ex_intro _ r0 (conj EE (conj K1 (conj K2 K3)))))) EQ) as [-> EQ2]. subst G1.
        assert (c = false) as ->. { destruct c; [|reflexivity]. exfalso. apply room_lcs in H1. cbn [comma_if app] in H1. apply lcs_none in H1. destruct H1; discriminate. }
        assert (sl = []) as ->. { destruct sl as [|s sl]; [reflexivity|]. exfalso. destruct (kinds_first _ _ _ _ HS' HG') as (k & R & EF2 & A1 & _). rewrite EF2 in H1. apply room_lcs in H1. cbn [comma_if app] in H1. apply Forall_app in H1 as [_ H1]. apply lcs_none in H1. contradiction. }
        cbn [comma_if app kinds_of fst snd flat_map] in *. split; [reflexivity|]. split; [|repeat constructor; auto]. intros HSL. unfold room in *. rewrite HSL in *. rewrite H0. unfold gaps_of. cbn [fst snd flat_map app]. split; [exact H1|reflexivity].
      * destruct (element_shape _ _ HE0) as [HE3 (k1 & r1 & EE1 & L1 & L2 & L3)]. assert (G0 = B /\ E0 ++ G1 ++ COMMA :: B0 = E ++ F ++ comma_if c ++ kinds_of (sl, G)) as [-> EQ].
        { rewrite EE, EE1 in EKK. cbn [app] in EKK. apply lcs_unique in EKK; auto; [|eapply room_lcs; eauto]. destruct EKK as [-> E2]. rewrite EE, EE1. auto. }
        destruct (shape_unique (after_item table) E0 E _ _ (element_shape _ _ HE0) (conj HE1 (ex_intro _ k0 (ex_intro _ r0 (conj EE (conj K1 (conj K2 K3)))))) EQ) as [-> EQ2].
        assert (HCM : ~ lc COMMA) by (intros [X|X]; discriminate).
        destruct c.
        -- cbn [comma_if app] in EQ2. apply lcs_unique in EQ2; auto; [|eapply room_lcs; eauto]. destruct EQ2 as [-> [= ->]]. apply IH in HB0 as (I1 & I2 & I3).
           split; [cbn [all_but_last]; destruct (flags (sl, G)); [reflexivity|exact I1]|]. split; [|constructor; auto]. intros HSL. destruct (I2 HSL) as [J1 J2]. unfold room in H0, H1. rewrite HSL in H0, H1. subst B F. rewrite J1. split; [reflexivity|].
           destruct sl as [|s sl]; [|exact J2]. exfalso. apply (HX HSL). exact J1.
        -- exfalso. cbn [comma_if app] in EQ2. destruct sl as [|s sl].
           ++ unfold kinds_of, gaps_of in *. cbn [fst snd flat_map app] in *. assert (HZ : lcs (G1 ++ COMMA :: B0)) by (rewrite EQ2; apply Forall_app; auto). apply lcs_none in HZ. contradiction.
           ++ destruct (kinds_first _ _ _ _ HS' HG') as (k & R & EF2 & A1 & A2). rewrite EF2, app_assoc in EQ2. apply lcs_unique in EQ2; auto; [destruct EQ2 as [_ [= EQ2 _]]; congruence|eapply room_lcs; eauto|].
              apply Forall_app. split; auto. destruct (slot_head _ _ _ _ HS' HG') as (_ & X & _). exact X.
    + intros (A1 & A2 & A3). inversion A3 as [|? ? A4 A5]; subst x l.
      assert (HRB : room v table B).
      { unfold room. destruct (single_line v table) eqn:ES; [destruct (A2 eq_refl) as [A6 _]; apply app_eq_nil in A6 as [A6 _]; exact A6|]. rewrite EE in HC. cbn [app] in HC. rewrite <- app_assoc in HC. cbn [app] in HC. eapply HSB; [|exact HC]. intros ->. apply K1. right. reflexivity. }
      destruct c.
      * assert (HRF : room v table F).
        { unfold room. destruct (single_line v table) eqn:ES; [destruct (A2 eq_refl) as [A6 _]; apply app_eq_nil in A6 as [_ A6]; apply app_eq_nil in A6 as [A6 _]; exact A6|]. rewrite <- !app_assoc in HC. do 2 apply closed_r in HC. cbn [comma_if app] in HC. eapply lc_gap; eauto. discriminate. }
        cbn [comma_if app]. apply es_comma; auto.
        -- apply IH. split; [cbn [all_but_last] in A1; destruct (flags (sl, G)); [reflexivity|exact A1]|]. split; [|exact A5]. intros HSL. destruct (A2 HSL) as [A6 A7]. apply app_eq_nil in A6 as [_ A6]. apply app_eq_nil in A6 as [_ A6]. split; [exact A6|]. cbn [last] in A7. destruct (flags (sl, G)); [reflexivity|exact A7].
        -- intros HSL HN. destruct (A2 HSL) as [_ A7]. cbn [last] in A7. destruct sl as [|s sl]; [discriminate|]. destruct (kinds_first _ _ _ _ HS' HG') as (k & R & EF2 & _). rewrite HN in EF2. destruct (s_before s); discriminate.
      * assert (sl = []) as -> by (destruct sl; [reflexivity|cbn [flags fst map all_but_last andb] in A1; discriminate]). unfold kinds_of, gaps_of in *. cbn [fst snd flat_map app comma_if] in *. apply es_last; auto.
        unfold room. destruct (single_line v table) eqn:ES; [destruct (A2 eq_refl) as [A6 _]; apply app_eq_nil in A6 as [_ A6]; exact A6|]. rewrite <- !app_assoc in HC. do 2 apply closed_r in HC. rewrite app_assoc in HC. apply lc_gap with (x := close) (R := []); auto. apply Forall_app; auto.
Qed.

(** * Documents *)
Definition statement (E : list kind) : Prop := expression v E /\ E <> [].
Lemma statement_shape E : statement E -> shape after_statement E.
Proof.
  intros [H HN]. destruct H as [|E HE|Ks HK|Ks HK]; [contradiction|exact (proj1 (pair_statement _ (element_shape _ _ HE)))| |]; destruct (key_plain _ HK) as (HP & _); apply header_shape; auto; try discriminate; intros [X|X]; discriminate.
Qed.
Lemma gap_document G D : gap G -> document v D -> document v (G ++ D).
Proof.
  intros HG HD. induction HG as [|G HG IH|G HG IH]; [exact HD| |].
  - apply (d_line v [] []); [constructor|constructor|exact IH].
  - apply (d_line v [] [COMMENT]); [constructor|constructor|exact IH].
Qed.
Lemma lcs_document G : lcs G -> closed G -> document v G.
Proof.
  remember (length G) as n eqn:E. assert (HL : length G <= n) by lia. clear E. revert G HL. induction n as [|n IH]; intros G HL HG HC; (destruct G as [|k G]; [apply (d_last v [] []); constructor|cbn in HL; try lia]).
  inversion HG as [|? ? [-> | ->] HG']; subst.
  - destruct G as [|k G]; [apply (d_last v [] [COMMENT]); constructor|]. assert (k = LINE_BREAK) as -> by (apply (HC [] k G); reflexivity).
    apply (d_line v [] [COMMENT]); [constructor|constructor|]. cbn in HL. apply (IH G ltac:(lia)); [inversion HG'; auto|exact (closed_r [COMMENT; LINE_BREAK] _ HC)].
  - apply (d_line v [] []); [constructor|constructor|]. apply (IH G ltac:(lia)); auto. exact (closed_r [LINE_BREAK] _ HC).
Qed.
(** the first of the gap behind a statement *)
Lemma line_end H : lcs H -> H <> [] -> forall x R, closed (H ++ x :: R) -> x <> LINE_BREAK -> exists C H', H = C ++ LINE_BREAK :: H' /\ comment C /\ gap H'.
Proof.
  intros HH HN x R HC HX. pose proof (lc_gap H HH x R HC HX) as HG. destruct HG as [|G HG|G HG]; [contradiction| |]; [exists [], G|exists [COMMENT], G]; repeat split; auto; constructor.
Qed.
Fixpoint parted (sl : list slot) : Prop := match sl with s :: ((s' :: _) as r) => s_behind s ++ s_before s' <> [] /\ parted r | _ => True end.
Definition tailed (s : slot) : Prop := s_comma s = false -> comment (s_behind s).
Lemma expression_head E : expression v E -> E = [] \/ head_ok E.
Proof. intros H. destruct E as [|k E]; [left; reflexivity|right]. apply statement_shape. split; [exact H|discriminate]. Qed.
Lemma document_comma R : ~ document v (COMMA :: R).
Proof.
  intros H. inversion H as [E C HE HC EQ|E C D HE HC HD EQ]; destruct (expression_head _ HE) as [-> |(k & r & -> & _ & H2 & _)]; try (cbn [app] in EQ; injection EQ as EQ _; congruence); destruct HC; discriminate.
Qed.
Lemma document_lead G : lcs G -> forall x R, ~ lc x -> document v (G ++ x :: R) -> document v (x :: R).
Proof.
  remember (length G) as n eqn:E. assert (HL : length G <= n) by lia. clear E. revert G HL. induction n as [|n IH]; intros G HL HG x R HX HD; (destruct G as [|k G]; [exact HD|cbn in HL; try lia]).
  cbn [app] in HD. inversion HG as [|? ? HK HG']; subst. remember (k :: G ++ x :: R) as K eqn:EK. destruct HD as [E C HE HC|E C D HE HC HD].
  - exfalso. destruct (expression_head _ HE) as [-> |(k1 & r1 & -> & H1 & _)].
    + destruct HC; [discriminate|]. cbn [app] in EK. injection EK as _ EK. destruct G; discriminate.
    + cbn [app] in EK. injection EK as -> _. contradiction.
  - destruct (expression_head _ HE) as [-> |(k1 & r1 & -> & H1 & _)]; [|cbn [app] in EK; injection EK as -> _; contradiction]. cbn [app] in EK. destruct HC; cbn [app] in EK.
    + injection EK as <- ->. apply (IH G ltac:(lia)); auto.
    + injection EK as <- EK. destruct G as [|k G]; [cbn [app] in EK; injection EK as <- _; exfalso; apply HX; right; reflexivity|]. cbn [app] in EK. injection EK as <- ->. cbn in HL. apply (IH G ltac:(lia)); auto. inversion HG'; auto.
Qed.
Theorem document_iff sl : forall G, Forall (shape after_statement) (items (sl, G)) -> lcs (gaps_of (sl, G)) -> closed (kinds_of (sl, G)) -> Forall tailed sl -> parted sl ->
  (document v (kinds_of (sl, G)) <-> Forall (fun c => c = false) (flags (sl, G)) /\ Forall statement (items (sl, G))).
Proof.
  induction sl as [|s sl IH]; intros G HS HG HC HT HP.
  - unfold kinds_of, gaps_of, flags, items in *. cbn [fst snd flat_map map app] in *. split; [intros _; split; constructor|]. intros _. apply lcs_document; auto.
  - destruct (slot_head _ _ _ _ HS HG) as (HE & HB & HBh & HS' & HG'). destruct s as [B E F c]. cbn [s_before s_item s_behind s_comma] in *. inversion HT as [|? ? HT1 HT']; subst. unfold tailed in HT1. cbn [s_comma s_behind] in HT1.
    assert (EK : kinds_of (Slot B E F c :: sl, G) = B ++ E ++ F ++ comma_if c ++ kinds_of (sl, G)) by (unfold kinds_of, slot_kinds; cbn [fst snd flat_map s_before s_item s_behind s_comma]; rewrite <- !app_assoc; reflexivity).
    assert (EF : flags (Slot B E F c :: sl, G) = c :: flags (sl, G)) by reflexivity. assert (EI : items (Slot B E F c :: sl, G) = E :: items (sl, G)) by reflexivity.
    rewrite EK in *. rewrite EF, EI. pose proof HE as HE'. destruct HE as [HE1 (k0 & r0 & EE & K1 & K2 & K3)].
    assert (HC' : closed (kinds_of (sl, G))) by (do 4 apply closed_r in HC; exact HC).
    assert (HP' : parted sl) by (destruct sl; [exact I|cbn [parted] in HP; apply HP]).
    specialize (IH G HS' HG' HC' HT' HP'). split.
    + intros H. assert (HD : document v (E ++ F ++ comma_if c ++ kinds_of (sl, G))) by (rewrite EE in H |- *; cbn [app] in H |- *; apply (document_lead B HB _ _ K1 H)).
      clear H. remember (E ++ F ++ comma_if c ++ kinds_of (sl, G)) as K eqn:EKK.
      assert (HCOM : forall D, c = true -> document v D -> forall C, comment C -> C ++ LINE_BREAK :: D = F ++ comma_if c ++ kinds_of (sl, G) -> False).
      { intros D -> HD2 C HCm EQ. cbn [comma_if app] in EQ. assert (HZ : document v (F ++ COMMA :: kinds_of (sl, G))) by (rewrite <- EQ; apply (d_line v []); [constructor|exact HCm|exact HD2]). apply document_lead in HZ; auto; [eapply document_comma; eauto|intros [X|X]; discriminate]. }
      destruct HD as [E0 C HE0 HCm|E0 C D HE0 HCm HD].
      * destruct (expression_head _ HE0) as [-> |HH].
        { exfalso. rewrite EE in EKK. cbn [app] in EKK. destruct HCm; [discriminate|]. injection EKK as <- _. apply K1. left. reflexivity. }
        assert (HS0 : statement E0) by (split; [exact HE0|destruct HH as (? & ? & -> & _); discriminate]).
        destruct (shape_unique _ _ _ _ _ (statement_shape _ HS0) HE' EKK) as [-> EQ].
        assert (HZ : lcs (F ++ comma_if c ++ kinds_of (sl, G))) by (rewrite <- EQ; destruct HCm; repeat constructor).
        assert (c = false) as -> by (destruct c; [exfalso; cbn [comma_if app] in HZ; apply lcs_none in HZ; destruct HZ; discriminate|reflexivity]).
        assert (sl = []) as ->. { destruct sl as [|s sl]; [reflexivity|]. exfalso. destruct (kinds_first _ _ _ _ HS' HG') as (k & R & EF2 & A1 & _). rewrite EF2 in HZ. cbn [comma_if app] in HZ. apply Forall_app in HZ as [_ HZ]. apply lcs_none in HZ. contradiction. }
        split; [constructor; [reflexivity|constructor]|constructor; [exact HS0|constructor]].
      * destruct (expression_head _ HE0) as [-> |HH].
        { exfalso. rewrite EE in EKK. cbn [app] in EKK. destruct HCm; cbn [app] in EKK; injection EKK as <- _; apply K1; [right|left]; reflexivity. }
        assert (HS0 : statement E0) by (split; [exact HE0|destruct HH as (? & ? & -> & _); discriminate]).
        destruct (shape_unique _ _ _ _ _ (statement_shape _ HS0) HE' EKK) as [-> EQ].
        assert (c = false) as -> by (destruct c; [exfalso; eapply HCOM; eauto|reflexivity]). cbn [comma_if app] in EQ. specialize (HT1 eq_refl).
        assert (HDK : document v (kinds_of (sl, G))).
        { destruct HT1; cbn [app] in EQ.
          - rewrite <- EQ. apply (d_line v []); [constructor|exact HCm|exact HD].
          - destruct HCm; cbn [app] in EQ; injection EQ as EQ; [discriminate|]. rewrite <- EQ. apply (d_line v [] []); [constructor|constructor|exact HD]. }
        apply IH in HDK as [J1 J2]. split; constructor; auto.
    + intros [A1 A2]. inversion A1 as [|? ? A3 A4]; subst x l. inversion A2 as [|? ? A5 A6]; subst x l. subst c. cbn [comma_if app] in *.
      assert (HGB : gap B). { rewrite EE in HC. cbn [app] in HC. eapply lc_gap; eauto. intros ->. apply K1. right. reflexivity. }
      apply gap_document; [exact HGB|]. apply closed_r in HC. apply closed_r in HC. destruct sl as [|s sl].
      * unfold kinds_of, gaps_of in *. cbn [fst snd flat_map app] in *. assert (HZ : lcs (F ++ G)) by (apply Forall_app; auto). destruct (F ++ G) as [|k Z] eqn:EZ; [apply (d_last v E []); [apply A5|constructor]|].
        pose proof (Forall_inv_tail HZ) as HZ'. destruct (Forall_inv HZ) as [-> | ->].
        -- destruct Z as [|k Z]; [apply (d_last v E [COMMENT]); [apply A5|constructor]|]. assert (k = LINE_BREAK) as -> by (apply (HC [] k Z); reflexivity).
           apply (d_line v E [COMMENT]); [apply A5|constructor|]. apply lcs_document; [inversion HZ'; auto|exact (closed_r [COMMENT; LINE_BREAK] _ HC)].
        -- apply (d_line v E []); [apply A5|constructor|]. apply lcs_document; [auto|exact (closed_r [LINE_BREAK] _ HC)].
      * destruct (kinds_first _ _ _ _ HS' HG') as (k & R & EF2 & B1 & _). destruct (slot_head _ _ _ _ HS' HG') as (_ & X & _). cbn [parted] in HP. destruct HP as [HP _]. cbn [s_behind] in HP.
        rewrite EF2 in *. rewrite app_assoc in HC. rewrite (app_assoc F). assert (HDK : document v (s_before s ++ k :: R)) by (apply IH; auto). apply document_lead in HDK; auto.
        destruct (line_end (F ++ s_before s) ltac:(apply Forall_app; auto) HP k R HC) as (C & H' & EH & HCm & HH'); [intros ->; apply B1; right; reflexivity|].
        rewrite EH. rewrite <- app_assoc. cbn [app]. apply d_line; [apply A5|exact HCm|]. apply gap_document; auto.
Qed.
End Strict.
