(** The trees of the parser, cut into items: the rules of LintStrip.v and the grammar of LintGrammarSpec.v say the same about them. *)
From Coq Require Import String Ascii List NArith Bool Arith Lia.
From Verif Require Import Base SyntaxKind TextModel LexerModel ParserModel TomlTextModel AstModel FormatterModel FormatterLayout ParserShape ViewShape LintRulesModel LintStrip LintGrammarSpec LintGrammarFacts.
Import ListNotations.
Open Scope nat_scope.
Open Scope list_scope.

Notation grammar_value := LintGrammarSpec.value.
Definition lb (k : kind) : bool := kind_eqb k LINE_BREAK.
Definition solid (E : list kind) : Prop := exists a k, E = a ++ [k] /\ k <> LINE_BREAK.
Definition commas (l : list (tree * option tree)) : list bool := map (fun p => is_some (snd p)) l.

(** * Facts about items *)
Lemma gap_break_in G : LintGrammarSpec.gap G -> G <> [] -> existsb lb G = true.
Proof. intros H. destruct H; [contradiction|reflexivity|]. intros _. reflexivity. Qed.
Lemma no_break_empty G x R : lcs G -> existsb lb G = false -> LintGrammarFacts.closed (G ++ x :: R) -> x <> LINE_BREAK -> G = [].
Proof.
  intros HG HB HC HX. destruct G as [|k G]; [reflexivity|]. exfalso. assert (HP : LintGrammarSpec.gap (k :: G)) by (eapply lc_gap; eauto). apply gap_break_in in HP; [congruence|discriminate].
Qed.
Lemma lb_neq k : lb k = false -> k <> LINE_BREAK.
Proof. intros H ->. discriminate. Qed.
Lemma gaps_empty after sl : forall G close, close <> LINE_BREAK -> Forall (shape after) (items (sl, G)) -> lcs (gaps_of (sl, G)) -> LintGrammarFacts.closed (kinds_of (sl, G) ++ [close]) ->
  existsb lb (gaps_of (sl, G)) = false -> gaps_of (sl, G) = [].
Proof.
  intros G close HCL. induction sl as [|s sl IH]; intros HS HG HC HB.
  - unfold gaps_of, kinds_of in *. cbn [fst snd flat_map app] in *. eapply no_break_empty; eauto.
  - destruct (slot_head _ _ _ _ HS HG) as ([_ (k0 & r0 & EE & K1 & _)] & HB1 & HB2 & HS' & HG'). destruct s as [B E F c]. cbn [s_before s_item s_behind] in *. subst E.
    assert (EK : kinds_of (Slot B (k0 :: r0) F c :: sl, G) ++ [close] = B ++ k0 :: r0 ++ F ++ comma_if c ++ kinds_of (sl, G) ++ [close]) by (unfold kinds_of, slot_kinds; cbn [fst snd flat_map s_before s_item s_behind s_comma]; rewrite <- !app_assoc; reflexivity).
    assert (EG : gaps_of (Slot B (k0 :: r0) F c :: sl, G) = B ++ F ++ gaps_of (sl, G)) by (unfold gaps_of; cbn [fst snd flat_map s_before s_behind]; rewrite <- !app_assoc; reflexivity).
    rewrite EK in HC. rewrite EG in *. rewrite !existsb_app in HB. apply orb_false_iff in HB as [X1 HB]. apply orb_false_iff in HB as [X2 X3].
    assert (B = []) as -> by (eapply no_break_empty; eauto; intros ->; apply K1; right; reflexivity).
    assert (HC2 : LintGrammarFacts.closed (F ++ comma_if c ++ kinds_of (sl, G) ++ [close])) by exact (closed_r (k0 :: r0) _ HC).
    assert (HC3 : LintGrammarFacts.closed (kinds_of (sl, G) ++ [close])) by (do 2 apply closed_r in HC2; exact HC2). rewrite (IH HS' HG' HC3 X3) in *. rewrite app_nil_r. cbn [app].
    assert (HD : exists k r, comma_if c ++ kinds_of (sl, G) ++ [close] = k :: r /\ k <> LINE_BREAK).
    { destruct c; [eexists _, _; split; [reflexivity|discriminate]|]. cbn [comma_if app]. destruct sl as [|s sl].
      - assert (G = []) as -> by (apply (IH HS' HG' HC3 X3)). exists close, []. auto.
      - destruct (kinds_first _ _ _ _ HS' HG') as (k & r & EF & HK & _). assert (s_before s = []) as EB by (pose proof (IH HS' HG' HC3 X3) as EI; unfold gaps_of in EI; cbn [fst snd flat_map] in EI; rewrite <- !app_assoc in EI; apply app_eq_nil in EI as [EI _]; exact EI).
        rewrite EF, EB. cbn [app]. exists k, (r ++ [close]). split; [reflexivity|]. intros ->. apply HK. right. reflexivity. }
    destruct HD as (k & r & ED & HK). rewrite ED in HC2. eapply no_break_empty; eauto.
Qed.
Lemma missing_flags k l : tmissing k l = [] <-> all_but_last (commas l) = true.
Proof.
  induction l as [|[t c] l IH]; [split; reflexivity|]. cbn [tmissing commas map all_but_last snd]. destruct l as [|q l].
  - cbn [tmissing map commas]. split; reflexivity.
  - destruct c; cbn [is_some andb app map]; [exact IH|]. cbn [app map]. split; intros H; discriminate.
Qed.
Lemma last_flag l : match rev l with (_, Some _) :: _ => [ForbiddenInlineTableLastComma] | _ => [] end = [] <-> last (commas l) false = false.
Proof.
  induction l as [|[t c] l _] using rev_ind; [split; reflexivity|]. rewrite rev_unit. unfold commas. rewrite map_app. cbn [map snd]. rewrite last_last. destruct c; cbn [is_some]; split; intros H; try discriminate; reflexivity.
Qed.
Lemma ends_line_app (a b : list kind) : b <> [] -> ends_line (a ++ b) -> ends_line b.
Proof.
  intros HB (x & E). destruct (exists_last HB) as (b' & k & ->). rewrite app_assoc in E. apply app_inj_tail in E as [_ ->]. exists b'. reflexivity.
Qed.
Lemma solid_ends E : solid E -> E <> [] /\ ~ ends_line E.
Proof. intros (a & k & -> & HK). split; [destruct a; discriminate|]. intros (x & H). apply app_inj_tail in H as [_ H]. contradiction. Qed.
Record sound (after : list kind -> option (list kind)) (b : body) : Prop := {
  so_shape : Forall (shape after) (items b);
  so_lcs : lcs (gaps_of b);
  so_tailed : Forall tailed (fst b);
  so_solid : Forall solid (items b) }.
Lemma sound_nil after G : lcs G -> sound after ([], G).
Proof. intros H. split; try constructor. exact H. Qed.
Lemma cat_sound after a b : sound after a -> sound after b -> sound after (cat a b).
Proof.
  intros [A1 A2 A3 A4] [B1 B2 B3 B4]. split; rewrite ?cat_items, ?cat_gaps; try (apply Forall_app; auto).
  destruct b as [[|s r] G]; unfold cat; cbn [fst snd] in *; [exact A3|]. apply Forall_app. split; [exact A3|]. inversion B3 as [|? ? X1 X2]; subst. constructor; auto.
Qed.
(** Where a text ends with a line break, and where it begins with one *)
Lemma sound_ends after b : sound after b -> fst b <> [] -> ends_line (kinds_of b) -> snd b <> [].
Proof.
  intros [A1 A2 A3 A4] HN HE H. destruct b as [sl G]. cbn [fst snd] in *. subst G. destruct (exists_last HN) as (sl' & s & ->). unfold kinds_of in HE. cbn [fst snd] in HE. rewrite app_nil_r, flat_map_app in HE. cbn [flat_map] in HE. rewrite app_nil_r in HE.
  apply Forall_app in A3 as [_ A3]. apply Forall_inv in A3. unfold items in A4. cbn [fst] in A4. rewrite map_app in A4. apply Forall_app in A4 as [_ A4]. apply Forall_inv in A4. apply solid_ends in A4 as [X1 X2].
  unfold slot_kinds in HE. apply ends_line_app in HE; [|intros E; apply app_eq_nil in E as [_ E]; apply app_eq_nil in E as [E _]; contradiction].
  apply ends_line_app in HE; [|intros E; apply app_eq_nil in E as [E _]; contradiction]. unfold tailed in A3. destruct (s_comma s); cbn [comma_if] in HE.
  - apply ends_line_app in HE; [|intros E; apply app_eq_nil in E as [_ E]; discriminate]. apply ends_line_app in HE; [|discriminate]. destruct HE as (x & HE). apply (app_inj_tail [] x) in HE as [_ HE]. discriminate.
  - rewrite app_nil_r in HE. destruct (A3 eq_refl).
    + rewrite app_nil_r in HE. contradiction.
    + apply ends_line_app in HE; [|discriminate]. destruct HE as (x & HE). apply (app_inj_tail [] x) in HE as [_ HE]. discriminate.
Qed.
Lemma sound_begins after s r G : sound after (s :: r, G) -> begins_line (kinds_of (s :: r, G)) -> s_before s <> [].
Proof.
  intros [A1 A2 _ _] (a & E) H. destruct (kinds_first _ _ _ _ A1 A2) as (k & R & EF & HK & _). rewrite EF, H in E. cbn [app] in E. injection E as -> _. apply HK. right. reflexivity.
Qed.
Definition between (a b : list kind) : Prop := a = [] \/ b = [] \/ ends_line a \/ begins_line b.
Lemma sound_none after b : sound after b -> kinds_of b = [] -> fst b = [].
Proof. intros [A1 A2 _ _] H. destruct b as [[|s r] G]; [reflexivity|]. destruct (kinds_first _ _ _ _ A1 A2) as (k & R & EF & _). rewrite H in EF. destruct (s_before s); discriminate. Qed.
Lemma parted_app a s r : parted a -> parted (s :: r) -> (forall a' s', a = a' ++ [s'] -> s_behind s' ++ s_before s <> []) -> parted (a ++ s :: r).
Proof.
  induction a as [|x a IH]; intros HA HR HJ; [exact HR|]. destruct a as [|y a]; cbn [app].
  - change (parted (x :: s :: r)) with (s_behind x ++ s_before s <> [] /\ parted (s :: r)). split; [apply (HJ [] x); reflexivity|exact HR].
  - change (s_behind x ++ s_before y <> [] /\ parted (y :: a ++ s :: r)). destruct HA as [H1 H2]. split; [exact H1|]. apply IH; auto. intros a' s' E. apply (HJ (x :: a') s'). rewrite E. reflexivity.
Qed.
Lemma parted_with G s r : parted (s :: r) -> parted (with_before G s :: r).
Proof. destruct r; auto. Qed.
Lemma cat_parted after a b : sound after a -> sound after b -> parted (fst a) -> parted (fst b) -> between (kinds_of a) (kinds_of b) -> parted (fst (cat a b)).
Proof.
  intros SA SB HA HB HJ. destruct b as [[|s r] G]; unfold cat; cbn [fst snd] in *; [exact HA|]. apply parted_app; [exact HA|apply parted_with; exact HB|]. intros a' s' E. cbn [with_before s_before].
  assert (HN : fst a <> []) by (rewrite E; destruct a'; discriminate). destruct HJ as [H|[H|[H|H]]].
  - exfalso. apply HN. eapply sound_none; eauto.
  - apply (sound_none _ _ SB) in H. discriminate.
  - apply (sound_ends _ _ SA HN) in H. intros X. apply app_eq_nil in X as [_ X]. apply app_eq_nil in X as [X _]. contradiction.
  - apply (sound_begins _ _ _ _ SB) in H. intros X. apply app_eq_nil in X as [_ X]. apply app_eq_nil in X as [_ X]. contradiction.
Qed.

(** * Leaves *)
Lemma lead_kinds l lead : sh_lead l lead -> lcs (lkinds l) /\ filter tnode l = [] /\ existsb has_line_break_in_groups l = existsb lb (lkinds l) /\ existsb has_direct_line_break l = existsb lb (lkinds l) /\ Forall (fun t => tnode t = false /\ lc (tkind_of t)) l.
Proof.
  intros [H _]. induction H as [|t l (w & [-> | ->]) H (I1 & I2 & I3 & I4 & I5)]; [repeat split; constructor|..]; cbn [lkinds flat_map tkinds app filter tnode existsb has_line_break_in_groups has_direct_line_break]; (split; [constructor; [unfold lc; auto|exact I1]|]; split; [exact I2|]; split; [rewrite I3; reflexivity|]; split; [rewrite I4; reflexivity|]; constructor; [split; [reflexivity|unfold lc; cbn; auto]|exact I5]).
Qed.
Lemma trail_kinds tr tc : sh_trail tr tc -> comment (lkinds tr) /\ lcs (lkinds tr) /\ filter tnode tr = [] /\ existsb has_line_break_in_groups tr = false /\ existsb has_direct_line_break tr = false /\ existsb lb (lkinds tr) = false /\
  Forall (fun t => tnode t = false /\ tkind_of t = COMMENT) tr.
Proof. intros H. unfold sh_trail in H. destruct tc as [c|]; subst tr; cbn; repeat split; repeat constructor. Qed.
Lemma keys_kinds kts ks : sh_keys kts ks -> key (lkinds kts).
Proof.
  assert (HK : forall t k, sh_key t k -> exists k', lkinds [t] = [k'] /\ simple_key k').
  { intros t k [k0 w H]. exists k0. split; [reflexivity|]. unfold key_kind in H. cbn [existsb] in H. destruct k0; try discriminate; constructor. }
  induction 1 as [t k H|t k d ts ks H HD H2 IH]; destruct (HK _ _ H) as (k' & E & HS).
  - rewrite E. constructor. exact HS.
  - change (lkinds (t :: d :: ts)) with (lkinds ([t] ++ [d] ++ ts)). rewrite !lkinds_app, E. destruct HD; cbn [lkinds flat_map tkinds app]; constructor; auto.
Qed.
Lemma literal_scalar k : literal_kind k = true -> scalar k = true /\ is_value k = true /\ k <> ARRAY /\ k <> INLINE_TABLE.
Proof. unfold literal_kind. cbn [existsb]. destruct k; try discriminate; intros _; repeat split; try reflexivity; discriminate. Qed.
Lemma nodes_app P a b : nodes P (a ++ b) = nodes P a ++ nodes P b.
Proof. apply filter_app. Qed.
Lemma nodes_tokens P ts : Forall (fun t => tnode t = false) ts -> nodes P ts = [].
Proof. induction 1 as [|t ts H _ IH]; [reflexivity|]. unfold nodes in *. cbn [filter]. rewrite H. exact IH. Qed.
Lemma after_app k l r : Forall (fun t => tkind_of t <> k) l -> tafter k (l ++ r) = tafter k r.
Proof.
  unfold tafter. induction 1 as [|t l H _ IH]; [reflexivity|]. cbn [app drop_while]. unfold upto at 1. apply kind_eqb_neq in H. rewrite H. exact IH.
Qed.
Lemma after_here k w r : tafter k (TToken k w :: r) = r.
Proof. unfold tafter. cbn [drop_while]. unfold upto. cbn [tkind_of]. rewrite kind_eqb_refl. reflexivity. Qed.
Lemma take_app k l r : Forall (fun t => tkind_of t <> k) l -> take_while (upto k) (l ++ r) = l ++ take_while (upto k) r.
Proof. induction 1 as [|t l H _ IH]; [reflexivity|]. cbn [app take_while]. unfold upto at 1. apply kind_eqb_neq in H. rewrite H. cbn [negb]. f_equal. exact IH. Qed.
Lemma take_here k w r : take_while (upto k) (TToken k w :: r) = [].
Proof. cbn [take_while]. unfold upto. cbn [tkind_of]. rewrite kind_eqb_refl. reflexivity. Qed.

Section Version.
Context (v : toml_version).
Definition sub (table : bool) (fuel : nat) (ts : list tree) : list rule_kind :=
  if table then flat_map (tkey_value (tlint fuel v)) (nodes (is_kind KEY_VALUE) ts) else flat_map (tlint fuel v) (nodes is_value ts).
Definition comma_found (p : tree * option tree) : list rule_kind := match snd p with
  | None => []
  | Some c => if existsb (fun x => negb (tnode x) && kind_eqb (tkind_of x) COMMA) (kids c) then [ForbiddenKeyValueTrailingComma] else []
  end.
Definition no_commas (b : body) : Prop := Forall (fun c => c = false) (flags b).
Lemma no_commas_cat a b : no_commas (cat a b) <-> no_commas a /\ no_commas b.
Proof. unfold no_commas. rewrite cat_flags. apply Forall_app. Qed.
(** The items of a group *)
Record piece (table : bool) (its : list tree) (b : body) : Prop := {
  pc_kinds : kinds_of b = lkinds its;
  pc_flags : flags b = commas (twith (tcastable table) its None);
  pc_lb : table = true -> existsb lb (gaps_of b) = existsb has_line_break_in_groups its;
  pc_sub : forall fuel, Forall (fun t => height t <= fuel) its -> (sub table fuel its = [] <-> Forall (element v table) (items b));
  pc_sound : sound (after_item table) b;
  pc_trailing : flat_map comma_found (twith (tcastable table) its None) = [] <-> no_commas b;
  pc_parted : table = true -> kv_lined its -> parted (fst b);
  pc_nodes : filter tnode its = its;
  pc_first : match its with [] => True | t :: _ => tcastable table (tkind_of t) = true end }.
(** A body of groups, comments and line breaks *)
Record whole (gk : kind) (table : bool) (es : list tree) (b : body) : Prop := {
  wh_kinds : kinds_of b = lkinds es;
  wh_flags : flags b = commas (flat_map (titems (tcastable table)) (nodes (is_kind gk) es));
  wh_lb : table = true -> existsb lb (gaps_of b) = existsb has_line_break_in_groups es;
  wh_sub : forall fuel, Forall (fun t => height t <= fuel) es -> (flat_map (fun g => sub table fuel (kids g)) (nodes (is_kind gk) es) = [] <-> Forall (element v table) (items b));
  wh_sound : sound (after_item table) b;
  wh_trailing : flat_map (fun g => flat_map comma_found (titems (tcastable table) g)) (nodes (is_kind gk) es) = [] <-> no_commas b;
  wh_parted : table = true -> lined es -> Forall line_tree es -> parted (fst b);
  wh_tree : Forall (fun t => tkind_of t = LINE_BREAK \/ tkind_of t = DANGLING_COMMENT_GROUP \/ tkind_of t = gk) es }.
Definition value_ok (t : tree) : Prop := exists L C T, tkinds t = L ++ C ++ T /\ lcs L /\ comment T /\ shape after_value C /\ solid C /\ tnode t = true /\ is_value (tkind_of t) = true /\
  forall fuel, height t <= fuel -> (tlint fuel v t = [] <-> grammar_value v C).
Definition good (K : list kind) : Prop := LintGrammarFacts.closed K /\ tied K.
Lemma good_l a b : good (a ++ b) -> good a.
Proof. intros [H1 H2]. split; [eapply closed_l|eapply tied_l]; eauto. Qed.
Lemma good_r a b : good (a ++ b) -> good b.
Proof. intros [H1 H2]. split; [eapply closed_r|eapply tied_r]; eauto. Qed.
Lemma lined_tail t es : lined (t :: es) -> lined es.
Proof.
  intros H a b ->. destruct (H (t :: a) b eq_refl) as [E|[E|[E|E]]]; unfold junction; auto.
  - change (t :: a) with ([t] ++ a) in E. rewrite lkinds_app in E. apply app_eq_nil in E as [_ E]. auto.
  - change (t :: a) with ([t] ++ a) in E. rewrite lkinds_app in E. destruct (lkinds a) as [|k ks] eqn:EK; [auto|]. apply ends_line_app in E; [auto|discriminate].
Qed.
Lemma height_pos t : 1 <= height t.
Proof. destruct t; cbn; lia. Qed.

Lemma height_none t : height t <= 0 -> False.
Proof. pose proof (height_pos t). lia. Qed.

(** ** A body, from its first tree on *)
Lemma whole_nil gk table : whole gk table [] ([], []).
Proof. split; try reflexivity; try (intros; reflexivity); try (intros; split; intros; constructor; fail); try constructor; try (intros; exact I). all: try (intros; constructor). Qed.
Lemma whole_other gk table t es G b : tkind_of t = LINE_BREAK \/ tkind_of t = DANGLING_COMMENT_GROUP -> tnode t && is_kind gk (tkind_of t) = false -> tkinds t = G -> lcs G -> has_line_break_in_groups t = existsb lb G ->
  whole gk table es b -> whole gk table (t :: es) (cat ([], G) b).
Proof.
  intros HT HN HK HG HL [W1 W2 W3 W4 W5 W6 W7 W8]. assert (EN : nodes (is_kind gk) (t :: es) = nodes (is_kind gk) es) by (unfold nodes; cbn [filter]; rewrite HN; reflexivity).
  split; rewrite ?EN, ?cat_kinds, ?cat_flags, ?cat_gaps, ?cat_items.
  - rewrite W1. cbn [lkinds flat_map]. rewrite HK. reflexivity.
  - exact W2.
  - intros ->. rewrite existsb_app, W3 by reflexivity. cbn [existsb]. rewrite HL. reflexivity.
  - intros fuel HF. inversion HF; subst. apply W4; auto.
  - apply cat_sound; [apply sound_nil; exact HG|exact W5].
  - rewrite no_commas_cat. rewrite W6. split; [intros; split; [constructor|auto]|tauto].
  - intros -> HLN HLT. inversion HLT; subst. apply (cat_parted (after_item true)); [apply sound_nil; exact HG|exact W5|exact I|apply W7; auto; eapply lined_tail; eauto|]. rewrite W1. specialize (HLN [t] es eq_refl). unfold junction in HLN. cbn [lkinds flat_map] in HLN. rewrite app_nil_r in HLN. exact HLN.
  - constructor; [tauto|exact W8].
Qed.
Lemma group_kinds t its : lkinds [TNode t its] = lkinds its.
Proof. apply app_nil_r. Qed.
Lemma whole_group gk (table : bool) its es a b : gk <> DANGLING_COMMENT_GROUP -> gk <> LINE_BREAK -> (table = true -> gk = KEY_VALUE_GROUP \/ gk = KEY_VALUE_WITH_COMMA_GROUP) -> piece table its a -> whole gk table es b -> whole gk table (TNode gk its :: es) (cat a b).
Proof.
  intros G1 G2 G3 [P1 P2 P3 P4 P5 P6 P7 P8 P9] [W1 W2 W3 W4 W5 W6 W7 W8].
  assert (EN : nodes (is_kind gk) (TNode gk its :: es) = TNode gk its :: nodes (is_kind gk) es) by (unfold nodes; cbn [filter tnode tkind_of andb]; unfold is_kind at 1; rewrite kind_eqb_refl; reflexivity).
  assert (ET : titems (tcastable table) (TNode gk its) = twith (tcastable table) its None) by (unfold titems; cbn [kids]; rewrite P8; reflexivity).
  split; rewrite ?EN, ?cat_kinds, ?cat_flags, ?cat_gaps, ?cat_items; cbn [flat_map]; rewrite ?ET.
  - rewrite P1, W1. reflexivity.
  - unfold commas. rewrite map_app. unfold commas in P2, W2. rewrite P2, W2. reflexivity.
  - intros ->. rewrite existsb_app, P3, W3 by reflexivity. cbn [existsb]. destruct (G3 eq_refl) as [-> | ->]; reflexivity.
  - intros fuel HF. inversion HF as [|? ? F1 F2]; subst. rewrite Forall_app, <- W4 by exact F2. cbn [kids].
    assert (HI : Forall (fun t => height t <= fuel) its). { apply Forall_forall. intros x Hx. pose proof (height_pos (TNode gk its)). destruct fuel as [|n]; [lia|]. pose proof (height_child _ _ _ _ F1 Hx). lia. }
    rewrite <- P4 by exact HI. split; [intros H; apply app_eq_nil in H; exact H|intros [-> ->]; reflexivity].
  - apply cat_sound; auto.
  - rewrite no_commas_cat, <- P6, <- W6. split; [intros H; apply app_eq_nil in H; exact H|intros [-> ->]; reflexivity].
  - intros -> HLN HLT. inversion HLT as [|? ? T1 T2]; subst. apply (cat_parted (after_item true)); auto.
    + apply P7; [reflexivity|]. clear - T1 G1 G3. remember (TNode gk its) as t eqn:ET. destruct T1 as [w|ds|its' H|array l wo kts wc tr tc body]; [discriminate|injection ET as <- _; congruence|injection ET as _ <-; exact H|].
      injection ET as <- _. destruct (G3 eq_refl), array; discriminate.
    + apply W7; auto. eapply lined_tail; eauto.
    + rewrite P1, W1. specialize (HLN [TNode gk its] es eq_refl). unfold junction in HLN. rewrite group_kinds in HLN. exact HLN.
  - constructor; [cbn; auto|exact W8].
Qed.
(** ** The items of a group, from the first on *)
Lemma piece_nil table : piece table [] ([], []).
Proof.
  split; try reflexivity; try exact I; try (intros; reflexivity); try (intros; exact I).
  - intros fuel _. destruct table; split; intros; constructor.
  - apply sound_nil. constructor.
  - split; intros; constructor.
Qed.
Lemma sub_app table fuel a b : sub table fuel (a ++ b) = sub table fuel a ++ sub table fuel b.
Proof. destruct table; unfold sub; rewrite nodes_app, flat_map_app; reflexivity. Qed.
Lemma twith_some table t rest : match rest with [] => True | x :: _ => tcastable table (tkind_of x) = true end -> twith (tcastable table) rest (Some t) = (t, None) :: twith (tcastable table) rest None.
Proof. destruct rest as [|x rest]; [reflexivity|]. intros H. cbn [twith]. rewrite H. reflexivity. Qed.
Lemma castable_comma table : tcastable table COMMA = false.
Proof. destruct table; reflexivity. Qed.
Lemma sub_comma table fuel x : sub table fuel [TNode COMMA x] = [].
Proof. destruct table; reflexivity. Qed.
Lemma existsb_false {A} (f : A -> bool) l : Forall (fun x => f x = false) l -> existsb f l = false.
Proof. induction 1 as [|x l H _ IH]; [reflexivity|]. cbn [existsb]. rewrite H, IH. reflexivity. Qed.
Lemma piece_cons table t cs c rest L E T b : tkinds t = L ++ E ++ T -> lcs L -> comment T -> shape (after_item table) E -> solid E -> tnode t = true -> tcastable table (tkind_of t) = true ->
  (table = true -> has_line_break_in_groups t = existsb lb L) -> (forall fuel, height t <= fuel -> (sub table fuel [t] = [] <-> element v table E)) -> sh_comma cs c -> piece table rest b ->
  exists b', piece table (t :: cs ++ rest) b'.
Proof.
  intros HK HL HT HS HSO HN HC HLB HSUB HCM HP. pose proof HP as [P1 P2 P3 P4 P5 P6 P7 P8 P9].
  assert (HTL : lcs T /\ existsb lb T = false) by (destruct HT; split; repeat constructor). destruct HTL as [HTL HTB].
  assert (HB : forall a, kv_lined (t :: a ++ rest) -> lkinds rest = [] \/ begins_line (lkinds rest) \/ table = false).
  { intros a HKV. destruct table; [|auto]. destruct rest as [|x rest]; [auto|]. right. left. cbn [tcastable] in P9. assert (HX : tnode x = true) by (assert (HZ : In x (filter tnode (x :: rest))) by (rewrite P8; left; reflexivity); apply filter_In in HZ; apply HZ).
    destruct x as [k xs|k w]; [|discriminate]. unfold is_kind in P9. cbn [tkind_of] in P9. apply kind_eqb_eq in P9. subst k. destruct (HKV (t :: a) xs rest eq_refl) as (r & ER); [discriminate|]. exists (r ++ lkinds rest). cbn [lkinds flat_map]. rewrite ER. reflexivity. }
  assert (HKT : forall a, kv_lined (t :: a ++ rest) -> kv_lined rest). { intros a HKV x y z -> HNE. apply (HKV (t :: a ++ x) y z); [cbn [app]; rewrite <- app_assoc; reflexivity|discriminate]. }
  destruct HCM as [|l lead w tr tc HLD HTR].
  - exists (cat ([Slot L E T false], []) b). cbn [app].
    assert (SO : sound (after_item table) ([Slot L E T false], [])).
    { split; unfold items, gaps_of; cbn [fst snd map flat_map s_before s_item s_behind app].
      - constructor; [exact HS|constructor].
      - rewrite !app_nil_r. apply Forall_app. auto.
      - constructor; [|constructor]. intros _. exact HT.
      - constructor; [exact HSO|constructor]. }
    assert (EK : kinds_of ([Slot L E T false], []) = lkinds [t]) by (unfold kinds_of, slot_kinds; cbn [fst snd flat_map s_before s_item s_behind s_comma comma_if lkinds]; rewrite !app_nil_r, HK; reflexivity).
    assert (EW : twith (tcastable table) (t :: rest) None = (t, None) :: twith (tcastable table) rest None) by (cbn [twith]; rewrite HC; apply twith_some; exact P9).
    split; rewrite ?cat_kinds, ?cat_flags, ?cat_gaps, ?cat_items, ?EW.
    + rewrite EK, P1. rewrite <- lkinds_app. reflexivity.
    + rewrite P2. reflexivity.
    + intros HTB2. rewrite existsb_app, (P3 HTB2). unfold gaps_of. cbn [fst snd flat_map s_before s_behind]. rewrite !app_nil_r, existsb_app, HTB, orb_false_r. cbn [existsb]. rewrite (HLB HTB2). reflexivity.
    + intros fuel HF. change (t :: rest) with ([t] ++ rest). rewrite sub_app. inversion HF as [|? ? F1 F2]; subst. rewrite Forall_app, <- (P4 fuel F2).
      assert (HX : Forall (element v table) (items ([Slot L E T false], [])) <-> sub table fuel [t] = []) by (rewrite HSUB by exact F1; unfold items; cbn [fst map s_item]; split; [intros Z; apply (Forall_inv Z)|intros Z; constructor; [exact Z|constructor]]).
      rewrite HX. split; [intros Z; apply app_eq_nil in Z; exact Z|intros [-> ->]; reflexivity].
    + apply cat_sound; auto.
    + rewrite no_commas_cat, <- P6. cbn [flat_map comma_found snd app]. split; [intros Z; split; [repeat constructor|exact Z]|tauto].
    + intros HTB2 HKV. apply (cat_parted (after_item table)); auto; [exact I|apply P7; auto; apply (HKT [] HKV)|]. rewrite P1. destruct (HB [] HKV) as [Z|[Z|Z]]; [right; left; exact Z|right; right; right; exact Z|congruence].
    + cbn [filter]. rewrite HN, P8. reflexivity.
    + exact HC.
  - destruct (lead_kinds _ _ HLD) as (L1 & L2 & L3 & L4 & L5). destruct (trail_kinds _ _ HTR) as (T1 & T2 & T3 & T4 & T5 & T6 & T7).
    set (cm := TNode COMMA (l ++ TToken COMMA w :: tr)). exists (cat ([Slot L E (T ++ lkinds l) true], lkinds tr) b). cbn [app].
    assert (SO : sound (after_item table) ([Slot L E (T ++ lkinds l) true], lkinds tr)).
    { split; unfold items, gaps_of; cbn [fst snd map flat_map s_before s_item s_behind app].
      - constructor; [exact HS|constructor].
      - rewrite !app_nil_r. repeat (apply Forall_app; split); auto.
      - constructor; [|constructor]. unfold tailed. cbn [s_comma]. discriminate.
      - constructor; [exact HSO|constructor]. }
    assert (EC : lkinds [cm] = lkinds l ++ COMMA :: lkinds tr) by (unfold cm; rewrite group_kinds, lkinds_app; reflexivity).
    assert (EK : kinds_of ([Slot L E (T ++ lkinds l) true], lkinds tr) = lkinds [t; cm]).
    { change [t; cm] with ([t] ++ [cm]). rewrite lkinds_app, EC. unfold kinds_of, slot_kinds. cbn [fst snd flat_map s_before s_item s_behind s_comma comma_if lkinds]. rewrite !app_nil_r. change (flat_map tkinds tr) with (lkinds tr). change (flat_map tkinds l) with (lkinds l). rewrite HK, <- !app_assoc. reflexivity. }
    assert (EW : twith (tcastable table) (t :: cm :: rest) None = (t, Some cm) :: twith (tcastable table) rest None) by (cbn [twith]; rewrite HC; unfold cm; cbn [tkind_of]; rewrite castable_comma; reflexivity).
    assert (ECM : comma_found (t, Some cm) = [ForbiddenKeyValueTrailingComma]).
    { unfold comma_found, cm. cbn [snd kids]. rewrite existsb_app. cbn [existsb tnode tkind_of negb andb]. rewrite kind_eqb_refl, orb_true_r. reflexivity. }
    assert (EHB : has_line_break_in_groups cm = existsb lb (lkinds l)).
    { unfold cm. cbn [has_line_break_in_groups]. rewrite existsb_app. cbn [existsb has_direct_line_break]. rewrite L4, T5. cbn [kind_eqb orb]. apply orb_false_r. }
    split; rewrite ?cat_kinds, ?cat_flags, ?cat_gaps, ?cat_items, ?EW.
    + rewrite EK, P1. rewrite <- lkinds_app. reflexivity.
    + rewrite P2. reflexivity.
    + intros HTB2. rewrite existsb_app, (P3 HTB2). unfold gaps_of. cbn [fst snd flat_map s_before s_behind]. rewrite !app_nil_r, !existsb_app, HTB, T6, orb_false_r. cbn [existsb orb]. rewrite (HLB HTB2), EHB, <- orb_assoc. reflexivity.
    + intros fuel HF. change (t :: cm :: rest) with ([t] ++ [cm] ++ rest). rewrite !sub_app. unfold cm at 1. rewrite sub_comma. cbn [app]. inversion HF as [|? ? F1 F2]; subst. inversion F2 as [|? ? F3 F4]; subst. rewrite Forall_app, <- (P4 fuel F4).
      assert (HX : Forall (element v table) (items ([Slot L E (T ++ lkinds l) true], lkinds tr)) <-> sub table fuel [t] = []) by (rewrite HSUB by exact F1; unfold items; cbn [fst map s_item]; split; [intros Z; apply (Forall_inv Z)|intros Z; constructor; [exact Z|constructor]]).
      rewrite HX. split; [intros Z; apply app_eq_nil in Z; exact Z|intros [-> ->]; reflexivity].
    + apply cat_sound; auto.
    + rewrite no_commas_cat. cbn [flat_map]. rewrite ECM. split; [discriminate|]. intros [Z _]. unfold no_commas, flags in Z. cbn [fst map s_comma] in Z. apply Forall_inv in Z. discriminate.
    + intros HTB2 HKV. apply (cat_parted (after_item table)); auto; [exact I|apply P7; auto; apply (HKT [cm] HKV)|]. rewrite P1. destruct (HB [cm] HKV) as [Z|[Z|Z]]; [right; left; exact Z|right; right; right; exact Z|congruence].
    + cbn [filter]. rewrite HN, P8. reflexivity.
    + exact HC.
Qed.

(** ** Values *)
Lemma element_pair Ks C : key Ks -> (element v true (Ks ++ EQUAL :: C) <-> grammar_value v C).
Proof.
  intros HK. split; [|intros H; constructor; auto]. intros H. remember (Ks ++ EQUAL :: C) as X eqn:EX. remember true as table. destruct H as [K HV|Ks' K HK' HV]; [discriminate|].
  destruct (key_plain _ HK) as (_ & H1 & _). destruct (key_plain _ HK') as (_ & H2 & _). specialize (H1 C). rewrite <- EX, H2 in H1. injection H1 as ->. exact HV.
Qed.
Lemma box_value table l lead wo otr otc es wc tr tc b : sh_lead l lead -> sh_trail otr otc -> sh_trail tr tc ->
  good (tkinds (TNode (box_kind table) (l ++ TToken (open_kind table) wo :: otr ++ es ++ TToken (close_kind table) wc :: tr))) ->
  even (lkinds es) -> whole (group_kind table) table es b ->
  value_ok (TNode (box_kind table) (l ++ TToken (open_kind table) wo :: otr ++ es ++ TToken (close_kind table) wc :: tr)).
Proof.
  intros HL HO HT HG HEV HW. pose proof HW as [W1 W2 W3 W4 W5 W6 W7 W8]. destruct (lead_kinds _ _ HL) as (L1 & L2 & L3 & L4 & L5). destruct (trail_kinds _ _ HT) as (T1 & T2 & T3 & T4 & T5 & T6 & T7). destruct (trail_kinds _ _ HO) as (O1 & O2 & O3 & O4 & O5 & O6 & O7).
  set (t := TNode (box_kind table) (l ++ TToken (open_kind table) wo :: otr ++ es ++ TToken (close_kind table) wc :: tr)) in *.
  set (B := lkinds otr ++ lkinds es).
  assert (EK : tkinds t = lkinds l ++ (open_kind table :: B ++ [close_kind table]) ++ lkinds tr).
  { unfold t, B. cbn [tkinds]. change (flat_map tkinds ?x) with (lkinds x). rewrite lkinds_app. f_equal. change (TToken (open_kind table) wo :: ?x) with ([TToken (open_kind table) wo] ++ x). change (TToken (close_kind table) wc :: ?x) with ([TToken (close_kind table) wc] ++ x). rewrite !lkinds_app.
    cbn [lkinds flat_map tkinds app]. rewrite <- !app_assoc. reflexivity. }
  set (b' := cat ([], lkinds otr) b).
  assert (EB : kinds_of b' = B) by (unfold b', B; rewrite cat_kinds, W1; reflexivity).
  assert (SB : sound (after_item table) b') by (apply cat_sound; [apply sound_nil; exact O2|exact W5]).
  assert (EBF : flags b' = commas (tlist table t)).
  { unfold b'. rewrite cat_flags, W2. cbn [flags fst map app]. unfold tlist, tbox, t. cbn [kids]. f_equal. f_equal. fold (open_kind table). fold (group_kind table). rewrite after_app.
    - rewrite after_here, !nodes_app. rewrite (nodes_tokens _ otr) by (eapply Forall_impl; [|exact O7]; cbn; tauto). cbn [app]. rewrite (nodes_tokens _ (TToken _ _ :: tr)); [rewrite app_nil_r; reflexivity|]. constructor; [reflexivity|]. eapply Forall_impl; [|exact T7]. cbn. tauto.
    - eapply Forall_impl; [|exact L5]. cbn. intros x [_ [-> | ->]]; destruct table; discriminate. }
  assert (EBX : flat_map (fun g => sub table 0 (kids g)) (tbox table t) = flat_map (fun g => sub table 0 (kids g)) (nodes (is_kind (group_kind table)) es) /\ tbox table t = nodes (is_kind (group_kind table)) es).
  { assert (HX : tbox table t = nodes (is_kind (group_kind table)) es); [|rewrite HX; auto]. unfold tbox, t. cbn [kids]. fold (open_kind table). fold (group_kind table). rewrite after_app.
    - rewrite after_here, !nodes_app. rewrite (nodes_tokens _ otr) by (eapply Forall_impl; [|exact O7]; cbn; tauto). cbn [app]. rewrite (nodes_tokens _ (TToken _ _ :: tr)); [rewrite app_nil_r; reflexivity|]. constructor; [reflexivity|]. eapply Forall_impl; [|exact T7]. cbn. tauto.
    - eapply Forall_impl; [|exact L5]. cbn. intros x [_ [-> | ->]]; destruct table; discriminate. }
  destruct EBX as [_ EBX].
  assert (ENL : table = true -> tnewline t = existsb lb (gaps_of b')).
  { intros ->. unfold b'. rewrite cat_gaps, existsb_app, W3 by reflexivity. cbn [gaps_of fst snd flat_map app]. rewrite O6. unfold tnewline, t. cbn [kids open_kind close_kind]. rewrite after_app, after_here.
    - rewrite take_app by (eapply Forall_impl; [|exact O7]; cbn; intros x [_ ->]; discriminate). rewrite take_app by (eapply Forall_impl; [|exact W8]; cbn; intros x [->|[-> | ->]]; discriminate). rewrite take_here, app_nil_r, existsb_app, O4. reflexivity.
    - eapply Forall_impl; [|exact L5]. cbn. intros x [_ [-> | ->]]; discriminate. }
  assert (HCB : LintGrammarFacts.closed (kinds_of b' ++ [close_kind table])).
  { rewrite EK in HG. apply good_r in HG. apply good_l in HG. apply (good_r [open_kind table]) in HG. rewrite EB. apply HG. }
  assert (HCK : close_kind table <> LINE_BREAK) by (destruct table; discriminate).
  exists (lkinds l), (open_kind table :: B ++ [close_kind table]), (lkinds tr). split; [exact EK|]. split; [exact L1|]. split; [exact T1|]. split.
  { split; [apply box_after; try (destruct table; reflexivity); apply even_app; [apply even_lcs; exact O2|exact HEV]|]. eexists _, _. split; [reflexivity|]. destruct table; (split; [intros [X|X]; discriminate|split; [discriminate|reflexivity]]). }
  split; [exists (open_kind table :: B), (close_kind table); split; [reflexivity|exact HCK]|]. split; [reflexivity|]. split; [unfold t; cbn [tkind_of]; destruct table; reflexivity|].
  intros fuel HF. destruct fuel as [|fuel]; [exfalso; exact (height_none _ HF)|].
  assert (HIV : grammar_value v (open_kind table :: B ++ [close_kind table]) <-> elements v table B).
  { split; [|intros H; destruct table; constructor; exact H]. intros H. remember (open_kind table :: B ++ [close_kind table]) as X eqn:EX. destruct H as [k HS|B0 H|B0 H].
    - injection EX as _ EX. destruct B; discriminate.
    - injection EX as E1 E2. apply app_inj_tail in E2 as [-> _]. destruct table; [discriminate|exact H].
    - injection EX as E1 E2. apply app_inj_tail in E2 as [-> _]. destruct table; [exact H|discriminate]. }
  rewrite HIV, <- EB. assert (HEI : elements v table (kinds_of b') <-> all_but_last (flags b') = true /\ (single_line v table = true -> gaps_of b' = [] /\ last (flags b') false = false) /\ Forall (element v table) (items b')).
  { destruct b' as [sl G] eqn:EBB. destruct SB as [S1 S2 S3 S4]. apply (elements_iff v table sl G (close_kind table)); auto. }
  rewrite HEI. clear HEI HIV.
  assert (HSUB : flat_map (fun g => sub table fuel (kids g)) (tbox table t) = [] <-> Forall (element v table) (items b')).
  { rewrite EBX. unfold b'. rewrite cat_items. cbn [items fst map app]. apply W4. apply Forall_forall. intros x Hx. apply (height_child _ _ x fuel HF). apply in_or_app. right. right. apply in_or_app. right. apply in_or_app. left. exact Hx. }
  assert (HM : forall k, tmissing k (tlist table t) = [] <-> all_but_last (flags b') = true) by (intros k; rewrite EBF; apply missing_flags).
  assert (HSL : table = true -> (tversion v t = [] <-> (single_line v table = true -> gaps_of b' = [] /\ last (flags b') false = false))).
  { intros ET. unfold tversion, single_line. rewrite ET in *. specialize (ENL eq_refl). unfold is_v1_0_0. destruct v; cbn [andb negb]; [|split; [intros _ Z; discriminate|reflexivity]..].
    rewrite EBF, <- last_flag, ENL. split.
    - intros H _. apply app_eq_nil in H as [H1 H2]. split; [|exact H2]. destruct (existsb lb (gaps_of b')) eqn:EX; [discriminate|]. destruct b' as [sl G]. destruct SB as [S1 S2 _ _]. eapply gaps_empty; eauto.
    - intros H. destruct (H eq_refl) as [-> ->]. reflexivity. }
  destruct table; cbn [box_kind] in *; unfold t; cbn [tlint tkind_of]; fold t.
  - change (fun g : tree => flat_map (tkey_value (tlint fuel v)) (nodes (is_kind KEY_VALUE) (kids g))) with (fun g : tree => sub true fuel (kids g)). rewrite <- HSUB, <- (HM MissingInlineTableComma), <- (HSL eq_refl).
    split; [intros H; apply app_eq_nil in H as [H1 H]; apply app_eq_nil in H as [H2 H3]; auto|intros (-> & -> & ->); reflexivity].
  - change (fun g : tree => flat_map (tlint fuel v) (nodes is_value (kids g))) with (fun g : tree => sub false fuel (kids g)). rewrite <- HSUB, <- (HM MissingArrayComma).
    split; [intros H; apply app_eq_nil in H as [H1 H2]; split; [exact H1|split; [unfold single_line; discriminate|exact H2]]|intros (-> & _ & ->); reflexivity].
Qed.
End Version.
