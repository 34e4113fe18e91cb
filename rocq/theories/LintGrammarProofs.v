(** On the tree of a text that is read without errors, the rules report nothing exactly when the text is one of the grammar. *)
From Coq Require Import String Ascii List NArith Bool Arith Lia.
From Verif Require Import Base SyntaxKind TextModel LexerModel ParserModel TomlTextModel AstModel FormatterModel FormatterLayout ParserInv ParserBuild ParserYield ParserShape ParserTree ParserAccepts ParserAcceptsProps ParserSoundProps ViewShape ViewContent LintRulesModel LintStrip LintGrammarSpec LintGrammarFacts LintGrammarTree.
Import ListNotations.
Open Scope nat_scope.
Open Scope list_scope.

(** * Brackets *)
Lemma lead_even l lead : sh_lead l lead -> even (lkinds l).
Proof. intros H. apply even_lcs. eapply lead_kinds; eauto. Qed.
Lemma trail_even l tc : sh_trail l tc -> even (lkinds l).
Proof. intros H. apply even_lcs. eapply trail_kinds; eauto. Qed.
Lemma comma_even cs c : sh_comma cs c -> even (lkinds cs).
Proof.
  destruct 1 as [|l lead w tr tc HL HT]; [apply even_nil|]. rewrite group_kinds. change (TToken COMMA w :: tr) with ([TToken COMMA w] ++ tr). rewrite !lkinds_app. apply even_app; [eapply lead_even; eauto|]. apply even_app; [apply even_plain; repeat constructor|eapply trail_even; eauto].
Qed.
Lemma keys_even kts ks : sh_keys kts ks -> even (lkinds kts).
Proof. intros H. apply keys_kinds in H. apply even_plain. apply key_plain. exact H. Qed.
Fixpoint sh_value_even t x (H : sh_value t x) {struct H} : even (lkinds [t])
with sh_item_even table its i (H : sh_item table its i) {struct H} : even (lkinds its)
with sh_items_even table its is (H : sh_items table its is) {struct H} : even (lkinds its)
with sh_body_even gk table n es gs m (H : sh_body gk table n es gs m) {struct H} : even (lkinds es).
Proof.
  - destruct H as [l lead k w tr tc HL HK HT|table l lead wo otr otc es gs wc tr tc n HL HO HB HT].
    + rewrite group_kinds. change (TToken k w :: tr) with ([TToken k w] ++ tr). rewrite !lkinds_app. apply even_app; [eapply lead_even; eauto|]. apply even_app; [|eapply trail_even; eauto].
      apply even_plain. constructor; [|constructor]. apply scalar_plain. apply literal_scalar. exact HK.
    + rewrite group_kinds. change (TToken (open_kind table) wo :: ?x) with ([TToken (open_kind table) wo] ++ x). change (TToken (close_kind table) wc :: ?x) with ([TToken (close_kind table) wc] ++ x).
      replace ([TToken (open_kind table) wo] ++ otr ++ es ++ [TToken (close_kind table) wc] ++ tr) with (([TToken (open_kind table) wo] ++ (otr ++ es) ++ [TToken (close_kind table) wc]) ++ tr) by (rewrite <- !app_assoc; reflexivity).
      rewrite lkinds_app. apply even_app; [eapply lead_even; eauto|]. rewrite lkinds_app. apply even_app; [|eapply trail_even; eauto]. rewrite !lkinds_app. apply (even_box (open_kind table) (lkinds otr ++ lkinds es) (close_kind table)); try (destruct table; reflexivity).
      apply even_app; [eapply trail_even; eauto|exact (sh_body_even _ _ _ _ _ _ HB)].
  - destruct H as [t x cs c HV HC|l lead kts ks raw we t x cs c HL HK HV HX HC].
    + change (t :: cs) with ([t] ++ cs). rewrite lkinds_app. apply even_app; [exact (sh_value_even _ _ HV)|eapply comma_even; eauto].
    + change (TNode KEY_VALUE ?y :: cs) with ([TNode KEY_VALUE y] ++ cs). rewrite lkinds_app. apply even_app; [|eapply comma_even; eauto]. rewrite group_kinds. change [TNode KEYS kts; TToken EQUAL we; t] with ([TNode KEYS kts] ++ [TToken EQUAL we] ++ [t]). rewrite !lkinds_app, group_kinds.
      apply even_app; [eapply lead_even; eauto|]. apply even_app; [eapply keys_even; eauto|]. apply even_app; [apply even_plain; repeat constructor|exact (sh_value_even _ _ HV)].
  - destruct H as [table|table a i b is HI HB]; [apply even_nil|]. rewrite lkinds_app. apply even_app; [exact (sh_item_even _ _ _ HI)|exact (sh_items_even _ _ _ HB)].
  - destruct H as [gk table n|gk table n w es gs m HB|gk table n ds cs es gs m HD HN HB|gk table n its is es gs m HI HN HB]; [apply even_nil|..].
    + change (TToken LINE_BREAK w :: es) with ([TToken LINE_BREAK w] ++ es). rewrite lkinds_app. apply even_app; [apply even_plain; repeat constructor|exact (sh_body_even _ _ _ _ _ _ HB)].
    + change (TNode DANGLING_COMMENT_GROUP ds :: es) with ([TNode DANGLING_COMMENT_GROUP ds] ++ es). rewrite lkinds_app, group_kinds. apply even_app; [eapply lead_even; eauto|exact (sh_body_even _ _ _ _ _ _ HB)].
    + change (TNode gk its :: es) with ([TNode gk its] ++ es). rewrite lkinds_app, group_kinds. apply even_app; [exact (sh_items_even _ _ _ HI)|exact (sh_body_even _ _ _ _ _ _ HB)].
Qed.

Section Version.
Context (v : toml_version).
Definition group_ok (gk : kind) (table : bool) : Prop := gk <> DANGLING_COMMENT_GROUP /\ gk <> LINE_BREAK /\ (table = true -> gk = KEY_VALUE_GROUP \/ gk = KEY_VALUE_WITH_COMMA_GROUP).
Lemma literal_value l lead k w tr tc : sh_lead l lead -> literal_kind k = true -> sh_trail tr tc -> value_ok v (TNode k (l ++ TToken k w :: tr)).
Proof.
  intros HL HK HT. destruct (literal_scalar _ HK) as (H1 & H2 & H3 & H4). destruct (scalar_plain _ H1) as ([P1 P2] & P3 & P4).
  exists (lkinds l), [k], (lkinds tr). split; [cbn [tkinds]; change (flat_map tkinds ?x) with (lkinds x); change (TToken k w :: tr) with ([TToken k w] ++ tr); rewrite !lkinds_app; reflexivity|].
  split; [eapply lead_kinds; eauto|]. split; [eapply trail_kinds; eauto|]. split; [split; [intros R; cbn; rewrite P1; reflexivity|exists k, []; auto]|].
  split; [exists [], k; split; [reflexivity|intros ->; apply P3; right; reflexivity]|]. split; [reflexivity|]. split; [exact H2|].
  intros [|fuel] HF; [exfalso; exact (height_none _ HF)|]. cbn [tlint tkind_of]. split; [intros _; constructor; exact H1|intros _]. destruct k; try reflexivity; congruence.
Qed.
Lemma key_value_item l lead kts ks we t : sh_lead l lead -> sh_keys kts ks -> value_ok v t -> good (tkinds (TNode KEY_VALUE (l ++ [TNode KEYS kts; TToken EQUAL we; t]))) ->
  let kv := TNode KEY_VALUE (l ++ [TNode KEYS kts; TToken EQUAL we; t]) in
  exists E T, tkinds kv = lkinds l ++ E ++ T /\ lcs (lkinds l) /\ comment T /\ shape after_pair E /\ solid E /\ has_line_break_in_groups kv = existsb lb (lkinds l) /\
    forall fuel, height kv <= fuel -> (sub v true fuel [kv] = [] <-> element v true E).
Proof.
  intros HL HK (L & C & T & EK & HL1 & HT & HS & HSO & HN & HV & HX) HG kv. destruct (lead_kinds _ _ HL) as (L1 & L2 & L3 & L4 & L5).
  assert (EKV : tkinds kv = lkinds l ++ lkinds kts ++ EQUAL :: L ++ C ++ T).
  { unfold kv. cbn [tkinds]. change (flat_map tkinds ?x) with (lkinds x). rewrite lkinds_app. f_equal. change [TNode KEYS kts; TToken EQUAL we; t] with ([TNode KEYS kts] ++ [TToken EQUAL we] ++ [t]). rewrite !lkinds_app, group_kinds. cbn [lkinds flat_map tkinds app]. rewrite app_nil_r, EK. reflexivity. }
  assert (L = []) as ->.
  { destruct L as [|k L]; [reflexivity|]. exfalso. destruct HG as [_ HG]. fold kv in HG. rewrite EKV, app_assoc in HG. apply (HG (lkinds l ++ lkinds kts) k (L ++ C ++ T)); [reflexivity|]. apply (Forall_inv HL1). }
  cbn [app] in EKV. pose proof (keys_kinds _ _ HK) as HKK. exists (lkinds kts ++ EQUAL :: C), T. split; [rewrite EKV, <- app_assoc; reflexivity|]. split; [exact L1|]. split; [exact HT|]. split; [apply pair_shape; auto|].
  split; [destruct HSO as (a & k & -> & HKL); exists (lkinds kts ++ EQUAL :: a), k; split; [rewrite <- app_assoc; reflexivity|exact HKL]|].
  split. { unfold kv. cbn [has_line_break_in_groups]. rewrite existsb_app, L4. cbn [existsb has_direct_line_break]. destruct t as [k cs|]; [|discriminate]. cbn. apply orb_false_r. }
  intros fuel HF. rewrite element_pair by exact HKK. assert (HT2 : height t <= fuel). { destruct fuel as [|n]; [exfalso; exact (height_none _ HF)|]. assert (HH : height t <= n) by (apply (height_child _ _ _ _ HF); apply in_or_app; right; cbn; auto). lia. }
  rewrite <- (HX fuel HT2). unfold sub, nodes. cbn [filter kv tnode tkind_of is_kind kind_eqb andb]. unfold is_kind at 1. rewrite kind_eqb_refl. cbn [flat_map]. rewrite app_nil_r. unfold tkey_value, kv. cbn [kids]. rewrite filter_app, L2. cbn [app filter tnode]. rewrite HN. cbn [find tkind_of is_value]. rewrite HV. reflexivity.
Qed.
Fixpoint value_desc t x (H : sh_value t x) {struct H} : good (tkinds t) -> value_ok v t
with item_desc table its i (H : sh_item table its i) {struct H} : good (lkinds its) -> forall rest b, piece v table rest b -> exists b', piece v table (its ++ rest) b'
with items_desc table its is (H : sh_items table its is) {struct H} : good (lkinds its) -> exists b, piece v table its b
with body_desc gk table n es gs m (H : sh_body gk table n es gs m) {struct H} : group_ok gk table -> good (lkinds es) -> exists b, whole v gk table es b.
Proof.
  - destruct H as [l lead k w tr tc HL HK HT|table l lead wo otr otc es gs wc tr tc n HL HO HB HT]; intros HG.
    + eapply literal_value; eauto.
    + assert (HGE : good (lkinds es)).
      { cbn [tkinds] in HG. change (flat_map tkinds ?x) with (lkinds x) in HG. rewrite lkinds_app in HG. apply good_r in HG. change (TToken (open_kind table) wo :: ?x) with ([TToken (open_kind table) wo] ++ x) in HG. rewrite !lkinds_app in HG. do 2 apply good_r in HG. apply good_l in HG. exact HG. }
      assert (HGK : group_ok (group_kind table) table) by (destruct table; split; [discriminate|split; [discriminate|auto]|discriminate|split; [discriminate|discriminate]]).
      destruct (body_desc _ _ _ _ _ _ HB HGK HGE) as (b & HW). eapply box_value; eauto. eapply sh_body_even; eauto.
  - destruct H as [t x cs c HV HC|l lead kts ks raw we t x cs c HL HK HV HX HC]; intros HG rest b HP; cbn [app].
    + change (t :: cs) with ([t] ++ cs) in HG. rewrite lkinds_app in HG. apply good_l in HG. cbn [lkinds flat_map] in HG. rewrite app_nil_r in HG.
      destruct (value_desc _ _ HV HG) as (L & C & T & EK & HL1 & HT & HS & HSO & HN & HIV & HX). apply (piece_cons v false t cs c rest L C T b); auto; [discriminate|].
      intros fuel HF. unfold sub, nodes. cbn [filter]. rewrite HN, HIV. cbn [andb flat_map]. rewrite app_nil_r, (HX fuel HF). split; [intros Z; constructor; exact Z|]. intros Z. inversion Z; auto.
    + change (TNode KEY_VALUE ?y :: cs) with ([TNode KEY_VALUE y] ++ cs) in HG. rewrite lkinds_app in HG. apply good_l in HG. cbn [lkinds flat_map] in HG. rewrite app_nil_r in HG.
      assert (HGT : good (tkinds t)). { cbn [tkinds] in HG. change (flat_map tkinds ?x) with (lkinds x) in HG. rewrite lkinds_app in HG. apply good_r in HG. change [TNode KEYS kts; TToken EQUAL we; t] with ([TNode KEYS kts] ++ [TToken EQUAL we] ++ [t]) in HG. rewrite !lkinds_app in HG. do 2 apply good_r in HG. cbn [lkinds flat_map] in HG. rewrite app_nil_r in HG. exact HG. }
      destruct (key_value_item l lead kts ks we t HL HK (value_desc _ _ HV HGT) HG) as (E & T & E1 & E2 & E3 & E4 & E5 & E6 & E7).
      apply (piece_cons v true (TNode KEY_VALUE (l ++ [TNode KEYS kts; TToken EQUAL we; t])) cs c rest (lkinds l) E T b); auto.
  - destruct H as [table|table a i b is HI HB]; intros HG; [exists ([], []); apply piece_nil|]. rewrite lkinds_app in HG. destruct (items_desc _ _ _ HB (good_r _ _ HG)) as (b' & HP). exact (item_desc _ _ _ HI (good_l _ _ HG) _ _ HP).
  - destruct H as [gk table n|gk table n w es gs m HB|gk table n ds cs es gs m HD HN HB|gk table n its is es gs m HI HN HB]; intros HGK HG.
    + exists ([], []). apply whole_nil.
    + change (TToken LINE_BREAK w :: es) with ([TToken LINE_BREAK w] ++ es) in HG. rewrite lkinds_app in HG. destruct (body_desc _ _ _ _ _ _ HB HGK (good_r _ _ HG)) as (b & HW). exists (cat ([], [LINE_BREAK]) b). apply whole_other; auto. constructor; [right; reflexivity|constructor].
    + change (TNode DANGLING_COMMENT_GROUP ds :: es) with ([TNode DANGLING_COMMENT_GROUP ds] ++ es) in HG. rewrite lkinds_app in HG. destruct (body_desc _ _ _ _ _ _ HB HGK (good_r _ _ HG)) as (b & HW). destruct (lead_kinds _ _ HD) as (L1 & L2 & L3 & L4 & L5). exists (cat ([], lkinds ds) b). apply whole_other; auto.
      cbn [tnode tkind_of andb]. unfold is_kind. apply kind_eqb_neq. intros E. destruct HGK as [Z _]. apply Z. symmetry. exact E.
    + change (TNode gk its :: es) with ([TNode gk its] ++ es) in HG. rewrite lkinds_app, group_kinds in HG. destruct (body_desc _ _ _ _ _ _ HB HGK (good_r _ _ HG)) as (b & HW). destruct (items_desc _ _ _ HI (good_l _ _ HG)) as (a & HP). destruct HGK as (Z1 & Z2 & Z3). exists (cat a b). apply whole_group; auto.
Qed.

(** * Tables *)
Record tabled (ts : list tree) (b : body) : Prop := {
  tb_kinds : kinds_of b = lkinds ts;
  tb_lint : forall fuel, Forall (fun t => height t <= fuel) ts -> (flat_map (ttable fuel v) (nodes is_table_or_array_of_table ts) = [] <-> no_commas b /\ Forall (statement v) (items b));
  tb_sound : sound after_statement b;
  tb_parted : lined ts -> Forall line_tree ts -> parted (fst b);
  tb_tree : nodes (is_kind KEY_VALUE_GROUP) ts = [] }.
Lemma element_statement E : element v true E -> statement v E.
Proof. intros H. split; [constructor; exact H|]. destruct (element_shape _ _ _ H) as [_ (k & r & -> & _)]. discriminate. Qed.
Lemma header_body (array : bool) l lead wo kts wc tr tc body : sh_lead l lead -> sh_trail tr tc -> starts_line body ->
  theader (TNode (table_kind array) (l ++ TToken (head_kind array) wo :: TNode KEYS kts :: TToken (tail_kind array) wc :: tr ++ body)) = body.
Proof.
  intros HL HT HS. destruct (lead_kinds _ _ HL) as (_ & _ & _ & _ & L5). unfold theader. assert (EK : kind_eqb (tkind_of (TNode (table_kind array) (l ++ TToken (head_kind array) wo :: TNode KEYS kts :: TToken (tail_kind array) wc :: tr ++ body))) ROOT = false) by (destruct array; reflexivity).
  rewrite EK. cbn [tkind_of kids]. assert (EX : (if kind_eqb (table_kind array) ARRAY_OF_TABLE then DOUBLE_BRACKET_END else BRACKET_END) = tail_kind array) by (destruct array; reflexivity). rewrite EX.
  assert (ED : forall r, drop_while (upto (tail_kind array)) (l ++ r) = drop_while (upto (tail_kind array)) r).
  { intros r. clear - L5. induction L5 as [|t l [_ HC] _ IH]; [reflexivity|]. cbn [app drop_while]. unfold upto at 1. destruct HC as [E|E]; rewrite E; destruct array; exact IH. }
  rewrite ED. assert (E2 : drop_while (upto (tail_kind array)) (TToken (head_kind array) wo :: TNode KEYS kts :: TToken (tail_kind array) wc :: tr ++ body) = TToken (tail_kind array) wc :: tr ++ body) by (destruct array; reflexivity).
  rewrite E2. assert (E3 : forall r, drop_while (fun c => upto LINE_BREAK c && upto DANGLING_COMMENT_GROUP c) (TToken (tail_kind array) wc :: r) = drop_while (fun c => upto LINE_BREAK c && upto DANGLING_COMMENT_GROUP c) r) by (intros r; destruct array; reflexivity). rewrite E3.
  assert (E4 : drop_while (fun c => upto LINE_BREAK c && upto DANGLING_COMMENT_GROUP c) body = body) by (destruct body as [|[k cs|k w] body]; [reflexivity|contradiction|]; cbn in HS; destruct k; try contradiction; reflexivity).
  unfold sh_trail in HT. destruct tc; subst tr; cbn [app]; exact E4.
Qed.

Lemma statement_pairs Es : Forall (shape after_pair) Es -> (Forall (statement v) Es <-> Forall (element v true) Es).
Proof.
  intros HS. rewrite !Forall_forall in *. split; intros H E HE; [|apply element_statement; auto]. destruct (H E HE) as [HX HN]. destruct (pair_statement _ (HS E HE)) as [_ (k & r & -> & HK)].
  remember (k :: r) as X eqn:EX. destruct HX as [|E0 H0|Ks HKs|Ks HKs]; [contradiction|exact H0|injection EX as <- _; discriminate..].
Qed.
Lemma sound_statement b : sound (after_item true) b -> sound after_statement b.
Proof. intros [S1 S2 S3 S4]. split; auto. eapply Forall_impl; [|exact S1]. intros E HE. apply (pair_statement _ HE). Qed.
Lemma table_ok (array : bool) l lead wo kts ks wc tr tc body gs m : sh_lead l lead -> sh_keys kts ks -> sh_trail tr tc -> starts_line body -> sh_body KEY_VALUE_GROUP true 0 body gs m ->
  let t := TNode (table_kind array) (l ++ TToken (head_kind array) wo :: TNode KEYS kts :: TToken (tail_kind array) wc :: tr ++ body) in
  good (tkinds t) -> exists b, kinds_of b = tkinds t /\ (forall fuel, height t <= fuel -> (ttable fuel v t = [] <-> no_commas b /\ Forall (statement v) (items b))) /\ sound after_statement b /\ (line_tree t -> parted (fst b)).
Proof.
  intros HL HK HT HS HB t HG. destruct (lead_kinds _ _ HL) as (L1 & _). destruct (trail_kinds _ _ HT) as (T1 & T2 & _). pose proof (keys_kinds _ _ HK) as HKK.
  assert (EK : tkinds t = lkinds l ++ (head_kind array :: lkinds kts ++ [tail_kind array]) ++ lkinds tr ++ lkinds body).
  { unfold t. cbn [tkinds]. change (flat_map tkinds ?x) with (lkinds x). rewrite lkinds_app. f_equal. change (TToken (head_kind array) wo :: TNode KEYS kts :: TToken (tail_kind array) wc :: tr ++ body) with ([TToken (head_kind array) wo] ++ [TNode KEYS kts] ++ [TToken (tail_kind array) wc] ++ tr ++ body). rewrite !lkinds_app, group_kinds. cbn [lkinds flat_map tkinds app]. rewrite <- app_assoc. reflexivity. }
  assert (HGB : good (lkinds body)) by (rewrite EK in HG; do 3 apply good_r in HG; exact HG).
  assert (HGK : group_ok KEY_VALUE_GROUP true) by (split; [discriminate|split; [discriminate|auto]]).
  destruct (body_desc _ _ _ _ _ _ HB HGK HGB) as (b & [W1 W2 W3 W4 W5 W6 W7 W8]). set (H0 := ([Slot (lkinds l) (head_kind array :: lkinds kts ++ [tail_kind array]) (lkinds tr) false], []) : LintGrammarFacts.body).
  assert (HST : statement v (head_kind array :: lkinds kts ++ [tail_kind array])) by (split; [destruct array; constructor; exact HKK|discriminate]).
  assert (SH : sound after_statement H0).
  { split; unfold H0, items, gaps_of; cbn [fst snd map flat_map s_before s_item s_behind app].
    - constructor; [apply (statement_shape v); exact HST|constructor].
    - rewrite !app_nil_r. apply Forall_app. auto.
    - constructor; [|constructor]. intros _. exact T1.
    - constructor; [|constructor]. exists (head_kind array :: lkinds kts), (tail_kind array). split; [reflexivity|destruct array; discriminate]. }
  assert (EH : kinds_of H0 = lkinds l ++ (head_kind array :: lkinds kts ++ [tail_kind array]) ++ lkinds tr) by (unfold H0, kinds_of, slot_kinds; cbn [fst snd flat_map s_before s_item s_behind s_comma comma_if]; rewrite !app_nil_r; reflexivity).
  exists (cat H0 b). split; [rewrite cat_kinds, EH, W1, EK, <- !app_assoc; reflexivity|]. split; [|split; [apply cat_sound; [exact SH|apply sound_statement; exact W5]|]].
  - intros fuel HF. assert (HFB : Forall (fun t => height t <= fuel) body).
    { apply Forall_forall. intros x Hx. destruct fuel as [|n]; [exfalso; exact (height_none _ HF)|]. assert (HH : height x <= n) by (apply (height_child _ _ _ _ HF); apply in_or_app; right; do 3 right; apply in_or_app; right; exact Hx). lia. }
    specialize (W4 fuel HFB). unfold ttable, ttrailing, tlines. unfold t. rewrite (header_body array l lead wo kts wc tr tc body HL HT HS).
    rewrite no_commas_cat, cat_items, Forall_app, (statement_pairs (items b)) by apply W5. rewrite <- W4, <- W6.
    change (flat_map (fun g : tree => flat_map (tkey_value (tlint fuel v)) (nodes (is_kind KEY_VALUE) (kids g)))) with (flat_map (fun g : tree => sub v true fuel (kids g))).
    assert (HX1 : no_commas H0) by (repeat constructor). assert (HX2 : Forall (statement v) (items H0)) by (constructor; [exact HST|constructor]).
    split; [intros H; apply app_eq_nil in H as [H1 H2]; auto|intros ([_ H1] & _ & H2)]. apply (f_equal2 (@app rule_kind) H1 H2).
  - intros HLT. assert (HLB : lined body /\ Forall line_tree body).
    { remember t as t' eqn:ET. destruct HLT as [w|ds|its Hi|array0 l0 wo0 kts0 wc0 tr0 tc0 body0 H1 H2 H3 H4 H5]; try discriminate; try (destruct array; discriminate).
      assert (array0 = array) as -> by (destruct array0, array; try reflexivity; discriminate).
      pose proof (header_body array l0 (comments_of l0) wo0 kts0 wc0 tr0 tc0 body0 (conj H1 eq_refl) H2 H3) as E1. rewrite ET in E1. unfold t in E1. rewrite (header_body array l lead wo kts wc tr tc body HL HT HS) in E1. subst body0. auto. }
    destruct HLB as [B1 B2]. apply (cat_parted after_statement); [exact SH|apply sound_statement; exact W5|exact I|apply W7; auto|]. rewrite W1. destruct body as [|[k cs|k w] body]; [right; left; reflexivity|contradiction|]. cbn in HS. destruct k; try contradiction. right. right. right. exists (lkinds body). reflexivity.
Qed.
Lemma tables_desc n ts tabs : sh_tables n ts tabs -> good (lkinds ts) -> exists b, tabled ts b.
Proof.
  induction 1 as [n|n w es ts H IH|array n l lead wo kts ks wc tr tc body gs m es ts HL HK HT HS HB H IH]; intros HG.
  - exists ([], []). split; try reflexivity; try (intros; exact I); [|apply sound_nil; constructor]. intros fuel _. split; [intros _; split; constructor|reflexivity].
  - change (TToken LINE_BREAK w :: es) with ([TToken LINE_BREAK w] ++ es) in HG. rewrite lkinds_app in HG. destruct (IH (good_r _ _ HG)) as (b & [B1 B2 B3 B4 B5]). exists (cat ([], [LINE_BREAK]) b).
    assert (SN : sound after_statement ([], [LINE_BREAK])) by (apply sound_nil; constructor; [right; reflexivity|constructor]). split.
    + rewrite cat_kinds, B1. reflexivity.
    + intros fuel HF. inversion HF as [|? ? F1 F2]; subst. rewrite no_commas_cat, cat_items. cbn [items fst map app]. change (nodes is_table_or_array_of_table (TToken LINE_BREAK w :: es)) with (nodes is_table_or_array_of_table es). rewrite (B2 fuel F2). split; [intros [X Y]; split; [split; [constructor|exact X]|exact Y]|tauto].
    + apply cat_sound; auto.
    + intros HLN HLT. inversion HLT; subst. apply (cat_parted after_statement); auto; [exact I|apply B4; auto; eapply lined_tail; eauto|]. right. right. left. exists []. reflexivity.
    + exact B5.
  - set (t := TNode (table_kind array) (l ++ TToken (head_kind array) wo :: TNode KEYS kts :: TToken (tail_kind array) wc :: tr ++ body)) in *. change (t :: es) with ([t] ++ es) in HG. rewrite lkinds_app in HG. cbn [lkinds flat_map] in HG. rewrite app_nil_r in HG.
    destruct (table_ok array l lead wo kts ks wc tr tc body gs m HL HK HT HS HB (good_l _ _ HG)) as (a & A1 & A2 & A3 & A4). fold t in A1, A2, A4. destruct (IH (good_r _ _ HG)) as (b & [B1 B2 B3 B4 B5]). exists (cat a b).
    assert (EN : nodes is_table_or_array_of_table (t :: es) = t :: nodes is_table_or_array_of_table es) by (unfold nodes, t; cbn [filter tnode tkind_of andb]; destruct array; reflexivity). split.
    + rewrite cat_kinds, A1, B1. reflexivity.
    + intros fuel HF. inversion HF as [|? ? F1 F2]; subst. rewrite EN. cbn [flat_map]. rewrite no_commas_cat, cat_items, Forall_app. specialize (A2 fuel F1). specialize (B2 fuel F2).
      split; [intros X; apply app_eq_nil in X as [X Y]; apply A2 in X as [X1 X2]; apply B2 in Y as [Y1 Y2]; auto|intros [[X1 Y1] [X2 Y2]]]. rewrite (proj2 A2 (conj X1 X2)), (proj2 B2 (conj Y1 Y2)). reflexivity.
    + apply cat_sound; auto.
    + intros HLN HLT. inversion HLT as [|? ? T1 T2]; subst. apply (cat_parted after_statement); auto; [apply B4; auto; eapply lined_tail; eauto|]. rewrite A1, B1. specialize (HLN [t] es eq_refl). unfold junction in HLN. cbn [lkinds flat_map] in HLN. rewrite app_nil_r in HLN. exact HLN.
    + unfold nodes, t. cbn [filter tnode tkind_of andb]. destruct array; exact B5.
Qed.

(** * Documents *)
Lemma body_no_tables es : Forall (fun t => tkind_of t = LINE_BREAK \/ tkind_of t = DANGLING_COMMENT_GROUP \/ tkind_of t = KEY_VALUE_GROUP) es -> nodes is_table_or_array_of_table es = [].
Proof. induction 1 as [|t es H _ IH]; [reflexivity|]. unfold nodes. cbn [filter]. fold (nodes is_table_or_array_of_table es). rewrite IH. destruct H as [-> |[-> | ->]]; rewrite andb_false_r; reflexivity. Qed.
Lemma lined_left a b : lined (a ++ b) -> lined a.
Proof.
  intros H x y ->. destruct (H x (y ++ b)) as [E|[E|[E|E]]]; unfold junction; auto; [rewrite app_assoc; reflexivity|..]; rewrite lkinds_app in E.
  - apply app_eq_nil in E as [E _]. auto.
  - destruct (lkinds y) as [|k ks] eqn:EK; [auto|]. right. right. right. destruct E as (z & E). injection E as -> _. exists ks. reflexivity.
Qed.
Lemma lined_right a b : lined (a ++ b) -> lined b.
Proof. induction a as [|t a IH]; [auto|]. intros H. apply IH. eapply lined_tail. exact H. Qed.
Theorem root_iff cs d fuel : sh_doc (TNode ROOT cs) d -> lined cs -> Forall line_tree cs -> good (lkinds cs) -> height (TNode ROOT cs) <= fuel -> (troot fuel v (TNode ROOT cs) = [] <-> document v (lkinds cs)).
Proof.
  intros HD HLN HLT HG HF. inversion HD as [es gs n ts tables HB HT E1 E2]. subst cs d. rewrite lkinds_app in HG. assert (HGK : group_ok KEY_VALUE_GROUP true) by (split; [discriminate|split; [discriminate|auto]]).
  destruct (body_desc _ _ _ _ _ _ HB HGK (good_l _ _ HG)) as (a & [W1 W2 W3 W4 W5 W6 W7 W8]). destruct (tables_desc _ _ _ HT (good_r _ _ HG)) as (b & [B1 B2 B3 B4 B5]).
  assert (HFA : Forall (fun t => height t <= fuel) (es ++ ts)). { apply Forall_forall. intros x Hx. destruct fuel as [|k]; [exfalso; exact (height_none _ HF)|]. pose proof (height_child _ _ _ _ HF Hx). lia. }
  apply Forall_app in HFA as [F1 F2]. apply Forall_app in HLT as [T1 T2]. pose proof (sound_statement _ W5) as SA.
  assert (EK : kinds_of (cat a b) = lkinds (es ++ ts)) by (rewrite cat_kinds, W1, B1, lkinds_app; reflexivity).
  assert (SC : sound after_statement (cat a b)) by (apply cat_sound; auto).
  assert (HP : parted (fst (cat a b))). { apply (cat_parted after_statement); auto; [apply W7; auto; eapply lined_left; eauto|apply B4; auto; eapply lined_right; eauto|]. rewrite W1, B1. exact (HLN es ts eq_refl). }
  rewrite <- EK. assert (HDI : document v (kinds_of (cat a b)) <-> no_commas (cat a b) /\ Forall (statement v) (items (cat a b))).
  { destruct (cat a b) as [sl G] eqn:EC. destruct SC as [S1 S2 S3 S4]. apply document_iff; auto. rewrite EK, lkinds_app. apply HG. }
  rewrite HDI, no_commas_cat, cat_items, Forall_app, (statement_pairs (items a)) by apply W5. specialize (W4 fuel F1). specialize (B2 fuel F2). rewrite <- W4, <- W6.
  unfold troot, ttrailing, tlines, theader. cbn [tkind_of kids]. rewrite kind_eqb_refl, !nodes_app, B5, (body_no_tables es W8), app_nil_r. cbn [app].
  change (flat_map (fun g : tree => flat_map (tkey_value (tlint fuel v)) (nodes (is_kind KEY_VALUE) (kids g)))) with (flat_map (fun g : tree => sub v true fuel (kids g))).
  split.
  - intros H. apply app_eq_nil in H as [H1 H]. apply app_eq_nil in H as [H2 H3]. apply B2 in H3 as [H3 H4]. auto.
  - intros [[H1 H3] [H2 H4]]. apply (f_equal2 (@app rule_kind) H1). apply (f_equal2 (@app rule_kind) H2). apply B2. auto.
Qed.
End Version.

(** * From the tokens to the leaves *)
Definition calm (k : kind) : Prop := ~ lc k /\ k <> EQUAL.
Inductive same_kinds : list kind -> list kind -> Prop :=
| sk_nil : same_kinds [] []
| sk_same k a b : same_kinds a b -> same_kinds (k :: a) (k :: b)
| sk_other xs ys a b : xs <> [] -> ys <> [] -> Forall calm xs -> Forall calm ys -> same_kinds a b -> same_kinds (xs ++ a) (ys ++ b).
Lemma same_app a b c d : same_kinds a b -> same_kinds c d -> same_kinds (a ++ c) (b ++ d).
Proof. induction 1; intros HC; cbn [app]; auto; [constructor; auto|rewrite <- !app_assoc; constructor; auto]. Qed.
(** [closed] and [tied], from left to right *)
Fixpoint steps (K : list kind) : Prop :=
  match K with
  | k :: ((k' :: _) as r) => (k = COMMENT -> k' = LINE_BREAK) /\ (k = EQUAL -> ~ lc k') /\ steps r
  | _ => True
  end.
Lemma good_steps K : good K -> steps K.
Proof.
  induction K as [|k [|k' K] IH]; intros HG; [exact I|exact I|]. pose proof HG as [H1 H2]. split; [intros ->; apply (H1 [] k' K eq_refl)|]. split; [intros ->; apply (H2 [] k' K eq_refl)|]. apply IH. exact (good_r [k] _ HG).
Qed.
Lemma steps_tail k K : steps (k :: K) -> steps K.
Proof. destruct K; [intros; exact I|]. intros (_ & _ & H). exact H. Qed.
Lemma steps_good K : steps K -> good K.
Proof.
  intros H. split; intros a; revert K H; induction a as [|x a IH]; intros K H k b ->.
  - destruct H as [H _]. auto.
  - cbn [app] in H. apply steps_tail in H. eapply IH; eauto.
  - destruct H as (_ & H & _). auto.
  - cbn [app] in H. apply steps_tail in H. eapply IH; eauto.
Qed.
Lemma steps_calm ys K : Forall calm ys -> steps K -> steps (ys ++ K).
Proof.
  induction 1 as [|y ys [Y1 Y2] HF IH]; intros H; [exact H|]. cbn [app]. specialize (IH H). destruct (ys ++ K) as [|k r]; [exact I|]. split; [intros ->; exfalso; apply Y1; left; reflexivity|]. split; [congruence|exact IH].
Qed.
Lemma steps_same a b : same_kinds a b -> steps a -> steps b.
Proof.
  induction 1 as [|k a b H IH|xs ys a b X1 Y1 HX HY H IH]; intros HS; [exact I| |].
  - pose proof (steps_tail _ _ HS) as HT. specialize (IH HT). destruct H as [|k' a b H|xs ys a b X1 Y1 HX HY H]; [exact I| |].
    + destruct HS as (S1 & S2 & _). split; [exact S1|]. split; [exact S2|exact IH].
    + destruct xs as [|x xs]; [contradiction|]. destruct ys as [|y ys]; [contradiction|]. cbn [app] in *. destruct HS as (S1 & S2 & _). apply Forall_inv in HX as [X2 _]. apply Forall_inv in HY as [Y2 _].
      split; [intros E; specialize (S1 E); subst x; exfalso; apply X2; right; reflexivity|]. split; [intros _; exact Y2|exact IH].
  - apply steps_calm; [exact HY|]. apply IH. clear - HS. induction xs as [|x xs IHx]; [exact HS|]. apply IHx. cbn [app] in HS. eapply steps_tail; eauto.
Qed.
Ltac calm1 := split; [intros [X|X]; discriminate|discriminate].
Lemma shaped_same src tr ts cs : shaped src tr ts cs -> same_kinds (map tkind (sign ts)) (lkinds cs).
Proof.
  induction 1 as [|t tr ts cs HT H IH|k n grp tr ts cs HF HL HK H IH|k tr1 ts1 cs1 tr ts cs HT H1 IH1 H IH].
  - constructor.
  - cbn [sign filter]. rewrite HT. exact IH.
  - rewrite sign_app, (sign_all _ HF), map_app. change (lkinds (TToken k (wtexts src grp) :: cs)) with ([k] ++ lkinds cs).
    destruct HK as [t|t HR|t u K1 K2|t u K1 K2]; cbn [map app].
    + constructor. exact IH.
    + apply (sk_other [tkind t] [BARE_KEY]); auto; try discriminate; (constructor; [|constructor]); [destruct (tkind t); try discriminate; calm1|calm1].
    + rewrite K1, K2. apply (sk_other [BRACKET_START; BRACKET_START] [DOUBLE_BRACKET_START]); auto; try discriminate; repeat (constructor; [calm1|]); constructor.
    + rewrite K1, K2. apply (sk_other [BRACKET_END; BRACKET_END] [DOUBLE_BRACKET_END]); auto; try discriminate; repeat (constructor; [calm1|]); constructor.
  - rewrite sign_app, map_app. change (lkinds (TNode k cs1 :: cs)) with (lkinds cs1 ++ lkinds cs). apply same_app; auto.
Qed.
Lemma reads_same src c n : reads src c n -> same_kinds (map tkind (sign c)) (map tkind (sign n)).
Proof.
  induction 1 as [|t c n H IH|t u w x y z c n HK HS HU HV [K1 S1] [K2 S2] [K3 S3] H IH]; [constructor| |].
  - cbn [sign filter]. destruct (triv t); cbn [negb map]; [exact IH|]. constructor. exact IH.
  - assert (HX : forall k t, tkind t = k -> k <> WHITESPACE -> triv t = false) by (intros k t' <- HN; unfold triv, is_trivia; apply kind_eqb_neq; exact HN).
    cbn [sign filter]. rewrite (HX _ _ HK), (HX _ _ K1), (HX _ _ K2), (HX _ _ K3) by discriminate. cbn [negb map].
    rewrite HK, K1, K2, K3. apply (sk_other [FLOAT] [BARE_KEY; DOT; BARE_KEY]); try discriminate; [repeat (constructor; [calm1|]); constructor..|exact IH].
Qed.
Lemma sig_kinds ts : map fst (sig ts) = map tkind (sign ts).
Proof. induction ts as [|t ts IH]; [reflexivity|]. cbn [sig sign filter]. destruct (triv t); cbn [negb map fst]; [exact IH|]. f_equal. exact IH. Qed.

(** ** The tokens of a text that is read without errors *)
(** A sequence before which, and behind which, anything may stand but for a line break behind its comment *)
Definition free (K : list (kind * bool)) : Prop := tied (map fst K ++ [LINE_BREAK]).
Lemma free_app a b : free a -> free b -> free (a ++ b).
Proof.
  unfold free. intros HA HB x k y E. rewrite map_app, <- app_assoc in E. destruct (split_app _ _ _ _ E) as (l & [[E1 E2]|[E1 E2]]).
  - apply (HB l k y E2).
  - destruct l as [|q l]; [cbn [app] in E2; apply (HB [] k y); symmetry; exact E2|]. cbn [app] in E2. injection E2 as <- E2. destruct l as [|q l].
    + exfalso. apply (HA x LINE_BREAK []); [rewrite E1, <- app_assoc; reflexivity|right; reflexivity].
    + cbn [app] in E2. injection E2 as <- E2. apply (HA x k (l ++ [LINE_BREAK])). rewrite E1, <- app_assoc. reflexivity.
Qed.
Lemma free_none K : Forall (fun p => fst p <> EQUAL) K -> free K.
Proof.
  intros H x k y E. exfalso. assert (HI : In EQUAL (map fst K ++ [LINE_BREAK])) by (rewrite E; apply in_or_app; right; left; reflexivity). apply in_app_or in HI as [HI|[HI|[]]]; [|discriminate].
  apply in_map_iff in HI as (p & E2 & HP). rewrite Forall_forall in H. apply (H p HP E2).
Qed.
Lemma free_gaps G : gaps G -> free G.
Proof. intros H. apply gaps_lc in H. apply free_none. eapply Forall_impl; [|exact H]. intros [k j] HK E. cbn in *. subst k. discriminate. Qed.
Lemma free_tail T : atail T -> free T.
Proof. destruct 1; apply free_none; repeat constructor; discriminate. Qed.
Lemma free_comma C : acomma C -> free C.
Proof. destruct 1 as [|S j T HS HT]; [apply free_none; constructor|]. apply free_app; [apply free_gaps; apply soft_gaps; exact HS|]. apply (free_app [(COMMA, j)]); [apply free_none; repeat constructor; discriminate|apply free_tail; exact HT]. Qed.
Lemma free_keys Ks : akeys Ks -> free Ks.
Proof.
  intros H. apply free_none. assert (HK : forall k, key_first k = true -> k <> EQUAL) by (intros k HK ->; discriminate).
  induction H as [k j H|k j d K H HKs IH]; [constructor; [apply HK; exact H|constructor]|]. constructor; [apply HK; exact H|]. constructor; [discriminate|exact IH].
Qed.
Definition core_head (K : list (kind * bool)) : Prop := match K with p :: _ => ~ lc (fst p) | [] => False end.
Lemma acore_head n K : acore n K -> core_head K.
Proof. destruct 1 as [n k j HK|n table j T B j' HT HB H]; cbn; [|destruct table; intros [X|X]; discriminate]. apply literal_scalar in HK as [HK _]. apply scalar_plain. exact HK. Qed.
Fixpoint free_core n K (H : acore n K) {struct H} : free K
with free_item n table K (H : aitem n table K) {struct H} : free K
with free_body n table K (H : abody n table K) {struct H} : free K.
Proof.
  - destruct H as [n k j HK|n table j T B j' HT HB H].
    + apply free_none. constructor; [|constructor]. cbn. intros ->. discriminate.
    + apply (free_app [(open_kind table, j)]); [apply free_none; constructor; [destruct table; discriminate|constructor]|]. apply free_app; [apply free_tail; exact HT|]. apply free_app; [exact (free_body _ _ _ H)|apply free_none; constructor; [destruct table; discriminate|constructor]].
  - destruct H as [n K H|n Ks j K HKs H]; [exact (free_core _ _ H)|]. apply free_app; [apply free_keys; exact HKs|]. pose proof (free_core _ _ H) as HF. pose proof (acore_head _ _ H) as HH.
    destruct K as [|[k q] K]; [contradiction|]. unfold free in *. cbn [map fst app] in *. intros x k0 y E. destruct x as [|x0 x]; [injection E as <- _; exact HH|]. injection E as _ E. apply (HF x k0 y E).
  - destruct H as [n table G HG|n table G I0 T C B HG HI HT HC H1 H2 H]; [apply free_gaps; exact HG|].
    apply free_app; [apply free_gaps; exact HG|]. apply free_app; [exact (free_item _ _ _ HI)|]. apply free_app; [apply free_tail; exact HT|]. apply free_app; [apply free_comma; exact HC|exact (free_body _ _ _ H)].
Qed.
Lemma free_lines last B : alines_to last B -> free B.
Proof.
  induction 1 as [G HG|G j HL HG|G I0 T C B HG HI HT HC H1 H2 H IH]; [apply free_gaps; exact HG| |].
  - apply free_app; [apply free_gaps; exact HG|apply free_none; repeat constructor; discriminate].
  - apply free_app; [apply free_gaps; exact HG|]. apply free_app; [eapply free_item; eauto|]. apply free_app; [apply free_tail; exact HT|]. apply free_app; [apply free_comma; exact HC|exact IH].
Qed.
Lemma free_sections S : asections S -> free S.
Proof.
  induction 1 as [|array j Ks j' T B S HK HT HH HB H IH|array j Ks j' T B HK HT HH HB]; [apply free_none; constructor|..];
    (apply free_app; [apply free_none; destruct array; repeat constructor; discriminate|]; apply free_app; [apply free_keys; exact HK|]; apply free_app; [apply free_none; destruct array; repeat constructor; discriminate|]; apply free_app; [apply free_tail; exact HT|]).
  - apply free_app; [eapply free_lines; eauto|exact IH].
  - eapply free_lines; eauto.
Qed.
Theorem leaves_good seg stack source t l c x ws eof new tr ts : seg [] = [] -> parse seg stack source = Done (t, []) -> lex seg source = Some l -> errors l = [] ->
  tokens l = x ++ ws ++ [eof] -> forallb triv ws = true -> tkind eof = EOF -> reads source x new -> shaped source tr ts c -> significant ts = significant new -> good (lkinds c).
Proof.
  intros Hs HP HL HE HT HW HF HR HS HG. destruct (lex_tame seg source l Hs HL HE) as (HTM & _ & _).
  assert (HSW : sign ws = []) by (apply significant_triv; exact HW).
  assert (HX : forall u, In u (x ++ ws) -> tkind u <> EOF).
  { intros u Hu HK. apply in_split in Hu as (a & b & EU). destruct HTM as [_ H2 _]. specialize (H2 a u (b ++ [eof])). rewrite HT, app_assoc, EU, <- app_assoc in H2. specialize (H2 eq_refl HK). destruct b; discriminate. }
  assert (HC : LintGrammarFacts.closed (map tkind (sign (x ++ ws)))).
  { assert (HC : forall a t u b, x ++ ws = a ++ t :: u :: b -> tkind t = COMMENT -> tkind u = LINE_BREAK).
    { intros a u w b E2 HK. destruct (tame_comment _ HTM a u w (b ++ [eof])) as [H|H]; auto; [rewrite HT, app_assoc, E2, <- app_assoc; reflexivity|]. exfalso. apply (HX w); [rewrite E2; apply in_or_app; right; right; left; reflexivity|exact H]. }
    clear - HC. induction (x ++ ws) as [|t y IH]; intros a k b E; [destruct a; discriminate|]. assert (IH' : LintGrammarFacts.closed (map tkind (sign y))) by (refine (IH _); intros a0 t0 u0 b0 E0; apply (HC (t :: a0) t0 u0 b0); rewrite E0; reflexivity).
    cbn [sign filter] in E. destruct (triv t); cbn [negb map] in E; [apply (IH' a k b E)|]. destruct a as [|z a]; cbn [app] in E; [|injection E as _ E; apply (IH' a k b E)].
    injection E as HK E. destruct y as [|u y]; [discriminate|]. pose proof (HC [] t u y eq_refl HK) as HU. cbn [sign filter] in E. assert (HTU : triv u = false) by (unfold triv; rewrite HU; reflexivity). rewrite HTU in E. cbn [negb map] in E. injection E as E _. congruence. }
  rewrite sign_app, HSW, app_nil_r in HC.
  assert (HTD : tied (map tkind (sign x))).
  { destruct (C54_read_grammatical seg stack source t Hs HP) as (l' & B & S & j & HL' & _ & EK & HBS). assert (l' = l) by congruence. subst l'.
    assert (HFR : free (B ++ S)) by (destruct HBS as [[H1 H2]|[H1 ->]]; apply free_app; eauto using free_lines, free_sections; apply free_none; constructor).
    apply (f_equal (map fst)) in EK. rewrite sig_kinds, HT, !sign_app, HSW, !map_app in EK. cbn [app] in EK. assert (HTE : triv eof = false) by (unfold triv; rewrite HF; reflexivity). cbn [sign filter] in EK. rewrite HTE in EK. cbn [negb map fst] in EK.
    rewrite (app_assoc (map fst B)), app_assoc, app_nil_r in EK. apply app_inj_tail in EK as [EK _]. rewrite EK, <- map_app. exact (tied_l _ _ HFR). }
  apply steps_good. eapply steps_same; [eapply shaped_same; exact HS|]. change (sign ts) with (significant ts). rewrite HG. change (significant new) with (sign new). eapply steps_same; [eapply reads_same; exact HR|]. apply good_steps. split; auto.
Qed.

(** * Blanks *)
Fixpoint strip_kinds t : lkinds (strip t) = token_kinds t.
Proof.
  destruct t as [k cs|k w].
  - cbn [strip token_kinds]. rewrite group_kinds. induction cs as [|c cs IH]; [reflexivity|]. cbn [flat_map]. rewrite lkinds_app, strip_kinds, IH. reflexivity.
  - cbn [strip token_kinds]. destruct k; reflexivity.
Qed.
Lemma height_node k l n : Forall (fun u => height u <= n) l -> height (TNode k l) <= S n.
Proof. intros H. cbn [height]. apply le_n_S. induction H as [|u l HU _ IH]; [apply Nat.le_0_l|]. apply Nat.max_lub; [exact HU|exact IH]. Qed.
Lemma strip_height_le n : forall t, height t <= n -> Forall (fun u => height u <= n) (strip t).
Proof.
  induction n as [|n IH]; intros t HT; [exfalso; exact (height_none _ HT)|]. destruct t as [k cs|k w].
  - cbn [strip]. constructor; [|constructor]. apply height_node. apply Forall_forall. intros u HU. apply in_flat_map in HU as (c & HC & HU). pose proof (IH c (height_child _ _ _ _ HT HC)) as HF. rewrite Forall_forall in HF. auto.
  - cbn [strip]. destruct (is_trivia k); [constructor|]. constructor; [exact HT|constructor].
Qed.
Lemma strip_height t : Forall (fun u => height u <= height t) (strip t).
Proof. apply strip_height_le. apply le_n. Qed.
(** The rules report nothing exactly when the text is one of the grammar. *)
Theorem lint_exact v seg stack source t : seg [] = [] -> parse seg stack source = Done (t, []) -> (lint_tree v t = [] <-> document v (token_kinds t)).
Proof.
  intros Hs HP. destruct (parse_shape seg stack source t Hs HP) as (l & c & ws & d & HL & HE & -> & HGP & HC & HD & HLN & HLT & HX & x & ws' & eof & new & tr & ts & T1 & T2 & T3 & T4 & T5 & T6).
  pose proof (leaves_good seg stack source _ l (strips c) x ws' eof new tr ts Hs HP HL HE T1 T2 T3 T4 T5 T6) as HG.
  assert (ES : strip (TNode ROOT (c ++ ws)) = [TNode ROOT (strips c)]) by (cbn [strip]; change (flat_map strip ?y) with (strips y); rewrite strips_app, (gap_strips ws HGP), app_nil_r; reflexivity).
  rewrite <- strip_kinds, ES, group_kinds, <- (root_iff v (strips c) d (height (TNode ROOT (c ++ ws))) HD HLN HLT HG).
  - rewrite <- (lint_strip v _ _ ES). split; [intros ->; reflexivity|]. destruct (lint_tree v (TNode ROOT (c ++ ws))); [reflexivity|discriminate].
  - pose proof (strip_height (TNode ROOT (c ++ ws))) as HH. rewrite ES in HH. apply Forall_inv in HH. exact HH.
Qed.
