(** What the walk collects is what is in the tree. *)
From Coq Require Import String Ascii List NArith Bool Arith Lia.
From Verif Require Import Base SyntaxKind TextModel LexerModel LexerSpec ParserModel ParserBuild TomlTextModel AstModel FormatterModel FormatterLayout FormatterSpec ParserShape ParserTree
  ViewShape ViewContent HighlightModel HighlightSpec HighlightProofs.
Import ListNotations.
Open Scope N_scope.
Open Scope list_scope.

(** * Tables and the document *)
Lemma seen_table fuel b e t : ok (it e) -> is_node e = true -> is_table_or_array_of_table (ekind_of e) = true -> view_table fuel (b, e) = Some t -> map seen (mark_table fuel e) = vtable false t.
Proof.
  intros HO HN HK H. unfold view_table in H. destruct (keys_child e) as [ks|] eqn:EK; [|discriminate]. destruct (view_keys ks) as [ks'|] eqn:EKS; [|discriminate].
  destruct (view_groups _ _ _) as [gs|] eqn:EG; [|discriminate]. injection H as <-.
  assert (HT : (exists x, token (if has_kind ARRAY_OF_TABLE e then DOUBLE_BRACKET_START else BRACKET_START) e = Some x /\ seen (OperatorType, x) = see OperatorType (if has_kind ARRAY_OF_TABLE e then DOUBLE_BRACKET_START else BRACKET_START) []) /\
               (exists x, token (table_close e) e = Some x /\ seen (OperatorType, x) = see OperatorType (table_close e) [])).
  { unfold table_close. destruct (node_it e HN) as (cs & EC). assert (HX : okn (ekind_of e) cs) by (rewrite EC in HO; inversion HO; assumption).
    unfold has_kind. destruct (ekind_of e) eqn:EKD; try discriminate HK; cbn [okn] in HX; destruct HX as [X1 X2]; cbn [kind_eqb]; split; apply has_token; eauto. }
  destruct HT as [(x & EX & SX) (y & EY & SY)]. unfold mark_table, vtable. destruct (child_node _ _ _ HO EK) as (K1 & K2 & K3). rewrite EK, EX, EY. cbn [mark_some t_lead t_array t_keys t_tc t_groups]. rewrite !map_app, seen_leading, (seen_keys _ _ _ K1 K2 K3 EKS), seen_opening. cbn [map]. rewrite SX, SY.
  do 4 f_equal. f_equal. rewrite groups_all by reflexivity. rewrite <- map_header. apply (seen_groups _ _ _ _ _ _ _ EG). intros z its HZ HN2 HC HI. rewrite map_header in HZ. apply header_sub in HZ. eapply seen_lines; eauto using ok_kids. intros; eapply seen_value; eauto.
Qed.
Lemma seen_tables fuel es : forall ts, opt_all (view_table fuel) es = Some ts -> (forall p, In p es -> ok (it (snd p)) /\ is_node (snd p) = true /\ is_table_or_array_of_table (ekind_of (snd p)) = true) ->
  map seen (flat_map (mark_table fuel) (map snd es)) = flat_map (vtable false) ts.
Proof.
  induction es as [|[b e] es IH]; intros ts H HI; [injection H as <-; reflexivity|]. rewrite opt_all_cons in H. destruct (view_table fuel (b, e)) as [t|] eqn:ET; [|discriminate]. destruct (opt_all _ es) as [ts'|]; [|discriminate]. injection H as <-.
  cbn [map snd flat_map]. rewrite map_app. f_equal; [|apply IH; auto; intros; apply HI; right; assumption]. destruct (HI (b, e) (or_introl eq_refl)) as (A1 & A2 & A3). eapply seen_table; eauto.
Qed.
Lemma map_filter_snd (f : el -> bool) (l : list (N * el)) : map snd (filter (fun p : N * el => f (snd p)) l) = filter f (map snd l).
Proof. induction l as [|[b e] l IH]; [reflexivity|]. cbn [filter map snd]. destruct (f e); cbn [map snd]; rewrite IH; reflexivity. Qed.
Lemma filter_two {A} (f g : A -> bool) l : filter f (filter g l) = filter (fun x => g x && f x) l.
Proof. induction l as [|x l IH]; [reflexivity|]. cbn [filter]. destruct (g x); cbn [andb filter]; rewrite ?IH; reflexivity. Qed.
Lemma seen_root fuel e d : ok (it e) -> view_root fuel e = Some d -> map seen (mark_root fuel e) = vdoc false d.
Proof.
  intros HO H. unfold view_root in H. destruct (view_groups _ _ _) as [gs|] eqn:EG; [|discriminate]. destruct (opt_all _ _) as [ts|] eqn:ET; [|discriminate]. injection H as <-.
  unfold mark_root, vdoc. cbn [d_groups d_tables]. rewrite map_app. f_equal.
  - rewrite groups_all by reflexivity. rewrite <- (map_blanks (children_with_tokens e) 0). apply (seen_groups _ _ _ _ _ _ _ EG). intros z its HZ HN2 HC HI. rewrite map_blanks in HZ. eapply seen_lines; eauto using ok_kids. intros; eapply seen_value; eauto.
  - unfold children_of, children. rewrite filter_two. rewrite <- (map_blanks (children_with_tokens e) 0). rewrite <- map_filter_snd. apply seen_tables; [exact ET|].
    intros p HP. apply filter_In in HP as [HP HK]. apply andb_true_iff in HK as [HK1 HK2]. split; [|split; assumption]. apply (ok_kids e HO). rewrite <- (map_blanks (children_with_tokens e) 0). apply in_map. exact HP.
Qed.

(** * The tokens are there *)
Lemma strip_token c k w : In (TToken k w) (strip c) -> c = TToken k w.
Proof. destruct c as [k' cs|k' w']; cbn [strip]; [intros [H|[]]; discriminate|]. destruct (is_trivia k'); [intros []|intros [H|[]]; exact H]. Qed.
Lemma strips_has k cs : has k (strips cs) -> has k cs.
Proof. intros (w & H). exists w. apply in_flat_map in H as (c & HC & H). apply strip_token in H. subst c. exact HC. Qed.
Lemma strips_none cs : Forall (fun c => tkind_of c <> KEY_VALUE) (strips cs) -> Forall (fun c => tkind_of c <> KEY_VALUE) cs.
Proof.
  intros H. rewrite Forall_forall in *. intros c HC HK. apply (H (match c with TNode k x => TNode k (strips x) | _ => c end)).
  - apply in_flat_map. exists c. split; [exact HC|]. destruct c as [k x|k w]; cbn [strip tkind_of] in *; [left; reflexivity|]. subst k. left. reflexivity.
  - destruct c; exact HK.
Qed.
Fixpoint solid_strip t : flat_map solid_text (strip t) = solid_text t.
Proof.
  destruct t as [k cs|k w].
  - cbn [strip flat_map solid_text]. rewrite app_nil_r. induction cs as [|c cs IH]; [reflexivity|]. cbn [flat_map]. rewrite flat_map_app, solid_strip, IH. reflexivity.
  - cbn [strip]. destruct k; cbn; rewrite ?app_nil_r; reflexivity.
Qed.
Lemma solid_strips cs : flat_map solid_text (strips cs) = flat_map solid_text cs.
Proof. unfold strips. induction cs as [|c cs IH]; [reflexivity|]. cbn [flat_map]. rewrite flat_map_app, solid_strip, IH. reflexivity. Qed.
Lemma strips_in k w cs : is_trivia k = false -> In (TToken k w) cs -> In (TToken k w) (strips cs).
Proof. intros HK H. apply in_flat_map. exists (TToken k w). split; [exact H|]. cbn [strip]. rewrite HK. left. reflexivity. Qed.
Lemma strips_keys cs : okn KEYS (strips cs) -> okn KEYS cs.
Proof.
  cbn [okn]. intros H. rewrite Forall_forall in *. intros c HC k x -> HK w HW. rewrite <- solid_strips. apply (H (TNode k (strips x))) with (k := k); auto.
  - apply in_flat_map. exists (TNode k x). split; [exact HC|left; reflexivity].
  - apply strips_in; [destruct k; try discriminate HK; reflexivity|exact HW].
Qed.
Fixpoint ok_strip t : Forall ok (strip t) -> ok t.
Proof.
  destruct t as [k cs|k w]; intros H; [|constructor]. cbn [strip] in H. apply Forall_inv in H. inversion H as [|k' cs' HN HF]; subst. constructor.
  - change (flat_map strip cs) with (strips cs) in HN. destruct k; try exact HN; try (apply strips_keys; exact HN); cbn [okn] in *; intuition auto using strips_has, strips_none.
  - clear HN H. induction cs as [|c cs IH]; [constructor|]. cbn [flat_map] in HF. apply Forall_app in HF as [H1 H2]. constructor; [apply ok_strip; exact H1|apply IH; exact H2].
Qed.
Lemma ok_flat cs : forallb flat_tree cs = true -> Forall ok cs.
Proof. induction cs as [|[k x|k w] cs IH]; cbn [forallb flat_tree]; intros H; try discriminate; constructor; [constructor|apply IH; exact H]. Qed.
Lemma lead_ok l lead : sh_lead l lead -> Forall ok l.
Proof. intros [H _]. induction H as [|t l (w & [-> | ->]) H IH]; constructor; auto; constructor. Qed.
Lemma trail_ok tr tc : sh_trail tr tc -> Forall ok tr.
Proof. destruct tc; intros ->; repeat constructor. Qed.
Lemma keys_ok ts ks : sh_keys ts ks -> Forall ok ts.
Proof.
  assert (HX : forall t k, sh_key t k -> ok t) by (intros t k [k0 w Hk]; constructor; [destruct k0; try discriminate; exact I|repeat constructor]).
  assert (HD : forall d, sh_dot d -> ok d) by (intros d [w|w]; repeat constructor).
  induction 1 as [t k H|t k d ts ks H HDD H2 IH]; constructor; eauto.
Qed.
Lemma keys_okn ts ks : sh_keys ts ks -> okn KEYS ts.
Proof.
  assert (HX : forall t k, sh_key t k -> forall k x, t = TNode k x -> is_key k = true -> forall w, In (TToken k w) x -> flat_map solid_text x = w).
  { intros t k [k0 w Hk] k1 x E HK w' HW. injection E as <- <-. destruct HW as [HW|[]]. injection HW as ->. destruct k0; try discriminate Hk; apply app_nil_r. }
  assert (HD : forall d, sh_dot d -> forall k x, d = TNode k x -> is_key k = true -> forall w, In (TToken k w) x -> flat_map solid_text x = w) by (intros d [w|w] k x E HK; [discriminate|injection E as <- _; discriminate]).
  cbn [okn]. induction 1 as [t k H|t k d ts ks H HDD H2 IH]; constructor; eauto.
Qed.
Lemma comma_ok cs c : sh_comma cs c -> Forall ok cs.
Proof. intros [|l lead w tr tc HL HT]; constructor; [|constructor]. constructor; [exact I|]. apply Forall_app. split; [eapply lead_ok; eauto|]. constructor; [constructor|eapply trail_ok; eauto]. Qed.
Lemma shapes_ok :
  (forall t v, sh_value t v -> ok t /\ tkind_of t <> KEY_VALUE) /\
  (forall table cs i, sh_item table cs i -> Forall ok cs /\ (table = false -> Forall (fun c => tkind_of c <> KEY_VALUE) cs)) /\
  (forall table cs is, sh_items table cs is -> Forall ok cs /\ (table = false -> Forall (fun c => tkind_of c <> KEY_VALUE) cs)) /\
  (forall gk table n es gs m, sh_body gk table n es gs m -> (if table then gk = KEY_VALUE_GROUP \/ gk = KEY_VALUE_WITH_COMMA_GROUP else gk = VALUE_WITH_COMMA_GROUP) -> Forall ok es).
Proof.
  apply sh_ind.
  - intros l lead k w tr tc HL HK HT. split; [|destruct k; try discriminate]. constructor; [destruct k; try discriminate; exact I|]. apply Forall_app. split; [eapply lead_ok; eauto|]. constructor; [constructor|eapply trail_ok; eauto].
  - intros table l lead wo otr otc es gs wc tr tc n HL HO HB IH HT. split; [|destruct table; discriminate]. constructor; [destruct table; exact I|].
    apply Forall_app. split; [eapply lead_ok; eauto|]. constructor; [constructor|]. apply Forall_app. split; [eapply trail_ok; eauto|]. apply Forall_app. split; [apply IH; destruct table; cbn; auto|]. constructor; [constructor|eapply trail_ok; eauto].
  - intros t v cs c HV [I1 I2] HC. split; [constructor; [exact I1|eapply comma_ok; eauto]|]. intros _. constructor; [exact I2|]. destruct HC; repeat constructor. discriminate.
  - intros l lead kts ks raw we t v cs c HL HK HV [I1 I2] HE HC. split; [|discriminate]. constructor; [|eapply comma_ok; eauto]. constructor.
    + exists we. apply in_or_app. right. right. left. reflexivity.
    + apply Forall_app. split; [eapply lead_ok; eauto|]. constructor; [constructor; [eapply keys_okn; eauto|eapply keys_ok; eauto]|]. constructor; [constructor|]. constructor; [exact I1|constructor].
  - split; constructor.
  - intros table a i b is H1 [I1 I2] H2 [J1 J2]. split; [apply Forall_app; auto|]. intros E. apply Forall_app. auto.
  - constructor.
  - intros gk table n w es gs m HB IH HG. constructor; [constructor|auto].
  - intros gk table n ds cs es gs m HL HN HB IH HG. constructor; [|auto]. constructor; [exact I|eapply lead_ok; eauto].
  - intros gk table n its is es gs m HI [I1 I2] HN HB IH HG. constructor; [|auto]. constructor; [|exact I1]. destruct table; [destruct HG as [-> | ->]; exact I|]. subst gk. apply I2. reflexivity.
Qed.
Lemma tables_ok n es ts : sh_tables n es ts -> Forall ok es.
Proof.
  induction 1 as [n|n w es ts H IH|array n l lead wo kts ks wc tr tc body gs m es ts HL HK HT HS HB H IH]; [constructor|constructor; [constructor|exact IH]|]. constructor; [|exact IH]. constructor.
  - assert (HA : has (head_kind array) (l ++ TToken (head_kind array) wo :: TNode KEYS kts :: TToken (tail_kind array) wc :: tr ++ body)) by (exists wo; apply in_or_app; right; left; reflexivity).
    assert (HZ : has (tail_kind array) (l ++ TToken (head_kind array) wo :: TNode KEYS kts :: TToken (tail_kind array) wc :: tr ++ body)) by (exists wc; apply in_or_app; right; right; right; left; reflexivity).
    destruct array; split; assumption.
  - apply Forall_app. split; [eapply lead_ok; eauto|]. constructor; [constructor|]. constructor; [constructor; [eapply keys_okn; eauto|eapply keys_ok; eauto]|]. constructor; [constructor|]. apply Forall_app. split; [eapply trail_ok; eauto|]. apply (proj2 (proj2 (proj2 shapes_ok)) _ _ _ _ _ _ HB). left. reflexivity.
Qed.

(** * What is in the tree *)
Notation many b w cs := (flat_map (sights b w) cs).
Lemma sights_node b w k cs : k <> KEY_VALUE_GROUP -> sights b w (TNode k cs) = many b (enter w k) cs.
Proof. intros H. cbn [sights]. destruct k; try reflexivity. contradiction. Qed.
Definition line_sights (b : bool) (c : tree) : list sight := match c with TNode COMMA _ => if b then sights b Elsewhere c else [] | _ => sights b Elsewhere c end.
Lemma sights_lines b w cs : w = Elsewhere \/ w = InHeader -> sights b w (TNode KEY_VALUE_GROUP cs) = flat_map (line_sights b) cs.
Proof. intros [-> | ->]; reflexivity. Qed.
Lemma lead_sights b w l lead : sh_lead l lead -> many b w l = vcomments lead.
Proof. intros [H <-]. induction H as [|t l (s & [-> | ->]) H IH]; [reflexivity| |]; destruct w; cbn [flat_map sights highlighted app]; rewrite IH; reflexivity. Qed.
Lemma trail_sights b w l tc : sh_trail l tc -> many b w l = vcomment tc.
Proof. destruct tc; intros ->; reflexivity. Qed.
Lemma keys_sights b w ty ts ks : (w = InHeaderKeys /\ ty = TableType) \/ (w = InKeys /\ ty = KeyType) -> sh_keys ts ks -> many b w ts = vkeys ty ks.
Proof.
  intros HW. assert (HX : forall t k, sh_key t k -> sights b w t = [see ty (fst k) (snd k)]).
  { intros t k [k0 s Hk]. destruct HW as [[-> ->]|[-> ->]]; destruct k0; try discriminate; reflexivity. }
  assert (HD : forall d, sh_dot d -> sights b w d = []) by (intros d [s|s]; destruct HW as [[-> _]|[-> _]]; reflexivity).
  induction 1 as [t k H|t k d ts ks H HDD H2 IH]; cbn [flat_map vkeys map]; rewrite (HX _ _ H); [reflexivity|]. rewrite (HD _ HDD). cbn [app]. f_equal. exact IH.
Qed.
Lemma comma_sights b cs c : sh_comma cs c -> many b Elsewhere cs = vcomma c.
Proof.
  intros [|l lead w tr tc HL HT]; [reflexivity|]. cbn [flat_map]. rewrite sights_node by discriminate. cbn [enter]. rewrite flat_map_app. cbn [flat_map]. rewrite (lead_sights _ _ _ _ HL), (trail_sights _ _ _ _ HT), app_nil_r. reflexivity.
Qed.
Definition item_sights (b keep : bool) (c : tree) : list sight := match c with TNode COMMA _ => if keep then sights b Elsewhere c else [] | _ => sights b Elsewhere c end.
Lemma comma_items b keep cs c : sh_comma cs c -> flat_map (item_sights b keep) cs = if keep then vcomma c else [].
Proof.
  intros H. pose proof (comma_sights b _ _ H) as HS. destruct H as [|l lead w tr tc HL HT]; [destruct keep; reflexivity|]. cbn [flat_map item_sights] in *. destruct keep; [exact HS|reflexivity].
Qed.
Lemma not_comma b keep t : tkind_of t <> COMMA -> item_sights b keep t = sights b Elsewhere t.
Proof. destruct t as [k cs|k w]; [|reflexivity]. cbn [tkind_of item_sights]. destruct k; try reflexivity. contradiction. Qed.
Lemma value_kind t v : sh_value t v -> tkind_of t <> COMMA.
Proof. intros [l lead k w tr tc _ HK _|table l lead wo otr otc es gs wc tr tc n _ _ _ _]; [destruct k; try discriminate HK; discriminate|destruct table; discriminate]. Qed.
Definition keeps (b : bool) (gk : kind) : bool := match gk with KEY_VALUE_GROUP => b | _ => true end.
Lemma group_sights b gk w its : w = Elsewhere \/ w = InHeader -> gk = KEY_VALUE_GROUP \/ gk = KEY_VALUE_WITH_COMMA_GROUP \/ gk = VALUE_WITH_COMMA_GROUP ->
  sights b w (TNode gk its) = flat_map (item_sights b (keeps b gk)) its.
Proof.
  intros HW HG. destruct HG as [-> |HG]; [apply sights_lines; exact HW|]. rewrite sights_node by (destruct HG as [-> | ->]; discriminate).
  assert (HE : enter w gk = Elsewhere) by (destruct HW as [-> | ->]; destruct HG as [-> | ->]; reflexivity). rewrite HE. apply flat_map_ext. intros c. replace (keeps b gk) with true by (destruct HG as [-> | ->]; reflexivity). destruct c as [k x|k s]; [|reflexivity]. destruct k; reflexivity.
Qed.
Lemma shapes_sights b :
  (forall t v, sh_value t v -> sights b Elsewhere t = vvalue v) /\
  (forall table cs i, sh_item table cs i -> forall keep, flat_map (item_sights b keep) cs = vitem keep table vvalue i) /\
  (forall table cs is, sh_items table cs is -> forall keep, flat_map (item_sights b keep) cs = flat_map (vitem keep table vvalue) is) /\
  (forall gk table n es gs m, sh_body gk table n es gs m -> (gk = KEY_VALUE_GROUP \/ gk = KEY_VALUE_WITH_COMMA_GROUP \/ gk = VALUE_WITH_COMMA_GROUP) ->
     forall w, w = Elsewhere \/ w = InHeader -> many b w es = flat_map (vgroup (keeps b gk) table) gs).
Proof.
  apply sh_ind.
  - intros l lead k w tr tc HL HK HT. rewrite sights_node by (destruct k; try discriminate HK; discriminate). assert (HE : enter Elsewhere k = Elsewhere) by (destruct k; try discriminate HK; reflexivity). rewrite HE, flat_map_app. cbn [flat_map].
    rewrite (lead_sights _ _ _ _ HL), (trail_sights _ _ _ _ HT). cbn [vvalue]. do 2 f_equal. unfold vliteral. destruct k; try discriminate HK; reflexivity.
  - intros table l lead wo otr otc es gs wc tr tc n HL HO HB IH HT. rewrite sights_node by (destruct table; discriminate). assert (HE : enter Elsewhere (box_kind table) = Elsewhere) by (destruct table; reflexivity). rewrite HE, !flat_map_app. cbn [flat_map]. rewrite !flat_map_app. cbn [flat_map].
    rewrite (lead_sights _ _ _ _ HL), (trail_sights _ _ _ _ HT), (trail_sights _ _ _ _ HO), (IH ltac:(destruct table; cbn; auto) Elsewhere (or_introl eq_refl)), vvalue_box. destruct table; cbn [open_kind close_kind sights highlighted app group_kind keeps]; rewrite <- !app_assoc; reflexivity.
  - intros t v cs c HV IH HC keep. cbn [flat_map vitem vcomments map app]. rewrite (not_comma _ _ _ (value_kind _ _ HV)), IH, (comma_items _ _ _ _ HC). reflexivity.
  - intros l lead kts ks raw we t v cs c HL HK HV IH HE HC keep. cbn [flat_map vitem]. rewrite (not_comma b keep (TNode KEY_VALUE _)) by discriminate. rewrite sights_node by discriminate. cbn [enter]. rewrite flat_map_app. cbn [flat_map]. rewrite (sights_node _ _ KEYS) by discriminate. cbn [enter].
    rewrite (lead_sights _ _ _ _ HL), (keys_sights _ _ KeyType _ _ (or_intror (conj eq_refl eq_refl)) HK), IH, (comma_items _ _ _ _ HC), app_nil_r. cbn [sights highlighted]. rewrite <- !app_assoc. reflexivity.
  - reflexivity.
  - intros table a i c is H1 I1 H2 I2 keep. rewrite flat_map_app, I1, I2. reflexivity.
  - reflexivity.
  - intros gk table n w es gs m HB IH HG w' HW. cbn [flat_map]. rewrite (IH HG w' HW). destruct HW as [-> | ->]; reflexivity.
  - intros gk table n ds cs es gs m HL HN HB IH HG w HW. cbn [flat_map]. rewrite (IH HG w HW), sights_node by discriminate. rewrite (lead_sights _ _ _ _ HL). reflexivity.
  - intros gk table n its is es gs m HI I1 HN HB IH HG w HW. cbn [flat_map]. rewrite (IH HG w HW), (group_sights _ _ _ _ HW HG), I1. reflexivity.
Qed.
Lemma tables_sights b n es ts : sh_tables n es ts -> many b Elsewhere es = flat_map (vtable b) ts.
Proof.
  induction 1 as [n|n w es ts H IH|array n l lead wo kts ks wc tr tc body gs m es ts HL HK HT HS HB H IH]; [reflexivity|exact IH|].
  cbn [flat_map]. rewrite IH. f_equal. rewrite sights_node by (destruct array; discriminate). assert (HE : enter Elsewhere (table_kind array) = InHeader) by (destruct array; reflexivity). rewrite HE, flat_map_app. cbn [flat_map]. rewrite flat_map_app.
  rewrite (sights_node _ _ KEYS) by discriminate. cbn [enter]. rewrite (lead_sights _ _ _ _ HL), (keys_sights _ _ TableType _ _ (or_introl (conj eq_refl eq_refl)) HK), (trail_sights _ _ _ _ HT).
  rewrite (proj2 (proj2 (proj2 (shapes_sights b))) _ _ _ _ _ _ HB (or_introl eq_refl) InHeader (or_intror eq_refl)). unfold vtable. cbn [t_lead t_array t_keys t_tc t_groups keeps]. destruct array; reflexivity.
Qed.
Lemma doc_sights b t d : sh_doc t d -> sights b Elsewhere t = vdoc b d /\ ok t.
Proof.
  intros [es gs n ts tables HB HT]. split.
  - rewrite sights_node by discriminate. cbn [enter]. rewrite flat_map_app, (proj2 (proj2 (proj2 (shapes_sights b))) _ _ _ _ _ _ HB (or_introl eq_refl) Elsewhere (or_introl eq_refl)), (tables_sights _ _ _ _ HT). reflexivity.
  - constructor; [exact I|]. apply Forall_app. split; [apply (proj2 (proj2 (proj2 shapes_ok)) _ _ _ _ _ _ HB); left; reflexivity|eapply tables_ok; eauto].
Qed.
Fixpoint strip_sights b w t : many b w (strip t) = sights b w t.
Proof.
  destruct t as [k cs|k s].
  - cbn [strip flat_map]. rewrite app_nil_r. cbn [sights].
    set (F := fun c => match k with KEY_VALUE_GROUP => match c with TNode COMMA _ => if b then sights b (enter w k) c else [] | _ => sights b (enter w k) c end | _ => sights b (enter w k) c end).
    change (flat_map F (flat_map strip cs) = flat_map F cs).
    induction cs as [|c cs IH]; [reflexivity|]. cbn [flat_map]. rewrite flat_map_app, IH. f_equal. pose proof (strip_sights b (enter w k) c) as HS. unfold F. clear F IH.
    destruct c as [k' x|k' s]; cbn [strip] in *.
    + cbn [flat_map] in *. rewrite app_nil_r in *. rewrite HS. destruct k; reflexivity.
    + destruct (is_trivia k'); cbn [flat_map] in *; rewrite ?app_nil_r in *; destruct k; exact HS.
  - cbn [strip]. destruct (is_trivia k) eqn:E; [|apply app_nil_r]. apply kind_eqb_eq in E. subst k. destruct w; reflexivity.
Qed.
Theorem highlights_exact seg stack source t : seg [] = [] -> parse seg stack source = Done (t, []) -> map seen (highlights t) = sights false Elsewhere t.
Proof.
  intros Hs HP. destruct (parse_shape seg stack source t Hs HP) as (l & c & ws & d & HL & HE & -> & HGP & HC & HD & _). destruct (root_view c ws d HC HGP HD) as (d' & HV & HD').
  assert (ES : strip (TNode ROOT (c ++ ws)) = [TNode ROOT (strips c)]) by (cbn [strip]; change (flat_map strip ?y) with (strips y); rewrite strips_app, (gap_strips ws HGP), app_nil_r; reflexivity).
  destruct (doc_sights false _ _ HD') as [H1 H2]. rewrite <- strip_sights, ES. cbn [flat_map]. rewrite app_nil_r, H1. apply seen_root; [|exact HV]. cbn [it]. apply ok_strip. rewrite ES. constructor; [exact H2|constructor].
Qed.
Fixpoint no_commas_sights w t : no_line_commas t = true -> sights true w t = sights false w t.
Proof.
  destruct t as [k cs|k s]; intros H; [|reflexivity]. cbn [sights no_line_commas] in *.
  induction cs as [|c cs IH]; [reflexivity|]. cbn [forallb flat_map] in *. apply andb_true_iff in H as [H1 H2]. rewrite (IH H2). f_equal. clear IH H2.
  pose proof (no_commas_sights (enter w k) c) as HS. destruct k; try (apply HS; exact H1). destruct c as [k' x|k' s']; [|apply HS; exact H1]. destruct k'; try discriminate; apply HS; exact H1.
Qed.
