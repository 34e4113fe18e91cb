(** The content the formatter reads is the content of the text. *)
From Coq Require Import String Ascii List NArith Bool Arith Lia.
From Verif Require Import Base SyntaxKind TextModel LexerModel LexerSpec LexerProofs LexSound LexNumbers ParserModel ParserInv ParserBuild ParserProps
  AstModel FormatPieces FormatterModel FormatterLayout FormatterSpec FormatterProofs ParserYield ParserShape ParserTree ViewShape.
Import ListNotations.
Open Scope N_scope.
Open Scope list_scope.

Scheme sh_value_mut := Induction for sh_value Sort Prop
  with sh_item_mut := Induction for sh_item Sort Prop
  with sh_items_mut := Induction for sh_items Sort Prop
  with sh_body_mut := Induction for sh_body Sort Prop.
Combined Scheme sh_ind from sh_value_mut, sh_item_mut, sh_items_mut, sh_body_mut.

(** * The documents are well formed *)
Lemma keys_wf ts ks : sh_keys ts ks -> wf_keys ks = true.
Proof.
  unfold wf_keys. induction 1 as [t k H|t k d ts ks H HD HK IH]; destruct H as [k w Hk]; cbn [nonempty forallb fst andb]; rewrite Hk; [reflexivity|].
  apply andb_true_iff in IH as [_ IH]. exact IH.
Qed.
Definition wf_igroup (table : bool) (g : group (item fval)) : bool :=
  match g with
  | GD _ cs => nonempty cs
  | GI _ its => nonempty its && forallb (fun i => wf_item table i && wf_value (ival i)) its
  end.
Lemma wf_value_box table lead otc gs tc : wf_value (FBox table lead otc gs tc) = forallb (wf_igroup table) gs.
Proof.
  cbn [wf_value]. induction gs as [|g gs IH]; [reflexivity|]. cbn [forallb]. rewrite IH. f_equal. destruct g as [b cs|b its]; [reflexivity|].
  cbn [wf_igroup]. f_equal. clear. induction its as [|[l ks r v c] its IH]; [reflexivity|]. cbn [forallb ival]. rewrite IH. reflexivity.
Qed.
Lemma shapes_wf :
  (forall t v, sh_value t v -> wf_value v = true) /\
  (forall table cs i, sh_item table cs i -> wf_item table i && wf_value (ival i) = true) /\
  (forall table cs is, sh_items table cs is -> forallb (fun i => wf_item table i && wf_value (ival i)) is = true) /\
  (forall gk table n es gs m, sh_body gk table n es gs m -> forallb (wf_igroup table) gs = true).
Proof.
  apply sh_ind.
  - intros; assumption.
  - intros. rewrite wf_value_box. assumption.
  - intros t v cs c HV IH HC. cbn. exact IH.
  - intros l lead kts ks raw we t v cs c HL HK HV IH HE HC. cbn [wf_item ival]. rewrite (keys_wf _ _ HK), HE, IH. reflexivity.
  - reflexivity.
  - intros table a i b is H1 I1 H2 I2. cbn [forallb]. rewrite I1, I2. reflexivity.
  - reflexivity.
  - intros; assumption.
  - intros gk table n ds cs es gs m HL HN HB IH. cbn [forallb wf_igroup]. rewrite IH. destruct cs; [congruence|reflexivity].
  - intros gk table n its is es gs m HI I1 HN HB IH. cbn [forallb wf_igroup]. rewrite IH, I1. destruct is; [congruence|reflexivity].
Qed.
Lemma groups_wf gk n es gs m : sh_body gk true n es gs m -> forallb wf_group gs = true.
Proof. intros H. apply shapes_wf in H. rewrite <- H. clear. induction gs as [|g gs IH]; [reflexivity|]. cbn [forallb]. rewrite IH. destruct g; reflexivity. Qed.
Lemma tables_wf n es ts : sh_tables n es ts -> forallb wf_table ts = true.
Proof.
  induction 1 as [n|n w es ts H IH|array n l lead wo kts ks wc tr tc body gs m es ts HL HK HT HS HB H IH]; auto.
  cbn [forallb]. rewrite IH. unfold wf_table. cbn [t_keys t_groups]. rewrite (keys_wf _ _ HK), (groups_wf _ _ _ _ _ HB). reflexivity.
Qed.
Lemma doc_wf t d : sh_doc t d -> wf_doc d = true.
Proof. intros [es gs n ts tables HB HT]. unfold wf_doc. cbn [d_groups d_tables]. rewrite (groups_wf _ _ _ _ _ HB), (tables_wf _ _ _ HT). reflexivity. Qed.

(** * The content of the tree *)
Fixpoint tleaves (t : tree) : list piece :=
  match t with TToken k w => [(k, w)] | TNode _ cs => flat_map tleaves cs end.
Definition leaves (cs : list tree) : list piece := flat_map tleaves cs.
Definition expand (p : piece) : list piece :=
  match fst p with
  | WHITESPACE | LINE_BREAK | COMMA => []
  | DOUBLE_BRACKET_START => [opening false; opening false]
  | DOUBLE_BRACKET_END => [closing false; closing false]
  | BRACKET_START => [opening false] | BRACKET_END => [closing false]
  | BRACE_START => [opening true] | BRACE_END => [closing true]
  | DOT => [(DOT, [46])] | EQUAL => [(EQUAL, [61])]
  | _ => [p]
  end.
Definition content (cs : list tree) : list piece := flat_map expand (leaves cs).
Lemma content_app a b : content (a ++ b) = content a ++ content b.
Proof. unfold content, leaves. rewrite !flat_map_app. reflexivity. Qed.
Lemma content_token k w cs : content (TToken k w :: cs) = expand (k, w) ++ content cs.
Proof. reflexivity. Qed.
Lemma content_node k c cs : content (TNode k c :: cs) = content c ++ content cs.
Proof. unfold content, leaves. cbn [flat_map tleaves]. rewrite flat_map_app. reflexivity. Qed.
Lemma content_nil : content [] = [].
Proof. reflexivity. Qed.
Ltac content := repeat (rewrite ?content_app, ?content_token, ?content_node, ?content_nil, ?app_nil_r).
Lemma lead_content l lead : sh_lead l lead -> content l = map comment_piece lead.
Proof.
  intros [H <-]. induction H as [|t l (w & [-> | ->]) H IH]; [reflexivity| |]; rewrite content_token, IH; reflexivity.
Qed.
Lemma trail_content l tc : sh_trail l tc -> content l = opt_comment tc.
Proof. destruct tc; intros ->; reflexivity. Qed.
Lemma keys_content_eq ts ks : sh_keys ts ks -> content ts = keys_content ks.
Proof.
  assert (HX : forall t k, sh_key t k -> content [t] = [k]).
  { intros t k [k0 w Hk]. content. unfold expand. cbn [fst]. destruct k0; try discriminate; reflexivity. }
  induction 1 as [t k H|t k d ts ks H HD HK IH]; [apply HX; exact H|].
  change (t :: d :: ts) with ([t] ++ [d] ++ ts). rewrite !content_app, IH, (HX _ _ H).
  assert (content [d] = [(DOT, [46])]) as -> by (destruct HD; reflexivity).
  destruct HK; reflexivity.
Qed.
Lemma comma_content_eq cs c : sh_comma cs c -> content cs = comma_content c.
Proof.
  intros [|l lead w tr tc HL HT]; [reflexivity|]. content. rewrite (lead_content _ _ HL), (trail_content _ _ HT). reflexivity.
Qed.
Lemma shapes_content :
  (forall t v, sh_value t v -> content [t] = value_content v) /\
  (forall table cs i, sh_item table cs i -> content cs = item_content value_content i) /\
  (forall table cs is, sh_items table cs is -> content cs = flat_map (item_content value_content) is) /\
  (forall gk table n es gs m, sh_body gk table n es gs m -> content es = flat_map group_content gs).
Proof.
  apply sh_ind.
  - intros l lead k w tr tc HL HK HT. content. rewrite (lead_content _ _ HL), (trail_content _ _ HT).
    cbn [value_content]. f_equal. f_equal. unfold expand. cbn [fst]. destruct k; try discriminate; reflexivity.
  - intros table l lead wo otr otc es gs wc tr tc n HL HO HB IH HT. content.
    rewrite (lead_content _ _ HL), (trail_content _ _ HT), (trail_content _ _ HO), IH, box_content. destruct table; reflexivity.
  - intros t v cs c HV IH HC. change (t :: cs) with ([t] ++ cs). rewrite content_app, IH, (comma_content_eq _ _ HC). reflexivity.
  - intros l lead kts ks raw we t v cs c HL HK HV IH HE HC. rewrite content_node. change [TNode KEYS kts; TToken EQUAL we; t] with ([TNode KEYS kts; TToken EQUAL we] ++ [t]).
    content. rewrite (lead_content _ _ HL), (keys_content_eq _ _ HK), IH, (comma_content_eq _ _ HC). unfold expand. cbn [fst]. destruct HK; cbn [item_content]; rewrite <- !app_assoc; reflexivity.
  - reflexivity.
  - intros table a i b is H1 I1 H2 I2. rewrite content_app, I1, I2. reflexivity.
  - reflexivity.
  - intros gk table n w es gs m HB IH. rewrite content_token. exact IH.
  - intros gk table n ds cs es gs m HL HN HB IH. rewrite content_node, (lead_content _ _ HL), IH. reflexivity.
  - intros gk table n its is es gs m HI I1 HN HB IH. rewrite content_node, I1, IH. reflexivity.
Qed.
Lemma tables_content_eq n es ts : sh_tables n es ts -> content es = flat_map table_content ts.
Proof.
  induction 1 as [n|n w es ts H IH|array n l lead wo kts ks wc tr tc body gs m es ts HL HK HT HS HB H IH]; [reflexivity|exact IH|].
  cbn [flat_map]. unfold table_content at 1. cbn [t_lead t_array t_keys t_tc t_groups]. content.
  rewrite (lead_content _ _ HL), (trail_content _ _ HT), (keys_content_eq _ _ HK), (proj2 (proj2 (proj2 shapes_content)) _ _ _ _ _ _ HB), IH.
  destruct array; cbn [head_kind tail_kind expand fst]; rewrite <- !app_assoc; reflexivity.
Qed.
Lemma doc_content_eq cs d : sh_doc (TNode ROOT cs) d -> content cs = doc_content d.
Proof.
  intros H. inversion H as [es gs n ts tables HB HT]; subst. rewrite content_app, (proj2 (proj2 (proj2 shapes_content)) _ _ _ _ _ _ HB), (tables_content_eq _ _ _ HT). reflexivity.
Qed.

(** * The content of the tokens *)
Notation ltoken := LexerModel.token.
Definition pieces (src : str) (ts : list ltoken) : list piece := map (fun t => (tkind t, wtext src t)) ts.
Definition canonical (p : piece) : Prop :=
  match fst p with
  | DOT => snd p = [46] | EQUAL => snd p = [61] | BRACKET_START => snd p = [91] | BRACKET_END => snd p = [93]
  | BRACE_START => snd p = [123] | BRACE_END => snd p = [125] | DOUBLE_BRACKET_START | DOUBLE_BRACKET_END => False
  | _ => True
  end.
Lemma reading_app a b c d : reading a b -> reading c d -> reading (a ++ c) (b ++ d).
Proof. intros H HC. induction H; cbn [app]; [exact HC| | |]; constructor; auto. Qed.
Lemma reading_refl a : reading a a.
Proof. induction a; constructor; auto. Qed.
Lemma reading_content a b : reading a b -> reading (filter is_content a) (filter is_content b).
Proof.
  induction 1 as [|p ps qs H IH|k w ps qs HK HD H IH|u v ps qs HU HV H IH]; [constructor| | |].
  - cbn [filter]. destruct (is_content p); [constructor|]; exact IH.
  - cbn [filter]. replace (is_content (k, w)) with true by (cbn in HK; repeat (destruct HK as [<- |HK]; [reflexivity|]); destruct HK). change (is_content (BARE_KEY, w)) with true. constructor; auto.
  - cbn. apply reading_keys; auto.
Qed.
Lemma reading_canonical a b : reading a b -> Forall canonical a -> Forall canonical b.
Proof.
  induction 1 as [|p ps qs H IH|k w ps qs HK HD H IH|u v ps qs HU HV H IH]; intros HF; [constructor| | |]; inversion HF; subst; repeat constructor; auto.
Qed.
Lemma reading_good a b : reading a b -> Forall good_token a -> Forall good_token b.
Proof.
  induction 1 as [|p ps qs H IH|k w ps qs HK HD H IH|u v ps qs HU HV H IH]; intros HF; [constructor| | |]; inversion HF; subst.
  - constructor; auto.
  - constructor; [left; reflexivity|auto].
  - constructor; [left; reflexivity|]. constructor; [right; reflexivity|]. constructor; [left; reflexivity|auto].
Qed.
(** Two readings in a row *)
Inductive relabel : list piece -> list piece -> Prop :=
| relabel_nil : relabel [] []
| relabel_same p ps qs : relabel ps qs -> relabel (p :: ps) (p :: qs)
| relabel_key k w ps qs : key_like k -> (k = FLOAT -> ~ In 46 w) -> relabel ps qs -> relabel ((k, w) :: ps) ((BARE_KEY, w) :: qs).
Lemma relabel_app a b c d : relabel a b -> relabel c d -> relabel (a ++ c) (b ++ d).
Proof. intros H HC. induction H; cbn [app]; [exact HC| |]; constructor; auto. Qed.
Lemma not_key_like k : k = BARE_KEY \/ k = DOT -> ~ key_like k.
Proof. intros [-> | ->] H; cbn in H; repeat (destruct H as [H|H]; [discriminate|]); exact H. Qed.
Lemma relabel_fixed k w ps qs : k = BARE_KEY \/ k = DOT -> relabel ((k, w) :: ps) qs -> exists qs', qs = (k, w) :: qs' /\ relabel ps qs'.
Proof. intros HK H. inversion H as [|p a b H1|k' w' a b H1 H2]; subst; [eauto|]. exfalso. eapply not_key_like; eauto. Qed.
Lemma reading_relabel a b : reading a b -> forall c, relabel b c -> reading a c.
Proof.
  induction 1 as [|p ps qs H IH|k w ps qs HK HD H IH|u v ps qs HU HV H IH]; intros c HC.
  - inversion HC; subst. constructor.
  - inversion HC; subst; constructor; auto.
  - apply relabel_fixed in HC as (c' & -> & HC); auto. constructor; auto.
  - apply relabel_fixed in HC as (c1 & -> & HC); auto. apply relabel_fixed in HC as (c2 & -> & HC); auto. apply relabel_fixed in HC as (c3 & -> & HC); auto.
    apply reading_keys; auto.
Qed.
Lemma remapped_key_like k : remapped k = true -> key_like k.
Proof. destruct k; try discriminate; cbn; tauto. Qed.
(** From the tokens put out to the leaves of the tree *)
Lemma shaped_relabel src tr ts cs : shaped src tr ts cs -> Forall canonical (pieces src ts) ->
  relabel (filter is_content (pieces src ts)) (content cs).
Proof.
  induction 1 as [|t tr ts cs HT H IH|k n grp tr ts cs HF HL HK H IH|k tr1 ts1 cs1 tr ts cs HT H1 IH1 H IH]; intros HC.
  - constructor.
  - inversion HC; subst. cbn [pieces map filter]. unfold is_content at 1. cbn [fst]. apply kind_eqb_eq in HT. rewrite HT. auto.
  - unfold pieces in *. rewrite map_app in *. apply Forall_app in HC as [HC1 HC2]. rewrite filter_app, content_token. apply relabel_app; [|auto]. clear H IH HC2 HF HL.
    destruct HK as [t|t HR HD|t u K1 K2|t u K1 K2]; cbn [map filter] in *; unfold wtexts; cbn [flat_map]; rewrite ?app_nil_r.
    + inversion HC1 as [|? ? HX _]; subst. unfold canonical in HX. cbn [fst snd] in HX. unfold is_content, expand. cbn [fst].
      destruct (tkind t); try (repeat constructor); try contradiction; rewrite HX; repeat constructor.
    + apply remapped_key_like in HR. replace (is_content _) with true.
      * apply relabel_key; [exact HR|exact HD|constructor].
      * unfold is_content. cbn [fst]. cbn in HR. repeat (destruct HR as [<- |HR]; [reflexivity|]). destruct HR.
    + inversion HC1 as [|? ? HX HC3]; subst. inversion HC3 as [|? ? HY _]; subst. unfold canonical in HX, HY. cbn [fst snd] in HX, HY. rewrite K1, K2 in *. unfold is_content, expand. cbn [fst filter]. rewrite HX, HY. repeat constructor.
    + inversion HC1 as [|? ? HX HC3]; subst. inversion HC3 as [|? ? HY _]; subst. unfold canonical in HX, HY. cbn [fst snd] in HX, HY. rewrite K1, K2 in *. unfold is_content, expand. cbn [fst filter]. rewrite HX, HY. repeat constructor.
  - unfold pieces in *. rewrite map_app in *. apply Forall_app in HC as [HC1 HC2]. rewrite filter_app, content_node. apply relabel_app; auto.
Qed.
Lemma pieces_significant src ts : filter is_content (pieces src ts) = filter is_content (pieces src (significant ts)).
Proof.
  induction ts as [|t ts IH]; [reflexivity|]. cbn [significant filter]. destruct (triv t) eqn:E; cbn [negb].
  - apply kind_eqb_eq in E. cbn [pieces map filter]. unfold is_content at 1. cbn [fst]. rewrite E. exact IH.
  - cbn [pieces map filter]. fold (pieces src ts). fold (significant ts). rewrite IH. reflexivity.
Qed.
Lemma canonical_significant src ts : Forall canonical (pieces src (significant ts)) <-> Forall canonical (pieces src ts).
Proof.
  induction ts as [|t ts IH]; [reflexivity|]. cbn [significant filter]. destruct (triv t) eqn:E; cbn [negb].
  - apply kind_eqb_eq in E. cbn [pieces map]. rewrite Forall_cons_iff. fold (significant ts). fold (pieces src ts). rewrite <- IH. unfold canonical at 2. cbn [fst]. rewrite E. tauto.
  - cbn [pieces map]. rewrite !Forall_cons_iff. fold (significant ts). fold (pieces src ts). fold (pieces src (significant ts)). rewrite IH. reflexivity.
Qed.
(** From the tokens of the text to the tokens put out *)
Lemma reads_reading src c new : reads src c new -> forall b s e, src = b ++ s ++ e -> tiles b s c -> reading (pieces src c) (pieces src new).
Proof.
  induction 1 as [|t c n H IH|t u v x y z c n HK HS HU HV [K1 S1] [K2 S2] [K3 S3] H IH]; intros b s e HE HT.
  - constructor.
  - inversion HT as [|b0 w s0 t0 ts0 H1 H2]; subst. apply reading_same. apply (IH (b ++ w) s0 e); auto. rewrite <- !app_assoc. reflexivity.
  - inversion HT as [|b0 w s0 t0 ts0 H1 H2]; subst. rewrite H1 in HS, S1, S2, S3. cbn [sstart send] in HS, S1, S2, S3.
    rewrite <- app_assoc, text_slice_app in HS. assert (w = u ++ [46] ++ v) as -> by congruence. clear HS.
    assert (HR : reading (pieces (b ++ ((u ++ [46] ++ v) ++ s0) ++ e) c) (pieces (b ++ ((u ++ [46] ++ v) ++ s0) ++ e) n)).
    { apply (IH (b ++ (u ++ [46] ++ v)) s0 e); auto. rewrite <- !app_assoc. reflexivity. }
    set (src := b ++ ((u ++ [46] ++ v) ++ s0) ++ e) in *.
    assert (WT : forall a w r tk, tspan tk = MkSpan (len_bytes a) (len_bytes (a ++ w)) -> src = a ++ w ++ r -> wtext src tk = w).
    { intros a w r tk E1 E2. unfold wtext. rewrite E1, E2. cbn [sstart send]. rewrite text_slice_app. reflexivity. }
    cbn [pieces map]. rewrite HK, K1, K2, K3.
    rewrite (WT b (u ++ [46] ++ v) (s0 ++ e) t) by (auto; unfold src; rewrite <- !app_assoc; reflexivity).
    rewrite (WT b u ([46] ++ v ++ s0 ++ e) x) by (rewrite ?S1, ?len_bytes_app; auto; unfold src; rewrite <- !app_assoc; reflexivity).
    rewrite (WT (b ++ u) [46] (v ++ s0 ++ e) y) by (rewrite ?S2, ?len_bytes_app; auto; unfold src; rewrite <- !app_assoc; reflexivity).
    rewrite (WT ((b ++ u) ++ [46]) v (s0 ++ e) z) by (rewrite ?S3, ?len_bytes_app; auto; unfold src; rewrite <- !app_assoc; reflexivity).
    apply reading_keys; auto.
Qed.
Lemma tiles_slices b s ts src e : src = b ++ s ++ e -> tiles b s ts -> map (fun t => (tkind t, match slice src (tspan t) with Some w => w | None => [] end)) ts = pieces src ts.
Proof.
  intros HE HT. revert e HE. induction HT as [|b w s t ts H1 H2 IH]; intros e ->; [reflexivity|]. cbn [map pieces]. f_equal.
  - f_equal. unfold wtext. rewrite slice_text by (rewrite H1, len_bytes_app; cbn; lia). reflexivity.
  - apply (IH e). rewrite <- !app_assoc. reflexivity.
Qed.

Lemma not_eof_content src ts : Forall (fun t => tkind t <> EOF) ts ->
  filter (fun p : piece => is_content p && negb (kind_eqb (fst p) EOF)) (pieces src ts) = filter is_content (pieces src ts).
Proof.
  induction 1 as [|t ts0 H HF IH]; [reflexivity|]. cbn [pieces map filter fst]. fold (pieces src ts0). rewrite IH, (proj2 (kind_eqb_neq _ _) H). cbn [negb]. rewrite andb_true_r. reflexivity.
Qed.

(** * What is read from a text *)
Theorem read_content seg stack source t d : seg [] = [] -> parse seg stack source = Done (t, []) ->
  view_root (height t) (El [] t) = Some d ->
  wf_doc d = true /\ good_tokens (doc_content d) /\ reading (source_content seg source) (doc_content d).
Proof.
  intros Hs HP HV. destruct (parse_shape seg stack source t Hs HP) as (l & c & ws & d0 & HL & HE & -> & HG & HC & HD & _ & _ & HX & x & ws' & eof & new & tr & ts & T1 & T2 & T3 & T4 & T5 & T6).
  destruct (root_view c ws d0 HC HG HD) as (d' & V1 & V2). rewrite V1 in HV. injection HV as ->.
  destruct (lex_correct seg source Hs) as (l' & HL' & ts0 & eof0 & H1 & H2 & H3 & H4 & H5). assert (l' = l) by congruence. subst l'.
  pose proof (covers_tiles _ _ _ H4) as HTI. rewrite app_assoc in T1. assert (ts0 = x ++ ws' /\ eof0 = eof) as [-> ->] by (rewrite H1 in T1; apply app_inj_tail; exact T1).
  rewrite H1 in HTI. pose proof (tiles_slices [] source ((x ++ ws') ++ [eof]) source [] ltac:(rewrite app_nil_r; reflexivity) HTI) as HSL.
  assert (HTX : forall t, In t (x ++ ws') -> text_ok (tkind t) (wtext source t)).
  { intros t Ht. destruct (lex_token_text seg source l t HL) as (w & W1 & W2).
    - rewrite H1. apply in_or_app. auto.
    - rewrite Forall_forall in H3. apply H3. exact Ht.
    - intros HK. rewrite HE in H5. inversion H5 as [HF|]. assert (HI : In t (filter is_invalid (tokens l))).
      { apply filter_In. split; [rewrite H1; apply in_or_app; auto|]. unfold is_invalid. rewrite HK. reflexivity. }
      rewrite <- HF in HI. exact HI.
    - unfold wtext. rewrite <- slice_text, W1; [exact W2|]. eapply covers_span; [exact H4|]. rewrite H1. apply in_or_app. auto. }
  assert (HCX : Forall canonical (pieces source x)).
  { apply Forall_forall. intros p Hp. apply in_map_iff in Hp as (t & <- & Ht). specialize (HTX t (in_or_app _ _ _ (or_introl Ht))). unfold canonical. cbn [fst snd].
    destruct (tkind t); try exact I; exact HTX. }
  apply tiles_split in HTI as (s1 & s2 & HS & S1 & S2). apply tiles_split in S1 as (s3 & s4 & -> & S3 & S4).
  pose proof (reads_reading source x new T4 [] s3 (s4 ++ s2) ltac:(rewrite HS, <- app_assoc; reflexivity) S3) as HRD.
  pose proof (reading_canonical _ _ HRD HCX) as HCN. apply canonical_significant in HCN. rewrite <- T6 in HCN. apply (proj1 (canonical_significant _ _)) in HCN.
  pose proof (shaped_relabel _ _ _ _ T5 HCN) as HRL. rewrite pieces_significant, T6, <- pieces_significant in HRL.
  assert (HSC : source_content seg source = filter is_content (pieces source x)).
  { unfold source_content, source_pieces. rewrite HL, H1, HSL. unfold pieces. rewrite !map_app, !filter_app.
    fold (pieces source x). fold (pieces source ws'). apply Forall_app in H3 as [H3 H3']. etransitivity; [apply f_equal2; [apply f_equal2; [exact (not_eof_content source x H3)|exact (not_eof_content source ws' H3')]|reflexivity]|].
    rewrite <- (app_nil_r (filter is_content (pieces source x))) at 2. rewrite <- app_assoc. f_equal.
    rewrite pieces_significant, (significant_triv ws' T2). cbn. rewrite H2. reflexivity. }
  assert (HR : reading (source_content seg source) (doc_content d)).
  { rewrite HSC, <- (doc_content_eq _ _ V2). eapply reading_relabel; [|exact HRL]. apply reading_content. exact HRD. }
  split; [exact (doc_wf _ _ V2)|]. split; [|exact HR].
  eapply reading_good; [exact HR|]. rewrite HSC. apply Forall_forall. intros p Hp. apply filter_In in Hp as [Hp _]. apply in_map_iff in Hp as (t & <- & Ht).
  right. apply HTX. apply in_or_app. auto.
Qed.
