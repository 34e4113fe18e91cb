(** A document is known from its tokens: two documents whose tokens say the same have the same data. *)
From Coq Require Import String Ascii List NArith Bool Arith Lia.
From Verif Require Import Base SyntaxKind TextModel LexerModel LexerSpec ParserModel ParserBuild AstModel FormatPieces FormatPiecesProps FormatterModel FormatterLayout FormatterSpec FormatterRelex.
Import ListNotations.
Open Scope N_scope.
Open Scope list_scope.

(** * Specification *)
(** Two documents have the same data: the same values under the same keys in the same tables, in the same order.
    Comments, commas, blank lines and the way a token is written may differ. *)
Inductive same_value : fval -> fval -> Prop :=
| same_literal lead k w tc lead' k' w' tc' : same_token (k, w) (k', w') -> same_value (FLit lead k w tc) (FLit lead' k' w' tc')
| same_box table lead otc gs tc lead' otc' gs' tc' : Forall2 same_item (items_of gs) (items_of gs') ->
    same_value (FBox table lead otc gs tc) (FBox table lead' otc' gs' tc')
with same_item : item fval -> item fval -> Prop :=
| same_key_value lead ks raw v c lead' ks' raw' v' c' : Forall2 same_token ks ks' -> same_value v v' ->
    same_item (Item lead ks raw v c) (Item lead' ks' raw' v' c').
Definition same_table (t t' : ftable) : Prop :=
  t_array t = t_array t' /\ Forall2 same_token (t_keys t) (t_keys t') /\ Forall2 same_item (items_of (t_groups t)) (items_of (t_groups t')).
Definition same_data (d d' : fdoc) : Prop :=
  Forall2 same_item (items_of (d_groups d)) (items_of (d_groups d')) /\ Forall2 same_table (d_tables d) (d_tables d').

(** * The tokens of a document, without comments *)
Definition plain (p : piece) : bool := negb (kind_eqb (fst p) COMMENT).
Definition ipieces (f : fval -> list piece) (i : item fval) : list piece :=
  match i with
  | Item _ [] _ v _ => f v
  | Item _ ks _ v _ => keys_content ks ++ (EQUAL, [61]) :: f v
  end.
Fixpoint vpieces (v : fval) : list piece :=
  match v with
  | FLit _ k w _ => [(k, w)]
  | FBox table _ _ gs _ => opening table :: flat_map (fun g => match g with
        | GD _ _ => []
        | GI _ its => flat_map (fun i => match i with Item l ks r v c => ipieces (fun _ => vpieces v) (Item l ks r v c) end) its
        end) gs ++ [closing table]
  end.
Definition bpieces (its : list (item fval)) : list piece := flat_map (ipieces vpieces) its.
Definition tpieces (t : ftable) : list piece :=
  (if t_array t then [opening false; opening false] else [opening false]) ++ keys_content (t_keys t) ++
  (if t_array t then [closing false; closing false] else [closing false]) ++ bpieces (items_of (t_groups t)).
Lemma group_pieces gs : flat_map (fun g => match g with
        | GD _ _ => []
        | GI _ its => flat_map (fun i => match i with Item l ks r v c => ipieces (fun _ => vpieces v) (Item l ks r v c) end) its
        end) gs = bpieces (items_of gs).
Proof.
  unfold bpieces, items_of. induction gs as [|g gs IH]; [reflexivity|]. cbn [flat_map]. rewrite IH, flat_map_app. f_equal. destruct g as [b cs|b its]; [reflexivity|]. cbn [group_items]. apply flat_map_ext. intros [l ks r v c]. destruct ks; reflexivity.
Qed.
Lemma vpieces_box table lead otc gs tc : vpieces (FBox table lead otc gs tc) = opening table :: bpieces (items_of gs) ++ [closing table].
Proof. cbn [vpieces]. rewrite group_pieces. reflexivity. Qed.
Lemma plain_comments cs : filter plain (map comment_piece cs) = [].
Proof. induction cs as [|c cs IH]; [reflexivity|exact IH]. Qed.
Lemma plain_opt c : filter plain (opt_comment c) = [].
Proof. destruct c; reflexivity. Qed.
Lemma plain_comma c : filter plain (comma_content c) = [].
Proof. destruct c as [[lead tc]|]; [|reflexivity]. cbn [comma_content]. rewrite filter_app, plain_comments, plain_opt. reflexivity. Qed.
Lemma plain_key k : key_kind (fst k) = true -> plain k = true.
Proof. destruct k as [k w]. destruct k; try discriminate; reflexivity. Qed.
Lemma plain_keys ks : forallb (fun k => key_kind (fst k)) ks = true -> filter plain (keys_content ks) = keys_content ks.
Proof.
  induction ks as [|k ks IH]; intros H; [reflexivity|]. cbn [forallb] in H. apply andb_true_iff in H as [H1 H2]. apply plain_key in H1. destruct ks as [|k2 ks]; [cbn [keys_content filter]; rewrite H1; reflexivity|].
  specialize (IH H2). cbn [keys_content filter] in *. rewrite H1. f_equal. change (plain (DOT, [46])) with true. cbn match. f_equal. exact IH.
Qed.
Lemma plain_item f g i : (wf_item true i = true \/ wf_item false i = true) -> filter plain (f (ival i)) = g (ival i) -> filter plain (item_content f i) = ipieces g i.
Proof.
  destruct i as [lead ks raw v c]. cbn [ival]. intros HW H. destruct ks as [|k ks].
  - cbn [item_content ipieces]. rewrite !filter_app, plain_comments, plain_comma, app_nil_r. exact H.
  - destruct HW as [HW|HW]; [|discriminate]. cbn [wf_item] in HW. apply andb_true_iff in HW as [HW _]. apply andb_true_iff in HW as [_ HW].
    change (item_content f (Item lead (k :: ks) raw v c)) with (map comment_piece lead ++ keys_content (k :: ks) ++ [(EQUAL, [61])] ++ f v ++ comma_content c).
    change (ipieces g (Item lead (k :: ks) raw v c)) with (keys_content (k :: ks) ++ (EQUAL, [61]) :: g v).
    rewrite !filter_app, plain_comments, (plain_keys _ HW), plain_comma, H, app_nil_r. reflexivity.
Qed.
Lemma plain_literal k w : literal_kind k = true -> plain (k, w) = true.
Proof. destruct k; try discriminate; reflexivity. Qed.
Lemma plain_value v : wf_value v = true -> filter plain (value_content v) = vpieces v.
Proof.
  induction v as [lead k w tc|table lead otc gs tc HG] using fval_ind'; intros HW.
  - cbn [value_content vpieces]. rewrite !filter_app, plain_comments, plain_opt. cbn [filter]. rewrite (plain_literal k w HW). reflexivity.
  - cbn [value_content vpieces wf_value] in *. rewrite !filter_app, plain_comments, !plain_opt. replace (filter plain [opening table]) with [opening table] by (destruct table; reflexivity). replace (filter plain [closing table]) with [closing table] by (destruct table; reflexivity).
    cbn [app]. f_equal. f_equal. induction HG as [|g gs Hg HG IH]; [reflexivity|]. cbn [forallb] in HW. apply andb_true_iff in HW as [H1 H2]. cbn [flat_map]. rewrite filter_app, (IH H2). f_equal.
    destruct g as [b cs|b its]; [apply plain_comments|]. apply andb_true_iff in H1 as [_ H1]. clear - Hg H1. cbn [group_all] in Hg. induction Hg as [|i its E Hg IH]; [reflexivity|]. cbn [forallb] in H1. apply andb_true_iff in H1 as [H1 H2].
    cbn [flat_map]. rewrite filter_app, (IH H2). f_equal. destruct i as [l ks r v c]. apply andb_true_iff in H1 as [H0 H1]. apply plain_item; [|apply E; exact H1]. destruct table; auto.
Qed.
Lemma plain_groups gs : forallb wf_group gs = true -> filter plain (flat_map group_content gs) = bpieces (items_of gs).
Proof.
  unfold items_of. induction gs as [|g gs IH]; intros H; [reflexivity|]. cbn [forallb] in H. apply andb_true_iff in H as [H1 H2]. cbn [flat_map]. unfold bpieces. rewrite filter_app, (IH H2), flat_map_app. f_equal. destruct g as [b cs|b its]; [apply plain_comments|].
  cbn [wf_group] in H1. apply andb_true_iff in H1 as [_ H1]. cbn [group_content group_items]. clear - H1. induction its as [|i its IH]; [reflexivity|]. cbn [forallb] in H1. apply andb_true_iff in H1 as [H1 H2]. apply andb_true_iff in H1 as [H0 H1].
  cbn [flat_map]. rewrite filter_app, (IH H2). f_equal. apply plain_item; [left; exact H0|apply plain_value; exact H1].
Qed.
Lemma plain_doc d : wf_doc d = true -> filter plain (doc_content d) = bpieces (items_of (d_groups d)) ++ flat_map tpieces (d_tables d).
Proof.
  intros H. apply andb_true_iff in H as [H1 H2]. unfold doc_content. rewrite filter_app, (plain_groups _ H1). f_equal. induction (d_tables d) as [|t ts IH]; [reflexivity|]. cbn [forallb] in H2. apply andb_true_iff in H2 as [H2 H3]. apply andb_true_iff in H2 as [H0 H2]. cbn [flat_map]. rewrite filter_app, (IH H3). f_equal.
  unfold table_content, tpieces. apply andb_true_iff in H0 as [_ H0]. rewrite !filter_app, plain_comments, plain_opt, (plain_keys _ H0), (plain_groups _ H2). destruct (t_array t); reflexivity.
Qed.

(** * Two readings of the same tokens *)
Inductive co : list piece -> list piece -> Prop :=
| co_nil : co [] []
| co_same p a b : co a b -> co (p :: a) (p :: b)
| co_key_l k w a b : key_like k -> co ((k, w) :: a) ((BARE_KEY, w) :: b)
| co_key_r k w a b : key_like k -> co ((BARE_KEY, w) :: a) ((k, w) :: b)
| co_keys_l u v a b : co ((FLOAT, u ++ [46] ++ v) :: a) ((BARE_KEY, u) :: b)
| co_keys_r u v a b : co ((BARE_KEY, u) :: a) ((FLOAT, u ++ [46] ++ v) :: b).
Lemma dot_split (u v u' v' : str) : ~ In 46 u -> ~ In 46 u' -> u ++ [46] ++ v = u' ++ [46] ++ v' -> u = u' /\ v = v'.
Proof.
  revert u'. induction u as [|c u IH]; intros [|c' u'] H H' E; cbn [app] in E.
  - injection E as <-. auto.
  - injection E as <- _. destruct H'. left. reflexivity.
  - injection E as -> _. destruct H. left. reflexivity.
  - injection E as <- E. destruct (IH u') as [-> ->]; auto; intros HI; [apply H|apply H']; right; exact HI.
Qed.
Lemma reading_co s a : reading s a -> forall b, reading s b -> co a b.
Proof.
  induction 1 as [|p s a H IH|k w s a HK HN H IH|u v s a HU HV H IH]; intros b HB.
  - inversion HB. constructor.
  - inversion HB as [|p' s' b' HB'|k w s' b' HK HN HB'|u v s' b' HU HV HB']; subst; [apply co_same, IH; exact HB'|apply co_key_l; exact HK|apply co_keys_l].
  - inversion HB as [|p' s' b' HB'|k' w' s' b' HK' HN' HB'|u v s' b' HU HV HB']; subst; [apply co_key_r; exact HK|apply co_same, IH; exact HB'|]. destruct (HN eq_refl). apply in_or_app. right. left. reflexivity.
  - inversion HB as [|p' s' b' HB'|k' w' s' b' HK' HN' HB'|u' v' s' b' HU' HV' HB']; subst; [apply co_keys_r|destruct (HN' eq_refl); apply in_or_app; right; left; reflexivity|].
    match goal with E : _ ++ 46 :: _ = _ |- _ => destruct (dot_split u v u' v' HU HU') as [<- <-]; [symmetry; exact E || exact E|] | E : _ = _ ++ 46 :: _ |- _ => destruct (dot_split u v u' v' HU HU') as [<- <-]; [exact E || (symmetry; exact E)|] end.
    do 3 apply co_same. apply IH. exact HB'.
Qed.
Definition al (a b : list piece) : Prop := exists m, Forall2 same_token a m /\ co m b.
(** What may stand where: a key against a key, a literal against a literal *)
Definition like (k : kind) : bool := existsb (kind_eqb k) [INTEGER_DEC; INTEGER_BIN; INTEGER_OCT; INTEGER_HEX; FLOAT; BOOLEAN; LOCAL_DATE].
Definition mixed (k k' : kind) : bool := kind_eqb k BARE_KEY && like k' || kind_eqb k' BARE_KEY && like k.
Definition kclass (k : kind) : kind := match k with LITERAL_STRING => BASIC_STRING | k => k end.
Lemma same_class p q : same_token p q -> kclass (fst q) = kclass (fst p).
Proof. destruct p as [k w], q as [k' w']. unfold same_token. cbn [fst snd]. destruct k; intros H; try (injection H as -> _; reflexivity); try (destruct H as [-> _]; reflexivity); destruct H as ([-> | ->] & _); reflexivity. Qed.
Lemma like_true k : key_like k -> like k = true.
Proof. intros H. cbn in H. repeat (destruct H as [<- |H]; [reflexivity|]). destruct H. Qed.
Lemma same_bare p w : same_token p (BARE_KEY, w) -> fst p = BARE_KEY.
Proof. intros H. apply same_class in H. destruct p as [k s]. cbn [fst] in *. destruct k; try discriminate; reflexivity. Qed.
Lemma same_like p k w : same_token p (k, w) -> key_like k -> fst p = k.
Proof. intros H HK. apply same_class in H. destruct p as [k' s]. cbn [fst] in *. cbn in HK. repeat (destruct HK as [<- |HK]; [destruct k'; try discriminate; reflexivity|]). destruct HK. Qed.
Lemma al_head p a q b : al (p :: a) (q :: b) -> mixed (fst p) (fst q) = false -> same_token p q /\ al a b.
Proof.
  intros (m & HF & HC) HM. inversion HF as [|p0 p' a0 m' H1 H2]; subst. clear HF. unfold mixed in HM. inversion HC; subst.
  - split; [exact H1|]. exists m'. auto.
  - exfalso. match goal with K : key_like _ |- _ => rename K into H3 end. rewrite (same_like _ _ _ H1 H3) in HM. cbn [fst] in HM. rewrite (like_true _ H3), kind_eqb_refl, orb_true_r in HM. discriminate.
  - exfalso. match goal with K : key_like _ |- _ => rename K into H3 end. rewrite (same_bare _ _ H1) in HM. cbn [fst] in HM. rewrite (like_true _ H3) in HM. discriminate.
  - exfalso. rewrite (same_like p FLOAT _ H1) in HM; [discriminate|cbn; tauto].
  - exfalso. rewrite (same_bare _ _ H1) in HM. discriminate.
Qed.
Lemma al_class p a q b : al (p :: a) (q :: b) -> mixed (fst p) (fst q) = false -> kclass (fst q) = kclass (fst p).
Proof. intros H HM. apply same_class. apply (al_head _ _ _ _ H HM). Qed.
Lemma al_nil_l q b : ~ al [] (q :: b).
Proof. intros (m & HF & HC). inversion HF; subst. inversion HC. Qed.
Lemma al_nil_r p a : ~ al (p :: a) [].
Proof. intros (m & HF & HC). inversion HF; subst. inversion HC. Qed.

(** * Unique readability *)
Definition key_end (l : list piece) : Prop := match l with p :: _ => fst p = EQUAL \/ fst p = BRACKET_END | [] => False end.
Lemma key_not_literal k : key_kind k = true -> forall k', literal_kind k' = false \/ key_kind k' = true -> mixed k k' = false.
Proof. destruct k; try discriminate; intros _ k' H; destruct k'; try reflexivity; destruct H; discriminate. Qed.
Lemma keys_cons k k2 ks : keys_content (k :: k2 :: ks) = k :: (DOT, [46]) :: keys_content (k2 :: ks).
Proof. reflexivity. Qed.
Lemma keys_unique ks : wf_keys ks = true -> forall ks' a b, wf_keys ks' = true -> key_end a -> key_end b -> al (keys_content ks ++ a) (keys_content ks' ++ b) -> Forall2 same_token ks ks' /\ al a b.
Proof.
  induction ks as [|k ks IH]; [discriminate|]. intros HW [|k' ks'] a b HW' HA HB H; [discriminate|]. apply andb_true_iff in HW as [_ HW]. apply andb_true_iff in HW' as [_ HW']. cbn [forallb] in HW, HW'. apply andb_true_iff in HW as [K1 K2]. apply andb_true_iff in HW' as [K1' K2'].
  assert (HM : mixed (fst k) (fst k') = false) by (apply key_not_literal; auto).
  destruct ks as [|k2 ks], ks' as [|k2' ks']; rewrite ?keys_cons in H; cbn [keys_content app] in H; destruct (al_head _ _ _ _ H HM) as [H1 H2].
  - split; [auto|exact H2].
  - exfalso. destruct a as [|[x w] a]; [contradiction|]. cbn in HA. apply al_class in H2; cbn [fst] in *; destruct HA as [-> | ->]; try discriminate; reflexivity.
  - exfalso. destruct b as [|[x w] b]; [contradiction|]. cbn in HB. apply al_class in H2; cbn [fst] in *; destruct HB as [-> | ->]; try discriminate; reflexivity.
  - destruct (al_head _ _ _ _ H2 eq_refl) as [_ H3]. destruct (IH K2 (k2' :: ks') a b K2' HA HB H3) as [H4 H5]. split; [constructor; [exact H1|exact H4]|exact H5].
Qed.
Lemma keys_head ks a : wf_keys ks = true -> exists k r, keys_content ks ++ a = k :: r /\ key_kind (fst k) = true.
Proof. destruct ks as [|k ks]; [discriminate|]. intros H. cbn in H. apply andb_true_iff in H as [H _]. exists k. destruct ks as [|k2 ks]; [exists a|rewrite keys_cons; eexists]; (split; [reflexivity|exact H]). Qed.
Definition value_head (k : kind) : bool := literal_kind k || kind_eqb k BRACKET_START || kind_eqb k BRACE_START.
Lemma vpieces_head v a : wf_value v = true -> exists p r, vpieces v ++ a = p :: r /\ value_head (fst p) = true.
Proof. destruct v as [l k w tc|table l otc gs tc]; intros H; [|rewrite vpieces_box]; (eexists; eexists; split; [reflexivity|]); [unfold value_head; cbn in *; rewrite H; reflexivity|destruct table; reflexivity]. Qed.
Definition unique (v : fval) : Prop := forall v' a b, wf_value v = true -> wf_value v' = true -> al (vpieces v ++ a) (vpieces v' ++ b) -> same_value v v' /\ al a b.
Lemma item_unique table i : wf_item table i = true -> wf_value (ival i) = true -> unique (ival i) ->
  forall i' a b, wf_item table i' = true -> wf_value (ival i') = true -> al (ipieces vpieces i ++ a) (ipieces vpieces i' ++ b) -> same_item i i' /\ al a b.
Proof.
  destruct i as [l ks r v c]. intros HW HV HU [l' ks' r' v' c'] a b HW' HV' H. cbn [ival] in *. destruct table; cbn [wf_item] in HW, HW'.
  - apply andb_true_iff in HW as [HW _]. apply andb_true_iff in HW' as [HW' _]. destruct ks as [|k ks]; [discriminate|]. destruct ks' as [|k' ks']; [discriminate|]. cbn [ipieces] in H. rewrite <- !app_assoc in H.
    cbn [app] in H. destruct (keys_unique (k :: ks) HW (k' :: ks') ((EQUAL, [61]) :: vpieces v ++ a) ((EQUAL, [61]) :: vpieces v' ++ b) HW') as [H1 H2]; [left; reflexivity|left; reflexivity|exact H|]. destruct (al_head _ _ _ _ H2 eq_refl) as [_ H3]. destruct (HU _ _ _ HV HV' H3) as [H4 H5]. split; [constructor; assumption|exact H5].
  - destruct ks as [|k ks]; [|discriminate]. destruct ks' as [|k' ks']; [|discriminate]. cbn [ipieces] in H. destruct (HU _ _ _ HV HV' H) as [H4 H5]. split; [constructor; [constructor|exact H4]|exact H5].
Qed.
(** What ends the items: a closing bracket, the header of a table, or the end. *)
Definition item_end (table : bool) (l : list piece) : Prop :=
  match l with [] => True | p :: _ => fst p = BRACKET_END \/ fst p = BRACE_END \/ (table = true /\ fst p = BRACKET_START) end.
Lemma item_head table i a : wf_item table i = true -> wf_value (ival i) = true ->
  exists p r, ipieces vpieces i ++ a = p :: r /\ (if table then key_kind (fst p) else value_head (fst p)) = true.
Proof.
  destruct i as [l ks r v c]. intros HW HV. cbn [ival] in HV. destruct table; cbn [wf_item] in HW.
  - apply andb_true_iff in HW as [HW _]. destruct ks as [|k ks]; [discriminate|]. cbn [ipieces]. rewrite <- app_assoc. apply keys_head. exact HW.
  - destruct ks as [|k ks]; [|discriminate]. apply vpieces_head. exact HV.
Qed.
Lemma head_clash (table : bool) (p : piece) k w : (if table then key_kind (fst p) else value_head (fst p)) = true -> k = BRACKET_END \/ k = BRACE_END \/ (table = true /\ k = BRACKET_START) ->
  (forall a b, ~ al (p :: a) ((k, w) :: b)) /\ (forall a b, ~ al ((k, w) :: b) (p :: a)).
Proof.
  intros HP HK. destruct p as [x s]. cbn [fst] in HP. split; intros a b H; apply al_class in H; cbn [fst] in *; destruct table; destruct HK as [-> |[-> |[HT ->]]]; try discriminate HT; destruct x; try discriminate HP; try discriminate H; reflexivity.
Qed.
Lemma items_unique table its : Forall (fun i => wf_item table i = true /\ wf_value (ival i) = true /\ unique (ival i)) its ->
  forall its' a b, Forall (fun i => wf_item table i = true /\ wf_value (ival i) = true) its' -> item_end table a -> item_end table b ->
  al (bpieces its ++ a) (bpieces its' ++ b) -> Forall2 same_item its its' /\ al a b.
Proof.
  unfold bpieces. induction 1 as [|i its (W1 & W2 & HU) HF IH]; intros its' a b HF' HA HB H.
  - destruct HF' as [|i' its' (W1 & W2) HF']; [split; [constructor|exact H]|]. exfalso. cbn [flat_map app] in H. rewrite <- app_assoc in H. destruct (item_head table i' (flat_map (ipieces vpieces) its' ++ b) W1 W2) as (p & r & E & HP). rewrite E in H.
    destruct a as [|[k w] a]; [exact (al_nil_l _ _ H)|]. exact (proj2 (head_clash table p k w HP HA) _ _ H).
  - destruct HF' as [|i' its' (W1' & W2') HF'].
    + exfalso. cbn [flat_map app] in H. rewrite <- app_assoc in H. destruct (item_head table i (flat_map (ipieces vpieces) its ++ a) W1 W2) as (p & r & E & HP). rewrite E in H.
      destruct b as [|[k w] b]; [exact (al_nil_r _ _ H)|]. exact (proj1 (head_clash table p k w HP HB) _ _ H).
    + cbn [flat_map] in H. rewrite <- !app_assoc in H. destruct (item_unique table i W1 W2 HU i' _ _ W1' W2' H) as [H1 H2]. destruct (IH its' a b HF' HA HB H2) as [H3 H4]. split; [constructor; assumption|exact H4].
Qed.
Lemma wf_box_items table lead otc gs tc : wf_value (FBox table lead otc gs tc) = true -> Forall (fun i => wf_item table i = true /\ wf_value (ival i) = true) (items_of gs).
Proof.
  cbn [wf_value]. unfold items_of. induction gs as [|g gs IH]; intros H; [constructor|]. cbn [forallb] in H. apply andb_true_iff in H as [H1 H2]. cbn [flat_map]. apply Forall_app. split; [|apply IH; exact H2]. destruct g as [b cs|b its]; [constructor|]. cbn [group_items].
  apply andb_true_iff in H1 as [_ H1]. apply Forall_forall. intros i Hi. rewrite forallb_forall in H1. specialize (H1 i Hi). destruct i. apply andb_true_iff in H1. exact H1.
Qed.
Lemma all_items P gs : Forall (group_all P) gs -> Forall (fun i => P (ival i)) (items_of gs).
Proof. unfold items_of. induction 1 as [|g gs Hg HG IH]; [constructor|]. cbn [flat_map]. apply Forall_app. split; [|exact IH]. destruct g; [constructor|exact Hg]. Qed.
Lemma value_unique v : unique v.
Proof.
  induction v as [lead k w tc|table lead otc gs tc HG] using fval_ind'; intros v' a b HW HW' H.
  - destruct v' as [lead' k' w' tc'|table' lead' otc' gs' tc']; [|exfalso; rewrite vpieces_box in H]; cbn [vpieces app] in H.
    + cbn in HW, HW'. destruct (al_head _ _ _ _ H) as [H1 H2]; [cbn [fst]; unfold mixed; destruct k; try discriminate HW; destruct k'; try discriminate HW'; reflexivity|]. split; [constructor; exact H1|exact H2].
    + cbn in HW. apply al_class in H; destruct table'; cbn [fst opening] in *; destruct k; try discriminate; reflexivity.
  - rewrite vpieces_box in H. destruct v' as [lead' k' w' tc'|table' lead' otc' gs' tc']; [exfalso|rewrite vpieces_box in H]; cbn [vpieces app] in H.
    + cbn in HW'. apply al_class in H; destruct table; cbn [fst opening] in *; destruct k'; try discriminate; reflexivity.
    + assert (table' = table) by (apply al_class in H; destruct table, table'; try reflexivity; discriminate). subst table'. destruct (al_head _ _ _ _ H) as [_ H2]; [destruct table; reflexivity|]. rewrite <- !app_assoc in H2.
      pose proof (wf_box_items _ _ _ _ _ HW) as I1. pose proof (wf_box_items _ _ _ _ _ HW') as I2. pose proof (all_items _ _ HG) as I3.
      assert (I4 : Forall (fun i => wf_item table i = true /\ wf_value (ival i) = true /\ unique (ival i)) (items_of gs)).
      { rewrite Forall_forall in *. intros i Hi. destruct (I1 i Hi). split; [assumption|]. split; [assumption|apply I3; exact Hi]. }
      destruct (items_unique table (items_of gs) I4 (items_of gs') ([closing table] ++ a) ([closing table] ++ b) I2) as [H3 H4]; [destruct table; cbn; auto|destruct table; cbn; auto|exact H2|].
      cbn [app] in H4. destruct (al_head _ _ _ _ H4) as [_ H5]; [destruct table; reflexivity|]. split; [constructor; exact H3|exact H5].
Qed.
Lemma wf_block_items gs : forallb wf_group gs = true -> Forall (fun i => wf_item true i = true /\ wf_value (ival i) = true) (items_of gs).
Proof.
  unfold items_of. induction gs as [|g gs IH]; intros H; [constructor|]. cbn [forallb] in H. apply andb_true_iff in H as [H1 H2]. cbn [flat_map]. apply Forall_app. split; [|apply IH; exact H2]. destruct g as [b cs|b its]; [constructor|]. cbn [group_items wf_group] in *.
  apply andb_true_iff in H1 as [_ H1]. apply Forall_forall. intros i Hi. rewrite forallb_forall in H1. specialize (H1 i Hi). apply andb_true_iff in H1. exact H1.
Qed.
Lemma block_unique gs gs' a b : forallb wf_group gs = true -> forallb wf_group gs' = true -> item_end true a -> item_end true b ->
  al (bpieces (items_of gs) ++ a) (bpieces (items_of gs') ++ b) -> Forall2 same_item (items_of gs) (items_of gs') /\ al a b.
Proof.
  intros H1 H2 HA HB H. apply wf_block_items in H1. apply wf_block_items in H2. apply (items_unique true); auto. eapply Forall_impl; [|exact H1]. intros i [W1 W2]. split; [exact W1|]. split; [exact W2|apply value_unique].
Qed.
Lemma tables_end ts : item_end true (flat_map tpieces ts).
Proof. destruct ts as [|t ts]; [exact I|]. cbn [flat_map]. unfold tpieces. destruct (t_array t); cbn; auto. Qed.
Lemma tables_unique ts : forallb wf_table ts = true -> forall ts', forallb wf_table ts' = true -> al (flat_map tpieces ts) (flat_map tpieces ts') -> Forall2 same_table ts ts'.
Proof.
  induction ts as [|t ts IH]; intros HW [|t' ts'] HW' H.
  - constructor.
  - exfalso. cbn [flat_map] in H. unfold tpieces in H at 1. destruct (t_array t'); apply al_nil_l in H; exact H.
  - exfalso. cbn [flat_map] in H. unfold tpieces in H at 1. destruct (t_array t); apply al_nil_r in H; exact H.
  - cbn [forallb] in HW, HW'. apply andb_true_iff in HW as [HW HWs]. apply andb_true_iff in HW' as [HW' HWs']. apply andb_true_iff in HW as [HK HG]. apply andb_true_iff in HW' as [HK' HG']. cbn [flat_map] in H. unfold tpieces in H at 1 3. rewrite <- !app_assoc in H.
    assert (HX : forall x y, al (keys_content (t_keys t) ++ closing false :: x) (keys_content (t_keys t') ++ closing false :: y) -> Forall2 same_token (t_keys t) (t_keys t') /\ al x y).
    { intros x y HX. destruct (keys_unique (t_keys t) HK (t_keys t') (closing false :: x) (closing false :: y) HK') as [H1 H2]; [right; reflexivity|right; reflexivity|exact HX|]. split; [exact H1|]. apply (al_head _ _ _ _ H2 eq_refl). }
    assert (HY : Forall2 same_token (t_keys t) (t_keys t') -> t_array t = t_array t' -> al (bpieces (items_of (t_groups t)) ++ flat_map tpieces ts) (bpieces (items_of (t_groups t')) ++ flat_map tpieces ts') -> Forall2 same_table (t :: ts) (t' :: ts')).
    { intros HY HZ HA. destruct (block_unique _ _ _ _ HG HG' (tables_end ts) (tables_end ts') HA) as [H1 H2]. constructor; [split; [exact HZ|]; split; assumption|]. apply IH; assumption. }
    destruct (t_array t) eqn:EA, (t_array t') eqn:EA'; cbn [app] in H; destruct (al_head _ _ _ _ H eq_refl) as [_ H1].
    + destruct (al_head _ _ _ _ H1 eq_refl) as [_ H2]. destruct (HX _ _ H2) as [H3 H4]. destruct (al_head _ _ _ _ H4 eq_refl) as [_ H5]. apply HY; [exact H3|congruence|exact H5].
    + exfalso. destruct (keys_head (t_keys t') (closing false :: bpieces (items_of (t_groups t')) ++ flat_map tpieces ts') HK') as (k & r & E & HE). rewrite E in H1. exact (proj2 (head_clash true k BRACKET_START [91] HE (or_intror (or_intror (conj eq_refl eq_refl)))) _ _ H1).
    + exfalso. destruct (keys_head (t_keys t) (closing false :: bpieces (items_of (t_groups t)) ++ flat_map tpieces ts) HK) as (k & r & E & HE). rewrite E in H1. exact (proj1 (head_clash true k BRACKET_START [91] HE (or_intror (or_intror (conj eq_refl eq_refl)))) _ _ H1).
    + destruct (HX _ _ H1) as [H3 H4]. apply HY; [exact H3|congruence|exact H4].
Qed.
(** Two documents whose tokens are readings of the same tokens have the same data. *)
Theorem doc_unique d d' m s : wf_doc d = true -> wf_doc d' = true -> Forall2 same_token (doc_content d) m -> reading s m -> reading s (doc_content d') -> same_data d d'.
Proof.
  intros HW HW' HF HR HR'. assert (HA : al (filter plain (doc_content d)) (filter plain (doc_content d'))).
  { exists (filter plain m). split.
    - clear - HF. induction HF as [|p q a b H HF IH]; [constructor|]. cbn [filter]. replace (plain q) with (plain p); [destruct (plain p); [constructor; assumption|exact IH]|]. apply same_class in H. unfold plain. destruct p as [k w], q as [k' w']. cbn [fst] in *. destruct k; destruct k'; try discriminate H; reflexivity.
    - apply (reading_co (filter plain s)); apply (reading_filter (fun k => negb (kind_eqb k COMMENT))); try reflexivity; try assumption; intros k Hk; apply like_true in Hk; destruct k; try discriminate; reflexivity. }
  rewrite (plain_doc d HW), (plain_doc d' HW') in HA. apply andb_true_iff in HW as [H1 H2]. apply andb_true_iff in HW' as [H1' H2']. destruct (block_unique _ _ _ _ H1 H1' (tables_end _) (tables_end _) HA) as [H3 H4]. split; [exact H3|]. apply tables_unique; assumption.
Qed.
