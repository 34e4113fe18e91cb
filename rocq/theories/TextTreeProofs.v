(** The document of a text as the document tree takes it: its keys are there, and it depends on the data only. *)
From Coq Require Import String Ascii List NArith ZArith Bool Arith Lia.
From Verif Require Import Base SyntaxKind TextModel LexerModel LexerSpec LexSound TomlTextModel NumberModel DateTimeModel DateTimeTokens ParserModel AstModel FormatPieces FormatPiecesProps FormatterModel FormatterLayout FormatterSpec
  FormatterRelex ReadBack TextTreeModel.
From Verif Require DocTreeModel DocTreeSpec.
Import ListNotations.
Open Scope N_scope.
Open Scope list_scope.

(** * The code of a scalar tells the scalar *)
Lemma sign_abs_inj x y : sign_abs x = sign_abs y -> x = y.
Proof. unfold sign_abs. intros E. injection E as E1 E2. destruct (Z.ltb_spec x 0), (Z.ltb_spec y 0); try discriminate; lia. Qed.
Lemma date_code_inj d d' : date_code d = date_code d' -> d = d'.
Proof. destruct d, d'. cbn. intros E. injection E as -> -> ->. reflexivity. Qed.
Lemma time_code_inj d d' : time_code d = time_code d' -> d = d'.
Proof. destruct d, d'. cbn. intros E. injection E as -> -> -> ->. reflexivity. Qed.
Lemma code_inj s s' : code s = code s' -> s = s'.
Proof.
  destruct s as [s|z|f|b|[[d t] o]|[d t]|d|t], s' as [s'|z'|f'|b'|[[d' t'] o']|[d' t']|d'|t']; cbn [code]; intros E; try discriminate E; pose proof (f_equal (@tl _) E) as ET; cbn [tl] in ET; clear E.
  - rewrite ET. reflexivity.
  - rewrite (sign_abs_inj _ _ ET). reflexivity.
  - rewrite ET. reflexivity.
  - destruct b, b'; try reflexivity; discriminate.
  - destruct d, d', t, t'. cbn in ET. injection ET as -> -> -> -> -> -> -> E. destruct o as [|z], o' as [|z']; try reflexivity; try discriminate. rewrite (sign_abs_inj _ _ E). reflexivity.
  - destruct d, d', t, t'. cbn in ET. injection ET as -> -> -> -> -> -> ->. reflexivity.
  - rewrite (date_code_inj _ _ ET). reflexivity.
  - rewrite (time_code_inj _ _ ET). reflexivity.
Qed.

(** * The same data, the same syntax *)
Section Same.
Context (fl : str -> option (list N)) (v : toml_version).
Lemma same_key_value k k' : same_token k k' -> key_kind (fst k) = true -> key_value v k = key_value v k'.
Proof.
  destruct k as [k w], k' as [k' w']. unfold same_token, key_kind. cbn [fst snd existsb]. intros H HK.
  destruct k; try discriminate HK; try (injection H as -> ->; reflexivity); destruct H as ([-> | ->] & _ & H); specialize (H v); unfold key_value; cbn [fst snd string_value] in *; rewrite H; reflexivity.
Qed.
Lemma same_literal_value k w k' w' : same_token (k, w) (k', w') -> text_ok k w -> literal_value fl v k w = literal_value fl v k' w'.
Proof.
  intros H HT. unfold same_token in H. cbn [fst snd] in H. assert (HX : dt_kind k -> (exists a c c' b, w = a ++ [c] ++ b /\ w' = a ++ [c'] ++ b /\ length a = 10%nat /\ date_time_delimiter c /\ date_time_delimiter c') -> make_datetime_str v w = make_datetime_str v w').
  { intros HK (a & c & c' & b & -> & -> & L & HC & HC'). destruct (dt_shape _ _ HK HT) as (d & c0 & t5 & rest & E & L10 & L5 & A10 & A5 & _). destruct (app_len_inj _ _ _ _ E) as [-> E2]; [lia|]. injection E2 as -> ->. apply make_same; auto. exists t5, rest. auto. }
  destruct k; try (injection H as -> ->; reflexivity); try (destruct H as ([-> | ->] & _ & H); specialize (H v); cbn [string_value] in H; cbn [literal_value]; rewrite H; reflexivity).
  - destruct H as [-> H]. cbn [literal_value]. unfold try_new_offset_date_time. rewrite (HX (or_introl eq_refl) H). reflexivity.
  - destruct H as [-> H]. cbn [literal_value]. unfold try_new_local_date_time. rewrite (HX (or_intror eq_refl) H). reflexivity.
  - destruct H as (-> & _). reflexivity.
Qed.
Lemma same_keys ks ks' : Forall2 same_token ks ks' -> forallb (fun k => key_kind (fst k)) ks = true -> opt_all (key_value v) ks = opt_all (key_value v) ks'.
Proof.
  induction 1 as [|k k' ks ks' H HF IH]; intros HK; [reflexivity|]. cbn [forallb] in HK. apply andb_true_iff in HK as [K1 K2]. cbn [opt_all]. fold (opt_all (key_value v)). rewrite (same_key_value _ _ H K1). rewrite (IH K2). reflexivity.
Qed.
Lemma opt_all_app {A B} (f : A -> option B) a b : opt_all f (a ++ b) = match opt_all f a, opt_all f b with Some x, Some y => Some (x ++ y) | _, _ => None end.
Proof.
  induction a as [|x a IH]; cbn [app opt_all]; fold (opt_all f); [destruct (opt_all f b); reflexivity|]. rewrite IH. destruct (f x); [|reflexivity]. destruct (opt_all f a); [|reflexivity]. destruct (opt_all f b); reflexivity.
Qed.
Definition syn_group (g : group (item fval)) : option (list (list str * DocTreeModel.syn_value)) :=
  match g with
  | GD _ _ => Some []
  | GI _ its => opt_all (fun i => match i with Item _ ks _ x _ => both (opt_all (key_value v) ks) (syn_value fl v x) end) its
  end.
Lemma syn_groups (gs : list (group (item fval))) : option_map (@concat _) (opt_all syn_group gs) = opt_all (syn_item v (syn_value fl v)) (items_of gs).
Proof.
  unfold items_of. induction gs as [|g gs IH]; [reflexivity|]. cbn [flat_map]. rewrite opt_all_app, <- IH. cbn [opt_all]. fold (opt_all syn_group).
  destruct (opt_all syn_group gs) as [l|]; cbn [option_map]; destruct g as [b cs|b its]; cbn [syn_group group_items opt_all option_map concat app]; try reflexivity; change (fun i => match i with Item _ ks _ x _ => both (opt_all (key_value v) ks) (syn_value fl v x) end) with (syn_item v (syn_value fl v)); destruct (opt_all (syn_item v (syn_value fl v)) its); reflexivity.
Qed.
Lemma syn_box table lead otc gs tc : syn_value fl v (FBox table lead otc gs tc) =
  option_map (fun l => if table then DocTreeModel.SynInline l else DocTreeModel.SynArray (map snd l)) (opt_all (syn_item v (syn_value fl v)) (items_of gs)).
Proof. rewrite <- syn_groups. cbn [syn_value]. change (opt_all _ gs) with (opt_all syn_group gs). destruct (opt_all syn_group gs); reflexivity. Qed.
Definition agrees (x : fval) : Prop := forall x', same_value x x' -> wf_value x = true -> Forall good_token (vpieces x) -> syn_value fl v x = syn_value fl v x'.
Lemma same_items table its : Forall (fun i => agrees (ival i)) its -> forall its', Forall2 same_item its its' -> Forall (fun i => wf_item table i = true /\ wf_value (ival i) = true) its -> Forall good_token (bpieces its) ->
  opt_all (syn_item v (syn_value fl v)) its = opt_all (syn_item v (syn_value fl v)) its'.
Proof.
  induction 1 as [|i its HA HF IH]; intros its' H HW HG; inversion H as [|i0 i' its0 its'' H1 H2]; subst; [reflexivity|]. clear H. inversion HW as [|i0 its0 (W1 & W2) W3]; subst. unfold bpieces in HG. cbn [flat_map] in HG. apply Forall_app in HG as [G1 G2].
  cbn [opt_all]. fold (opt_all (syn_item v (syn_value fl v))). rewrite (IH _ H2 W3 G2). inversion H1 as [l ks r x c l' ks' r' x' c' K1 K2]; subst. cbn [syn_item ival] in *.
  assert (HK : forallb (fun k => key_kind (fst k)) ks = true).
  { destruct table; cbn [wf_item] in W1; apply andb_true_iff in W1 as [W1 _]; [apply andb_true_iff in W1; apply W1|]. destruct ks; [reflexivity|discriminate]. }
  rewrite (same_keys _ _ K1 HK). rewrite (HA x' K2 W2); [reflexivity|]. destruct ks; [exact G1|]. cbn [ipieces] in G1. apply Forall_app in G1 as [_ G1]. apply Forall_inv_tail in G1. exact G1.
Qed.
Lemma value_agrees x : agrees x.
Proof.
  induction x as [lead k w tc|table lead otc gs tc HG] using fval_ind'; intros x' H HW HT.
  - inversion H as [l0 k0 w0 t0 lead' k' w' tc' HS|]; subst. cbn [vpieces] in HT. apply Forall_inv in HT. cbn [syn_value]. rewrite (same_literal_value _ _ _ _ HS); [reflexivity|]. destruct HT as [HT|HT]; [|exact HT]. cbn [fst wf_value] in *. subst k. discriminate.
  - inversion H as [|t0 l0 o0 g0 c0 lead' otc' gs' tc' HS]; subst. rewrite !syn_box. rewrite vpieces_box in HT. apply Forall_inv_tail in HT. apply Forall_app in HT as [HT _]. rewrite (same_items table _ (all_items _ _ HG) _ HS (wf_box_items _ _ _ _ _ HW) HT). reflexivity.
Qed.
Lemma body_agrees gs gs' : Forall2 same_item (items_of gs) (items_of gs') -> forallb wf_group gs = true -> Forall good_token (bpieces (items_of gs)) -> syn_body fl v gs = syn_body fl v gs'.
Proof. intros H HW HG. apply (same_items true); auto; [|apply wf_block_items; exact HW]. apply Forall_forall. intros i _. apply value_agrees. Qed.
Theorem data_syntax d d' : same_data d d' -> wf_doc d = true -> good_tokens (doc_content d) -> syntax_of fl v d = syntax_of fl v d'.
Proof.
  intros [H1 H2] HW HG. assert (HF : Forall good_token (filter plain (doc_content d))) by (apply Forall_forall; intros p Hp; apply filter_In in Hp as [Hp _]; unfold good_tokens in HG; rewrite Forall_forall in HG; apply HG; exact Hp).
  rewrite (plain_doc d HW) in HF. apply Forall_app in HF as [F1 F2]. apply andb_true_iff in HW as [W1 W2]. unfold syntax_of. rewrite (body_agrees _ _ H1 W1 F1). replace (opt_all (syn_section fl v) (d_tables d')) with (opt_all (syn_section fl v) (d_tables d)); [reflexivity|].
  clear - H2 W2 F2. revert W2 F2. induction H2 as [|t t' ts ts' (E & K & B) HF IH]; intros HW HG; [reflexivity|]. cbn [forallb] in HW. apply andb_true_iff in HW as [W1 W2]. apply andb_true_iff in W1 as [W0 W1]. cbn [flat_map] in HG. apply Forall_app in HG as [G1 G2].
  cbn [opt_all]. fold (opt_all (syn_section fl v)). rewrite (IH W2 G2). unfold syn_section. apply andb_true_iff in W0 as [_ W0]. rewrite (same_keys _ _ K W0), E. unfold tpieces in G1. apply Forall_app in G1 as [_ G1]. apply Forall_app in G1 as [_ G1]. apply Forall_app in G1 as [_ G1]. rewrite (body_agrees _ _ B W1 G1). reflexivity.
Qed.

(** * Every key/value of the syntax has a key *)
Lemma opt_all_in {A B} (f : A -> option B) l l' : opt_all f l = Some l' -> forall b, In b l' -> exists a, In a l /\ f a = Some b.
Proof.
  revert l'. induction l as [|a l IH]; intros l' E b Hb; cbn [opt_all] in E; fold (opt_all f) in E; [injection E as <-; destruct Hb|]. destruct (f a) as [b0|] eqn:EA; [|discriminate]. destruct (opt_all f l) as [bs|] eqn:EL; [|discriminate]. injection E as <-.
  destruct Hb as [<- |Hb]; [exists a; split; [left; reflexivity|exact EA]|]. destruct (IH _ eq_refl b Hb) as (a' & H1 & H2). exists a'. split; [right; exact H1|exact H2].
Qed.
Lemma opt_all_ne {A B} (f : A -> option B) l l' : opt_all f l = Some l' -> l <> [] -> l' <> [].
Proof. destruct l as [|a l]; [intros _ H; contradiction|]. cbn [opt_all]. fold (opt_all f). destruct (f a); [|discriminate]. destruct (opt_all f l); [|discriminate]. intros E _. injection E as <-. discriminate. Qed.
Definition keyed (x : fval) : Prop := forall y, wf_value x = true -> syn_value fl v x = Some y -> DocTreeSpec.keyed_value y.
Lemma item_keyed table i keys y : keyed (ival i) -> wf_item table i = true -> wf_value (ival i) = true -> syn_item v (syn_value fl v) i = Some (keys, y) -> (table = true -> keys <> []) /\ DocTreeSpec.keyed_value y.
Proof.
  destruct i as [l ks r x c]. cbn [ival syn_item]. intros HK W1 W2 E. unfold both in E. destruct (opt_all (key_value v) ks) as [h|] eqn:EK; [|discriminate]. destruct (syn_value fl v x) as [y0|] eqn:EV; [|discriminate]. injection E as <- <-. split; [|apply HK; auto].
  intros ->. cbn [wf_item] in W1. apply andb_true_iff in W1 as [W1 _]. apply (opt_all_ne _ _ _ EK). intros ->. discriminate.
Qed.
Lemma items_keyed table its l : Forall (fun i => keyed (ival i)) its -> Forall (fun i => wf_item table i = true /\ wf_value (ival i) = true) its -> opt_all (syn_item v (syn_value fl v)) its = Some l ->
  forall keys y, In (keys, y) l -> (table = true -> keys <> []) /\ DocTreeSpec.keyed_value y.
Proof.
  intros HK HW E keys y Hy. destruct (opt_all_in _ _ _ E _ Hy) as (i & Hi & EI). rewrite Forall_forall in HK, HW. destruct (HW i Hi). eapply item_keyed; eauto.
Qed.
Lemma value_keyed x : keyed x.
Proof.
  induction x as [lead k w tc|table lead otc gs tc HG] using fval_ind'; intros y HW E.
  - cbn [syn_value] in E. destruct (literal_value fl v k w); [|discriminate]. injection E as <-. constructor.
  - rewrite syn_box in E. destruct (opt_all _ (items_of gs)) as [l|] eqn:EL; [|discriminate]. injection E as <-. pose proof (items_keyed table _ l (all_items _ _ HG) (wf_box_items _ _ _ _ _ HW) EL) as HI.
    destruct table; constructor; [intros keys y Hy; destruct (HI keys y Hy); auto|]. intros y Hy. apply in_map_iff in Hy as ([keys y0] & <- & Hy). apply (HI _ _ Hy).
Qed.
Lemma body_keyed gs b : forallb wf_group gs = true -> syn_body fl v gs = Some b -> DocTreeSpec.keyed_body b.
Proof.
  intros HW E keys y Hy. unfold syn_body in E. assert (HK : Forall (fun i => keyed (ival i)) (items_of gs)) by (apply Forall_forall; intros i _; apply value_keyed).
  destruct (items_keyed true (items_of gs) b HK (wf_block_items _ HW) E keys y Hy) as [H1 H2]. auto.
Qed.
Theorem syntax_keyed d x : wf_doc d = true -> syntax_of fl v d = Some x -> DocTreeSpec.keyed_document x.
Proof.
  intros HW E. apply andb_true_iff in HW as [W1 W2]. unfold syntax_of in E. destruct (syn_body fl v (d_groups d)) as [b|] eqn:EB; [|discriminate]. destruct (opt_all (syn_section fl v) (d_tables d)) as [ss|] eqn:ES; [|discriminate]. injection E as <-.
  split; [eapply body_keyed; eauto|]. cbn [DocTreeModel.d_sections]. intros s Hs. destruct (opt_all_in _ _ _ ES _ Hs) as (t & Ht & Et). rewrite forallb_forall in W2. specialize (W2 t Ht). apply andb_true_iff in W2 as [K1 K2]. unfold syn_section in Et.
  destruct (opt_all (key_value v) (t_keys t)) as [h|] eqn:EH; [|discriminate]. destruct (syn_body fl v (t_groups t)) as [b'|] eqn:EB'; [|discriminate]. injection Et as <-. split; [|eapply body_keyed; eauto]. apply (opt_all_ne _ _ _ EH). intros E0. rewrite E0 in K1. discriminate.
Qed.
End Same.
