(** A formatted text is read without errors: how deep it nests, how it begins, and where its floats stand. *)
From Coq Require Import String Ascii List NArith Bool Arith Lia.
From Verif Require Import Base SyntaxKind TextModel LexerModel LexerSpec LexerProofs ParserModel ParserInv ParserPrims ParserBuild ParserProps
  ParserTree ParserYield AstModel FormatPieces FormatterModel FormatterLayout FormatterSpec FormatterEdit FormatterProps FormatterRelex FormatterTextProps FormatterRelexProps
  ParserShape ViewShape ViewContent ParserAccepts ParserAcceptsProps ParseBack.
Import ListNotations.
Open Scope N_scope.
Open Scope list_scope.

(** * Nesting *)
Lemma tnests_app a b : tnests (a ++ b) = Nat.max (tnests a) (tnests b).
Proof. unfold tnests. induction a as [|t a IH]; [reflexivity|]. cbn [app fold_right]. rewrite IH. lia. Qed.
Lemma tnests_cons t a : tnests (t :: a) = Nat.max (tnest t) (tnests a).
Proof. reflexivity. Qed.
Lemma tnest_node k cs : tnest (TNode k cs) = (weight k + tnests cs)%nat.
Proof. reflexivity. Qed.
Lemma tnest_token k w : tnest (TToken k w) = 0%nat.
Proof. reflexivity. Qed.
Fixpoint strip_nest (t : tree) : tnests (strip t) = tnest t.
Proof.
  destruct t as [k cs|k w]; cbn [strip]; [|destruct (is_trivia k); reflexivity].
  rewrite tnests_cons, !tnest_node. unfold tnests at 2. cbn [fold_right]. rewrite Nat.max_0_r. f_equal. induction cs as [|c cs IH]; [reflexivity|]. cbn [flat_map]. rewrite tnests_app, tnests_cons, IH, strip_nest. reflexivity.
Qed.
Lemma strips_nest cs : tnests (strips cs) = tnests cs.
Proof. induction cs as [|c cs IH]; [reflexivity|]. cbn [strips flat_map]. fold (strips cs). rewrite tnests_app, tnests_cons, IH, strip_nest. reflexivity. Qed.
Lemma gsnest_cons g gs : gsnest (g :: gs) = Nat.max (gnest g) (gsnest gs). Proof. reflexivity. Qed.
Lemma isnest_cons i is : isnest (i :: is) = Nat.max (inest i) (isnest is). Proof. reflexivity. Qed.
Lemma shapes_nest :
  (forall t v, sh_value t v -> (vnest v <= tnest t)%nat) /\
  (forall table cs i, sh_item table cs i -> (inest i <= tnests cs)%nat) /\
  (forall table cs is, sh_items table cs is -> (isnest is <= tnests cs)%nat) /\
  (forall gk table n es gs m, sh_body gk table n es gs m -> (gsnest gs <= tnests es)%nat).
Proof.
  apply sh_ind.
  - intros. cbn. lia.
  - intros table l lead wo otr otc es gs wc tr tc n HL HO HB IH HT. rewrite vnest_box, tnest_node, tnests_app, tnests_cons, !tnests_app. destruct table; cbn [weight box_kind]; lia.
  - intros t v cs c HV IH HC. unfold inest. cbn [ival]. rewrite tnests_cons. lia.
  - intros l lead kts ks raw we t v cs c HL HK HV IH HE HC. unfold inest. cbn [ival]. rewrite tnests_cons, tnest_node, tnests_app, !tnests_cons. lia.
  - intros. cbn. lia.
  - intros table a i b is H1 I1 H2 I2. rewrite isnest_cons, tnests_app. lia.
  - intros. cbn. lia.
  - intros gk table n w es gs m HB IH. rewrite tnests_cons. lia.
  - intros gk table n ds cs es gs m HL HN HB IH. rewrite gsnest_cons, tnests_cons. cbn [gnest]. lia.
  - intros gk table n its is es gs m HI I1 HN HB IH. rewrite gsnest_cons, tnests_cons, tnest_node. cbn [gnest]. lia.
Qed.
Definition tsnest (ts : list ftable) : nat := fold_right (fun t m => Nat.max (gsnest (t_groups t)) m) 0%nat ts.
Lemma tsnest_cons t ts : tsnest (t :: ts) = Nat.max (gsnest (t_groups t)) (tsnest ts). Proof. reflexivity. Qed.
Lemma dnest_eq d : dnest d = Nat.max (gsnest (d_groups d)) (tsnest (d_tables d)). Proof. reflexivity. Qed.
Lemma tables_nest n es ts : sh_tables n es ts -> (tsnest ts <= tnests es)%nat.
Proof.
  induction 1 as [n|n w es ts H IH|array n l lead wo kts ks wc tr tc body gs m es ts HL HK HT HS HB H IH]; [cbn; lia|rewrite tnests_cons; lia|].
  apply shapes_nest in HB. rewrite tsnest_cons, tnests_cons, tnest_node, tnests_app, !tnests_cons, tnests_app. cbn [t_groups]. lia.
Qed.
Lemma doc_nest cs d : sh_doc (TNode ROOT cs) d -> (dnest d <= tnests cs)%nat.
Proof.
  intros H. inversion H as [es gs n ts tables HB HT E]; subst. apply shapes_nest in HB. apply tables_nest in HT. rewrite dnest_eq, tnests_app. cbn [d_groups d_tables]. lia.
Qed.
Lemma read_nest seg stack source l crlf d : seg [] = [] -> (128 < stack)%nat -> lex seg source = Some l -> ~ float_after_blanks source (tokens l) ->
  read seg stack source = Done (Some (crlf, d)) -> (dnest d <= 128)%nat.
Proof.
  intros Hs Hst HL HN ER. unfold read in ER. destruct (parse seg stack source) as [[t es]| | |] eqn:EP; try discriminate. destruct es; [|discriminate].
  destruct (view_root (height t) (El [] t)) as [d0|] eqn:EV; [|discriminate]. injection ER as _ ->.
  pose proof (C07_nesting_bounded_partial seg source l stack t [] Hs HL HN Hst EP) as HT.
  destruct (parse_shape seg stack source t Hs EP) as (l0 & c & ws & d0 & _ & _ & -> & HG & HC & HD & _). destruct (root_view c ws d0 HC HG HD) as (d' & V1 & V2). rewrite V1 in EV. injection EV as ->.
  apply doc_nest in V2. rewrite strips_nest in V2. rewrite tnest_node, tnests_app in HT. cbn [weight] in HT. lia.
Qed.
(** The editor leaves the values as deep as they are. *)
Lemma without_tc_nest v : vnest (without_tc v) = vnest v. Proof. destruct v; reflexivity. Qed.
Lemma edit_value_nest v : vnest (edit_value v) = vnest v.
Proof.
  induction v as [l k tok tc|table lead otc gs tc HG] using fval_ind'; [reflexivity|]. cbn [edit_value]. rewrite !vnest_box. f_equal. generalize (has_last_comma gs), (length (items_of gs)). intros lc.
  induction HG as [|g gs Hg HG IH]; intros n; [reflexivity|]. destruct g as [b cs|b its]; cbn [edit_box]; fold (edit_box edit_value lc); rewrite !gsnest_cons, IH; [reflexivity|]. f_equal. cbn [gnest]. clear - Hg. revert n.
  induction Hg as [|i its E H IH]; intros n; [reflexivity|]. rewrite edit_items_cons, !isnest_cons, IH. f_equal. destruct i as [l ks r v c]. unfold edit_item.
  destruct (edit_comma_parts (lc || negb (Nat.eqb n 1)) l ks r (edit_value v) c) as (v' & c' & -> & HV & _). unfold inest. cbn [ival] in *. destruct HV as [-> | ->]; rewrite ?without_tc_nest; exact E.
Qed.
Lemma edit_groups_nest gs : gsnest (map edit_group gs) = gsnest gs.
Proof.
  induction gs as [|g gs IH]; [reflexivity|]. cbn [map]. rewrite !gsnest_cons, IH. f_equal. destruct g as [b cs|b its]; [reflexivity|]. cbn [edit_group gnest].
  induction its as [|[l ks r v c] its IHI]; [reflexivity|]. cbn [map]. rewrite !isnest_cons, IHI. f_equal. apply edit_value_nest.
Qed.
Lemma move_nest d : dnest (move_directives d) = dnest d.
Proof.
  unfold move_directives. destruct (starts_dangling (d_groups d)); [reflexivity|]. destruct d as [gs ts]. cbn [d_groups d_tables]. destruct gs as [|[b cs|b [|[lead ks raw v c] its]] gs]; try reflexivity.
  - destruct ts as [|[a lead ks tc g bl] ts]; [reflexivity|]. destruct (existsb _ _); reflexivity.
  - destruct (existsb _ _); reflexivity.
Qed.
Lemma edit_nest d : dnest (edit_root d) = dnest d.
Proof.
  rewrite edit_root_eq, move_nest, !dnest_eq. cbn [doc_edit d_groups d_tables]. rewrite edit_groups_nest. f_equal. induction (d_tables d) as [|t ts IH]; [reflexivity|]. cbn [map]. rewrite !tsnest_cons, IH. cbn [table_edit t_groups]. rewrite edit_groups_nest. reflexivity.
Qed.
Lemma good_items_of t its : forallb (fun i => wf_item t i && wf_value (ival i)) its = true -> forall n, (isnest its <= n)%nat -> good_items n t its.
Proof.
  induction its as [|i its IH]; intros H n HN; [constructor|]. cbn [forallb] in H. apply andb_true_iff in H as [H1 H2]. apply andb_true_iff in H1 as [H0 H1]. rewrite isnest_cons in HN. constructor; [|apply IH; [exact H2|lia]]. split; [exact H0|]. split; [exact H1|lia].
Qed.
Lemma good_groups_of gs n : forallb wf_group gs = true -> (gsnest gs <= n)%nat -> good_groups n true gs.
Proof.
  induction gs as [|g gs IH]; intros H HN; [constructor|]. cbn [forallb] in H. apply andb_true_iff in H as [H1 H2]. rewrite gsnest_cons in HN. constructor; [|apply IH; [exact H2|lia]]. destruct g as [b cs|b its]; [exact I|]. cbn [gnest wf_group] in *.
  apply andb_true_iff in H1 as [_ H1]. apply good_items_of; [exact H1|lia].
Qed.
Lemma good_doc d : wf_doc d = true -> (dnest d <= MAX_RECURSION_DEPTH)%nat -> good_groups MAX_RECURSION_DEPTH true (d_groups d) /\ Forall good_table (d_tables d).
Proof.
  intros H HN. apply andb_true_iff in H as [H1 H2]. rewrite dnest_eq in HN. split; [apply good_groups_of; [exact H1|lia]|]. assert (HT : (tsnest (d_tables d) <= MAX_RECURSION_DEPTH)%nat) by lia. clear HN H1.
  induction (d_tables d) as [|t ts IH]; [constructor|]. cbn [forallb] in H2. apply andb_true_iff in H2 as [H2 H3]. rewrite tsnest_cons in HT. apply andb_true_iff in H2 as [H0 H2]. constructor; [split; [exact H0|apply good_groups_of; [exact H2|lia]]|apply IH; [exact H3|lia]].
Qed.

(** * The first piece *)
Section Start.
Context (cfg : defs) (gr : str -> N) (dir : str -> option str).
Definition grown1 (f : fmt) : Prop := match f_buf f with [] => False | p :: _ => fst p <> WHITESPACE end.
Definition fine (f : fmt) : Prop := match f_buf f with [] => f_depth f = 0 | p :: _ => fst p <> WHITESPACE end.
Definition sound (m : fm) : Prop := forall f f', usual f -> fine f -> m f = Some f' -> usual f' /\ fine f'.
Definition leads (m : fm) : Prop := forall f f', usual f -> fine f -> m f = Some f' -> usual f' /\ grown1 f'.
Definition any (ps : list piece) : Prop := True.
Lemma wr_any m P : wr m P -> wr m any.
Proof. intros H. eapply wr_weak; [exact H|]. intros; exact I. Qed.
Lemma any_seq a b : wr a any -> wr b any -> wr (a ;; b) any.
Proof. intros A B. eapply wr_any. apply (wr_seq _ _ _ _ A B). Qed.
Lemma any_iter {A} (g : bool -> A -> fm) l : (forall b a, In a l -> wr (g b a) any) -> forall b, wr (m_iter_first g b l) any.
Proof. induction l as [|a l IH]; intros H b; [eapply wr_any; apply wr_ret|]. apply any_seq; [apply H; left; reflexivity|apply IH; intros; apply H; right; assumption]. Qed.
Lemma any_when c m : wr m any -> wr (m_when c m) any.
Proof. intros H. destruct c; [exact H|eapply wr_any; apply wr_ret]. Qed.
Lemma grown_fine f : grown1 f -> fine f.
Proof. unfold grown1, fine. destruct (f_buf f); [contradiction|auto]. Qed.
Lemma sound_ret : sound m_ret.
Proof. intros f f' U HF E. injection E as <-. auto. Qed.
Lemma sound_seq a b : sound a -> sound b -> sound (a ;; b).
Proof. intros A B f f' U HF E. unfold m_seq in E. destruct (a f) as [g|] eqn:E1; [|discriminate]. destruct (A f g U HF E1). eapply B; eauto. Qed.
Lemma leads_after a b : sound a -> leads b -> leads (a ;; b).
Proof. intros A B f f' U HF E. unfold m_seq in E. destruct (a f) as [g|] eqn:E1; [|discriminate]. destruct (A f g U HF E1). eapply B; eauto. Qed.
Lemma leads_then a b : leads a -> wr b any -> leads (a ;; b).
Proof.
  intros A B f f' U HF E. unfold m_seq in E. destruct (a f) as [g|] eqn:E1; [|discriminate]. destruct (A f g U HF E1) as [U1 G1]. destruct (B g f' U1 E) as (ps & (U2 & EB) & _). split; [exact U2|]. unfold grown1 in *. rewrite EB. destruct (f_buf g); [contradiction|exact G1].
Qed.
Lemma leads_write k s : k <> WHITESPACE -> leads (write k s).
Proof.
  intros HK f f' U HF E. injection E as <-. split; [exact U|]. unfold grown1. cbn [f_buf]. rewrite (proj2 (kind_eqb_neq k WHITESPACE) HK), orb_true_r. unfold fine in HF. destruct (f_buf f); [exact HK|exact HF].
Qed.
Lemma leads_piece p : match p with Some p => fst p <> WHITESPACE | None => True end -> leads (write_piece p).
Proof. destruct p as [[k s]|]; intros H; [apply leads_write; exact H|]. intros f f' _ _ E. discriminate. Qed.
Lemma leads_sound m : leads m -> sound m.
Proof. intros H f f' U HF E. destruct (H f f' U HF E). split; [assumption|apply grown_fine; assumption]. Qed.
Lemma sound_indent : sound (write_indent cfg).
Proof.
  intros f f' U HF E. unfold write_indent in E. destruct (f_skip_indent f).
  - injection E as <-. split; [exact U|exact HF].
  - unfold indent in E. assert (HX : forall s, (f_depth f = 0 -> s = []) -> write WHITESPACE s f = Some f' -> usual f' /\ fine f').
    { intros s HS EW. injection EW as <-. split; [exact U|]. unfold fine in *. cbn [f_buf f_depth]. destruct (f_buf f) as [|p ps]; [rewrite (HS HF); exact HF|]. destruct (_ || _); exact HF. }
    destruct (f_indent_tab cfg); [apply (HX (repeat 9 (N.to_nat (f_depth f)))); [intros ->; reflexivity|exact E]|]. destruct (_ <? 256); [|discriminate].
    apply (HX (spaces (f_indent_width cfg * f_depth f))); [intros ->; rewrite N.mul_0_r; reflexivity|exact E].
Qed.
Lemma leads_comment b c : leads (fmt_comment cfg dir b c).
Proof. unfold fmt_comment. destruct (comment_text cfg dir b c); [apply leads_write; discriminate|]. intros f f' _ _ E. discriminate. Qed.
Lemma any_indent : wr (write_indent cfg) any. Proof. eapply wr_any, wr_indent. Qed.
Lemma any_line : wr (write_line_ending cfg) any. Proof. eapply wr_any, wr_line. Qed.
Lemma any_comment b c : wr (fmt_comment cfg dir b c) any. Proof. eapply wr_any, wr_comment. Qed.
Lemma sound_leading cs : sound (fmt_leading cfg dir cs).
Proof.
  intros f f' U HF E. unfold fmt_leading in E. rewrite (proj1 U) in E. cbn [negb m_when] in E. revert f f' U HF E. change (sound (m_iter_first (fun first c => write_indent cfg ;; fmt_comment cfg dir first c ;; write_line_ending cfg) true cs)).
  destruct cs as [|c cs]; [exact sound_ret|]. apply leads_sound. cbn [m_iter_first]. apply leads_then.
  - apply leads_after; [exact sound_indent|]. apply leads_then; [apply leads_comment|exact any_line].
  - apply any_iter. intros b a _. apply any_seq; [exact any_indent|]. apply any_seq; [apply any_comment|exact any_line].
Qed.
Lemma leads_dangling cs : cs <> [] -> leads (fmt_dangling cfg dir cs).
Proof.
  intros HN f f' U HF E. unfold fmt_dangling in E. rewrite (proj1 U) in E. cbn [negb m_when] in E. revert f f' U HF E.
  change (leads (m_iter_first (fun first c => m_when (negb first) (write_line_ending cfg) ;; write_indent cfg ;; fmt_comment cfg dir first c) true cs)).
  destruct cs as [|c cs]; [contradiction|]. cbn [m_iter_first]. apply leads_then.
  - apply leads_after; [exact sound_ret|]. apply leads_after; [exact sound_indent|]. apply leads_comment.
  - apply any_iter. intros b a _. apply any_seq; [apply any_when; exact any_line|]. apply any_seq; [exact any_indent|apply any_comment].
Qed.
Lemma leads_keys w ks : ks <> [] -> leads (fmt_keys cfg gr w ks).
Proof.
  intros HN. assert (HK : leads (write_keys cfg ks)).
  { unfold write_keys. destruct ks as [|k ks]; [contradiction|]. cbn [m_iter_first]. assert (HP : forall k, match key_piece cfg k with Some p => fst p <> WHITESPACE | None => True end).
    { intros k0. destruct (key_piece cfg k0) as [p|] eqn:E; [|exact I]. destruct (key_piece_kind _ _ _ E) as [-> |[-> | ->]]; discriminate. }
    apply leads_then.
    - apply leads_after; [exact sound_ret|]. apply leads_piece. apply HP.
    - apply any_iter. intros b a _. apply any_seq; [apply any_when; eapply wr_any; apply wr_write; discriminate|]. specialize (HP a). destruct (key_piece cfg a) as [p|]; [|apply wr_panic]. eapply wr_any. apply wr_piece. exact HP. }
  intros f f' U HF E. unfold fmt_keys in E. destruct w as [w|]; [|exact (HK f f' U HF E)]. destruct (opt_all _ _) as [ps|]; [|discriminate]. destruct (alignment_width _ _) as [n|]; [|discriminate]. destruct (_ <? _); [discriminate|].
  exact (leads_then _ _ HK (wr_any _ _ (wr_spaces _)) f f' U HF E).
Qed.
Lemma wf_keys_ne ks : wf_keys ks = true -> ks <> [].
Proof. intros H ->. discriminate. Qed.
Lemma leads_kv_group its : its <> [] -> forallb (fun i => wf_item true i && wf_value (ival i)) its = true -> leads (fmt_key_value_group cfg gr dir its).
Proof.
  intros HN HF f f' U FF E. unfold fmt_key_value_group in E. destruct (key_value_equal_alignment_width cfg gr its) as [ea|]; [|discriminate]. destruct (trailing_comment_alignment_width cfg gr dir ea its f) as [al|]; [|discriminate].
  revert f f' U FF E. destruct its as [|i its]; [contradiction|]. cbn [forallb] in HF. apply andb_true_iff in HF as [H1 H2]. apply andb_true_iff in H1 as [H0 H1].
  match goal with |- forall f f', usual f -> fine f -> ?m f = Some f' -> _ => change (leads m) end. cbn [m_iter_first]. apply leads_then.
  - apply leads_after; [exact sound_ret|]. apply leads_then; [|eapply wr_any; apply wr_line_comma]. destruct i as [lead ks raw v c]. cbn [wf_item ival] in *. apply andb_true_iff in H0 as [H0 _]. apply wf_keys_ne in H0. destruct ks as [|k ks]; [contradiction|]. cbn [fmt_item].
    apply leads_after; [apply sound_leading|]. apply leads_after; [exact sound_indent|]. apply leads_then; [apply leads_keys; exact H0|].
    apply any_seq; [eapply wr_any, wr_spaces|]. apply any_seq; [eapply wr_any, wr_write; discriminate|]. apply any_seq; [eapply wr_any, wr_spaces|]. apply any_seq; [apply wr_set_skip; exact I|]. eapply wr_any. apply wr_value. exact H1.
  - apply any_iter. intros b a Ha. rewrite forallb_forall in H2. specialize (H2 a Ha). apply andb_true_iff in H2 as [H2 H3]. apply any_seq; [apply any_when; exact any_line|]. apply any_seq; [|eapply wr_any; apply wr_line_comma].
    eapply wr_any. apply (wr_item cfg gr dir _ ea al true a H2). intros. apply wr_value. exact H3.
Qed.
Lemma any_blocks w gs : forallb wf_group gs = true -> wr (fmt_groups cfg dir (fmt_key_value_group cfg gr dir) w gs) any.
Proof.
  intros H. eapply wr_any. apply (wr_groups cfg dir _ (fun _ => any)). pose proof (wf_groups_ready cfg gr dir gs H) as HF. eapply Forall_impl; [|exact HF]. intros [b cs|b its]; [auto|]. intros HI. eapply wr_any, HI.
Qed.
Lemma leads_blocks gs : gs <> [] -> forallb wf_group gs = true -> leads (fmt_groups cfg dir (fmt_key_value_group cfg gr dir) false gs).
Proof.
  intros HN H. destruct gs as [|g gs]; [contradiction|]. cbn [forallb] in H. apply andb_true_iff in H as [H1 H2]. destruct g as [b cs|b its]; cbn [fmt_groups].
  - intros f f' U FF E. rewrite (proj1 U) in E. revert f f' U FF E. match goal with |- forall f f', usual f -> fine f -> ?m f = Some f' -> _ => change (leads m) end.
    apply leads_after; [exact sound_ret|]. apply leads_then; [apply leads_dangling; intros ->; discriminate|]. apply (any_blocks true gs H2).
  - cbn [wf_group] in H1. apply andb_true_iff in H1 as [H0 H1]. apply leads_after; [exact sound_ret|]. apply leads_then; [apply leads_kv_group; [intros ->; discriminate|exact H1]|]. apply (any_blocks true gs H2).
Qed.
Lemma any_tables prev before ts : forallb wf_table ts = true -> wr (fmt_tables cfg gr dir prev before ts) any.
Proof. intros H. destruct ts as [|t ts]; [eapply wr_any, wr_ret|]. eapply wr_any. apply wr_tables; [exact H|discriminate]. Qed.
Lemma any_nothings {A} (m : fm) (l : list A) : wr m (fun ps => ps = []) -> wr (m_iter (fun _ => m) l) any.
Proof. intros H. eapply wr_any. apply wr_nothings. exact H. Qed.
Lemma leads_table t : wf_table t = true -> leads (fmt_table cfg gr dir [] t).
Proof.
  intros H. apply andb_true_iff in H as [H1 H2]. unfold fmt_table. change (sub_table_depth cfg [] (t_keys t)) with 0%nat. replace (if f_indent_sub_tables cfg then 0%nat else 0%nat) with 0%nat by (destruct (f_indent_sub_tables cfg); reflexivity). cbv zeta. cbn [repeat m_iter].
  apply leads_after; [exact sound_ret|]. apply leads_after; [apply sound_leading|]. apply leads_after; [exact sound_indent|]. apply leads_then; [apply leads_write; discriminate|].
  apply any_seq; [apply any_when; eapply wr_any, wr_write; discriminate|]. apply any_seq; [eapply wr_any, wr_keys, wf_keys_ne; exact H1|]. apply any_seq; [eapply wr_any, wr_write; discriminate|].
  apply any_seq; [apply any_when; eapply wr_any, wr_write; discriminate|]. apply any_seq; [eapply wr_any, wr_trailing_opt|]. apply any_seq; [apply any_when, wr_inc; exact I|].
  apply any_seq; [apply any_when, any_seq; [exact any_line|apply any_blocks; exact H2]|]. apply any_seq; [apply any_when, wr_dec; exact I|]. eapply wr_any, wr_ret.
Qed.
Lemma leads_tables t ts : forallb wf_table (t :: ts) = true -> leads (fmt_tables cfg gr dir None [] (t :: ts)).
Proof. intros H. cbn [forallb] in H. apply andb_true_iff in H as [H1 H2]. cbn [fmt_tables]. apply leads_after; [exact sound_ret|]. apply leads_then; [apply leads_table; exact H1|apply any_tables; exact H2]. Qed.
Lemma sound_root d : wf_doc d = true -> sound (fmt_root cfg gr dir d).
Proof.
  intros H. apply andb_true_iff in H as [H1 H2]. destruct d as [gs ts]. cbn [d_groups d_tables] in *. unfold fmt_root. cbn [d_groups d_tables]. apply sound_seq.
  { intros f f' U HF E. injection E as <-. split; [exact U|]. unfold fine in *. cbn [f_buf f_depth]. destruct (f_buf f); [reflexivity|exact HF]. }
  destruct gs as [|g gs].
  - cbn [fmt_groups nonempty]. apply sound_seq; [exact sound_ret|]. destruct ts as [|t ts]; [apply sound_seq; exact sound_ret|]. apply sound_seq; [exact sound_ret|]. apply leads_sound. apply leads_tables. exact H2.
  - apply leads_sound. apply leads_then; [apply leads_blocks; [discriminate|exact H1]|]. apply any_seq; [|apply any_tables; exact H2]. destruct ts as [|t ts]; [eapply wr_any, wr_ret|]. apply any_when. destruct (no_items _); eapply wr_any, wr_blank_lines.
Qed.
Lemma starts_solid edited d ps : wf_doc d = true -> format_pieces cfg gr dir edited d = Some ps -> match ps with [] => True | p :: _ => fst p <> WHITESPACE end.
Proof.
  intros HW E. unfold format_pieces in E. set (d' := if edited then edit_root d else d) in *. assert (HW' : wf_doc d' = true) by (subst d'; destruct edited; [apply edit_wf|]; exact HW).
  destruct (fmt_root cfg gr dir d' (initial false)) as [f|] eqn:EF; [|discriminate]. injection E as <-. destruct (sound_root d' HW' (initial false) f) as [_ HF]; [split; reflexivity|reflexivity|exact EF|]. unfold fine in HF. destruct (f_buf f); cbn [nonempty app]; [exact I|exact HF].
Qed.
End Start.

(** * Where the floats stand *)
Lemma respaced_split a b ps : respaced (a ++ b) ps -> exists p q, ps = p ++ q /\ respaced a p /\ respaced b q.
Proof.
  revert ps. induction a as [|[k w] a IH]; intros ps H; [exists [], ps; split; [reflexivity|split; [constructor|exact H]]|]. cbn [app] in H. inversion H; subst.
  - match goal with R : respaced (a ++ b) _ |- _ => rename R into HRR end; destruct (IH _ HRR) as (p & q & -> & HA & HB). exists (b0 ++ p), q. rewrite app_assoc. split; [reflexivity|]. split; [apply rs_blank; assumption|exact HB].
  - match goal with R : respaced (a ++ b) _ |- _ => rename R into HRR end; destruct (IH _ HRR) as (p & q & -> & HA & HB). exists ((k, w) :: p), q. split; [reflexivity|]. split; [apply rs_same; assumption|exact HB].
  - match goal with R : respaced (a ++ b) _ |- _ => rename R into HRR end; destruct (IH _ HRR) as (p & q & -> & HA & HB). exists ((BARE_KEY, w) :: p), q. split; [reflexivity|]. split; [apply rs_key; assumption|exact HB].
  - match goal with R : respaced (a ++ b) _ |- _ => rename R into HRR end; destruct (IH _ HRR) as (p & q & -> & HA & HB). exists ((BARE_KEY, u) :: (DOT, [46]) :: (BARE_KEY, v) :: p), q. split; [reflexivity|]. split; [apply rs_keys; assumption|exact HB].
Qed.
Lemma whites_av b r : Forall (fun p : piece => fst p = WHITESPACE) b -> after_value (b ++ r) -> after_value r.
Proof. induction 1 as [|[k w] b E _ IH]; intros H; [exact H|]. cbn [fst] in E. subst k. apply IH. exact H. Qed.
Lemma whites_ak b r : Forall (fun p : piece => fst p = WHITESPACE) b -> after_key (b ++ r) -> after_key r.
Proof. induction 1 as [|[k w] b E _ IH]; intros H; [exact H|]. cbn [fst] in E. subst k. apply IH. exact H. Qed.
Lemma respaced_white B ps : Forall (fun p : piece => fst p = WHITESPACE) B -> respaced B ps -> Forall (fun p : piece => fst p = WHITESPACE) ps /\ (B <> [] -> ps <> []).
Proof.
  intros HF H. induction H as [|w b ts ps HN HB H IH|k w ts ps HK H IH|k w ts ps HK HN H IH|u v ts ps Hu Hv H IH].
  - split; [constructor|auto].
  - apply Forall_inv_tail in HF. destruct (IH HF) as [H1 _]. split; [apply Forall_app; auto|]. intros _ E. apply app_eq_nil in E as [E _]. contradiction.
  - apply Forall_inv in HF. contradiction.
  - apply Forall_inv in HF. cbn [fst] in HF. subst k. cbn in HK. intuition discriminate.
  - apply Forall_inv in HF. discriminate.
Qed.
Lemma float_first w C ps : respaced ((FLOAT, w) :: C) ps -> ~ after_value ps /\ ~ after_key ps.
Proof. intros H. inversion H; subst; split; intros HA; cbn in HA; contradiction. Qed.
Lemma no_float_hazard le ps A B w C : neat le ps -> match ps with [] => True | p :: _ => fst p <> WHITESPACE end ->
  respaced (A ++ B ++ (FLOAT, w) :: C) ps -> B <> [] -> Forall (fun p : piece => fst p = WHITESPACE) B -> A = [] \/ (exists A' w', A = A' ++ [(FLOAT, w')] /\ In 46 w') -> False.
Proof.
  intros HN HS H HB HF [-> |(A' & w' & -> & HD)].
  - cbn [app] in H. destruct (respaced_split _ _ _ H) as (p & q & -> & H1 & _). destruct (respaced_white _ _ HF H1) as [H2 H3]. specialize (H3 HB). destruct H2 as [|x p E H2]; [contradiction|]. apply HS. exact E.
  - rewrite <- app_assoc in H. destruct (respaced_split _ _ _ H) as (p & q & -> & _ & H1). apply neat_app_inv in HN. cbn [app] in H1. 
    assert (HX : forall r, respaced (B ++ (FLOAT, w) :: C) r -> ~ after_value r /\ ~ after_key r).
    { intros r Hr. destruct (respaced_split _ _ _ Hr) as (x & y & -> & H3 & H4). destruct (respaced_white _ _ HF H3) as [H5 _]. destruct (float_first _ _ _ H4) as [H6 H7].
      split; intros HA; [apply H6; eapply whites_av; eassumption|apply H7; eapply whites_ak; eassumption]. }
    inversion H1; subst; match goal with R : respaced (B ++ _) _ |- _ => rename R into HRR end.
    + destruct HN as [HN _]. cbn in HN. apply (proj1 (HX _ HRR)). exact HN.
    + contradiction.
    + destruct HN as (_ & _ & HN & _). cbn in HN. apply (proj2 (HX _ HRR)). exact HN.
Qed.

(** * The formatted text is read *)
Lemma formatted_read cfg le gr seg stack edited source out l crlf d : seg [] = [] -> (128 < stack)%nat ->
  lex seg source = Some l -> ~ float_after_blanks source (tokens l) -> read seg stack source = Done (Some (crlf, d)) ->
  (forall w, In (BARE_KEY, w) (doc_content d) -> toml_bare_key w) -> format_source cfg le gr seg stack edited source = Done (Some out) ->
  exists crlf' d', read seg stack out = Done (Some (crlf', d')).
Proof.
  intros Hs Hst HL HN ER HK E. pose proof (read_nest _ _ _ _ _ _ Hs Hst HL HN ER) as HD. destruct (relex_proof _ _ _ _ _ _ _ _ _ _ Hs ER HK E) as (ps & ts & l' & EP & -> & _ & HS & HR & HL' & HE & _).
  destruct (read_inv _ _ _ _ _ Hs ER) as (HW & _). set (c := with_line_ending cfg (line_ending_text le crlf)) in *. set (dir := directive _ c gr seg stack) in *.
  assert (HP : exists B S, sig (tokens l') = B ++ S ++ [(EOF, false)] /\ alines B /\ asections S).
  { assert (HM : map tkind (tokens l') = map fst ts ++ [EOF]).
    { unfold source_pieces in HS. rewrite HL' in HS. apply (f_equal (map fst)) in HS. rewrite map_map, map_app in HS. exact HS. }
    assert (HQ : kr (sig (tokens l')) ps) by (exists ts; split; [exact HR|]; rewrite ksig_sig, HM; reflexivity).
    destruct (pieces_layout _ _ _ _ _ _ HW EP) as (d' & qs & Ed & HW' & HLY & EQ).
    assert (HD' : (dnest d' <= MAX_RECURSION_DEPTH)%nat) by (subst d'; destruct edited; [rewrite edit_nest|]; exact HD). destruct (good_doc d' HW' HD') as [G1 G2].
    destruct (nonempty qs) eqn:EN.
    - subst ps. eapply root_back; [| |exact HLY|exact G1|exact G2|exact HQ].
      + intros k p Hk Hkk. unfold rkey in Hk. apply key_piece_kind in Hk. destruct Hk as [-> |[-> | ->]]; reflexivity.
      + intros k w p Hk Hkk. unfold rliteral in Hk. apply literal_piece_kind in Hk. destruct Hk as [-> |[_ [-> | ->]]]; [exact Hkk|reflexivity|reflexivity].
    - subst ps. apply kr_nil in HQ. exists [], []. split; [exact HQ|]. split; [apply al_gaps; constructor|constructor]. }
  destruct HP as (B & S & HK' & HB & HSS).
  assert (HF : ~ float_after_blanks (ptext ps) (tokens l')).
  { intros (a & b & t & r & ET & Hb & Hbf & Ht & Ha). unfold source_pieces in HS. rewrite HL' in HS. rewrite ET, !map_app in HS. cbn [map] in HS. destruct Ht as (Ek & w & Ew & Hw). rewrite Ek, Ew in HS.
    set (g := fun t : LexerModel.token => (tkind t, match slice (ptext ps) (tspan t) with Some w => w | None => [] end)) in *.
    assert (HC : exists C, ts = map g a ++ map g b ++ (FLOAT, w) :: C).
    { destruct (map g r) as [|y r1]; [exfalso; rewrite !app_assoc in HS; apply app_inj_tail in HS as [_ HS]; discriminate HS|]. destruct (@exists_last _ (y :: r1)) as (C & x & EC); [discriminate|]. rewrite EC in HS. exists C.
      assert (HS2 : (map g a ++ map g b ++ (FLOAT, w) :: C) ++ [x] = ts ++ [(EOF, [])]) by (rewrite <- HS, <- !app_assoc; reflexivity). apply app_inj_tail in HS2 as [HS2 _]. symmetry. exact HS2. }
    destruct HC as [C ->]. refine (no_float_hazard _ ps (map g a) (map g b) w C (pieces_neat _ _ _ _ _ _ HW EP) (starts_solid _ _ _ _ _ _ HW EP) HR _ _ _).
    - intros Eb. apply map_eq_nil in Eb. contradiction.
    - apply Forall_map. exact Hbf.
    - destruct Ha as [-> |(a' & t' & -> & Ek' & w' & Ew' & Hw')]; [left; reflexivity|right]. exists (map g a'), w'. rewrite map_app. cbn [map]. unfold g at 2. rewrite Ek', Ew'. auto. }
  destruct (parse_accepts false seg stack (ptext ps) l' B S false Hs Hst HL' HE HF HK' HB ltac:(discriminate) HSS) as (t & HT & _). destruct (C31_readable seg stack (ptext ps) t Hs HT) as (d' & Hd). eauto.
Qed.
