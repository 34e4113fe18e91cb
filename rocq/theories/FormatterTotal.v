(** The formatter does not panic: every step succeeds while the indentation fits. *)
From Coq Require Import String Ascii List NArith Bool Arith Lia.
From Verif Require Import Base SyntaxKind TextModel LexerModel LexerSpec TomlTextModel FormatPieces FormatPiecesProofs DateTimeModel FormatterModel FormatterLayout FormatterSpec ParseBack.
Import ListNotations.
Open Scope N_scope.
Open Scope list_scope.

Section Total.
Context (cfg : defs) (gr : str -> N) (dir : str -> option str) (room : N).
Context (HA : f_key_value_equal_alignment cfg = false) (HR : room <= 255) (HI : f_indent_tab cfg = true \/ f_indent_width cfg * room < 256).

(** a token or comment for which there is something to write *)
Definition written_piece (p : piece) : Prop :=
  (fst p = COMMENT -> forall strip, exists t, comment_text cfg dir strip (snd p) = Some t) /\
  (key_kind (fst p) = true -> exists q, key_piece cfg p = Some q) /\
  (literal_kind (fst p) = true -> exists q, literal_piece cfg (fst p) (snd p) = Some q).
Notation fine := (Forall written_piece).

Definition runs (n : nat) (m : fm) : Prop :=
  forall f, f_depth f + N.of_nat n <= room -> exists f' ps, m f = Some f' /\ f_depth f' = f_depth f /\ f_buf f' = f_buf f ++ ps.
Lemma runs_le n n' m : (n <= n')%nat -> runs n m -> runs n' m.
Proof. intros L H f Hf. apply H. lia. Qed.
Lemma runs_ret n : runs n m_ret.
Proof. intros f _. exists f, []. rewrite app_nil_r. auto. Qed.
Lemma runs_seq n a b : runs n a -> runs n b -> runs n (a ;; b).
Proof.
  intros Ha Hb f Hf. destruct (Ha f Hf) as (g & ps & E & D & B). assert (Hg : f_depth g + N.of_nat n <= room) by (rewrite D; exact Hf). destruct (Hb g Hg) as (h & qs & E' & D' & B').
  exists h, (ps ++ qs). unfold m_seq. rewrite E. split; [exact E'|]. split; [congruence|]. rewrite B', B, app_assoc. reflexivity.
Qed.
Lemma runs_fun n (m : fmt -> fm) : (forall f, runs n (m f)) -> runs n (fun f => m f f).
Proof. intros H f Hf. exact (H f f Hf). Qed.
Lemma runs_when n c m : runs n m -> runs n (m_when c m).
Proof. intros H. destruct c; [exact H|apply runs_ret]. Qed.
Lemma runs_write n k s : runs n (write k s).
Proof. intros f _. unfold write. destruct (_ || _); eexists _, _; (split; [reflexivity|]); (split; [reflexivity|]); cbn [f_buf]; [reflexivity|symmetry; apply app_nil_r]. Qed.
Lemma runs_spaces n k : runs n (write_spaces k).
Proof. apply runs_write. Qed.
Lemma runs_line n : runs n (write_line_ending cfg).
Proof. apply runs_write. Qed.
Lemma runs_iter {A} n (g : A -> fm) l : (forall a, In a l -> runs n (g a)) -> runs n (m_iter g l).
Proof. induction l as [|a l IH]; intros H; [apply runs_ret|]. cbn [m_iter]. apply runs_seq; [apply H; left; reflexivity|]. apply IH. intros x Hx. apply H. right. exact Hx. Qed.
Lemma runs_iter_first {A} n (g : bool -> A -> fm) l : (forall b a, In a l -> runs n (g b a)) -> forall b, runs n (m_iter_first g b l).
Proof. induction l as [|a l IH]; intros H b; [apply runs_ret|]. cbn [m_iter_first]. apply runs_seq; [apply H; left; reflexivity|]. apply IH. intros c x Hx. apply H. right. exact Hx. Qed.
Lemma runs_blank_lines n k : runs n (write_blank_lines cfg k).
Proof. apply runs_iter. intros; apply runs_line. Qed.
Lemma runs_skip n b : runs n (set_skip b).
Proof. intros f _. eexists _, []. split; [reflexivity|]. split; [reflexivity|]. cbn [f_buf]. rewrite app_nil_r. reflexivity. Qed.
Lemma indent_some d : d <= room -> exists s, indent cfg d = Some s.
Proof.
  intros Hd. unfold indent. destruct (f_indent_tab cfg) eqn:E; [eauto|]. destruct HI as [HI'|HI']; [discriminate HI'|]. assert (H : f_indent_width cfg * d < 256) by nia. apply N.ltb_lt in H. rewrite H. eauto.
Qed.
Lemma runs_indent n : runs n (write_indent cfg).
Proof.
  intros f Hf. unfold write_indent. destruct (f_skip_indent f); [exact (runs_skip n false f Hf)|]. destruct (indent_some (f_depth f)) as [s ->]; [lia|]. exact (runs_write n _ s f Hf).
Qed.
Lemma runs_nested n m rest : runs n m -> runs (S n) rest -> runs (S n) (inc_indent ;; m ;; dec_indent ;; rest).
Proof.
  intros Hm Hr f Hf. unfold m_seq at 1. unfold inc_indent. assert (HL : f_depth f < 255) by lia. rewrite (proj2 (N.ltb_lt _ _) HL). cbn [set_depth].
  destruct (Hm (F (f_depth f + 1) (f_skip_indent f) (f_skip_comment f) (f_single_line f) (f_buf f))) as (g & ps & E & D & B); [cbn [f_depth]; lia|]. cbn [f_depth f_buf] in D, B. unfold set_depth. unfold m_seq at 1. rewrite E.
  unfold m_seq, dec_indent. destruct (Hr (F (f_depth g - 1) (f_skip_indent g) (f_skip_comment g) (f_single_line g) (f_buf g))) as (h & qs & E' & D' & B'); [cbn [f_depth]; lia|]. cbn [f_depth f_buf] in D', B'. unfold set_depth.
  exists h, (ps ++ qs). split; [exact E'|]. split; [lia|]. rewrite B', B, app_assoc. reflexivity.
Qed.

(** ** Comments *)
Lemma runs_comment n strip c : written_piece (COMMENT, c) -> runs n (fmt_comment cfg dir strip c).
Proof. intros [H _]. destruct (H eq_refl strip) as [t E]. cbn [snd] in E. unfold fmt_comment. rewrite E. apply runs_write. Qed.
Lemma in_comments cs c : fine (map comment_piece cs) -> In c cs -> written_piece (COMMENT, c).
Proof. intros H Hc. rewrite Forall_forall in H. exact (H _ (in_map comment_piece _ _ Hc)). Qed.
Lemma runs_leading n cs : fine (map comment_piece cs) -> runs n (fmt_leading cfg dir cs).
Proof.
  intros H. unfold fmt_leading. apply (runs_fun n (fun f => m_when (negb (f_skip_comment f)) _)). intros f. apply runs_when. apply runs_iter_first. intros b c Hc.
  apply runs_seq; [apply runs_indent|]. apply runs_seq; [apply runs_comment; exact (in_comments cs c H Hc)|apply runs_line].
Qed.
Lemma runs_dangling n cs : fine (map comment_piece cs) -> runs n (fmt_dangling cfg dir cs).
Proof.
  intros H. unfold fmt_dangling. apply (runs_fun n (fun f => m_when (negb (f_skip_comment f)) _)). intros f. apply runs_when. apply runs_iter_first. intros b c Hc.
  apply runs_seq; [apply runs_when; apply runs_line|]. apply runs_seq; [apply runs_indent|]. apply runs_comment. exact (in_comments cs c H Hc).
Qed.
Lemma runs_trailing n c : written_piece (COMMENT, c) -> runs n (fmt_trailing cfg dir c).
Proof.
  intros H. unfold fmt_trailing. apply (runs_fun n (fun f => m_when (negb (f_skip_comment f)) _)). intros f. apply runs_when. apply runs_seq; [apply runs_spaces|apply runs_comment; exact H].
Qed.
Lemma runs_alignment n al : runs n (write_alignment_space gr al).
Proof. unfold write_alignment_space. destruct al as [w|]; [|exact (runs_ret n)]. exact (runs_fun n (fun f => write_spaces (w - current_line_width gr f)) (fun f => runs_spaces n _)). Qed.
Lemma runs_trailing_opt n al tc : fine (opt_comment tc) -> runs n (fmt_trailing_opt cfg gr dir al tc).
Proof. destruct tc as [c|]; intros H; [|apply runs_ret]. inversion H; subst. apply runs_seq; [apply runs_alignment|apply runs_trailing; assumption]. Qed.
Lemma runs_separator n b : runs n (fmt_separator cfg b).
Proof. unfold fmt_separator. destruct (_ =? 0); [apply runs_line|apply runs_blank_lines]. Qed.
Lemma runs_groups {I} n (fi : list I -> fm) gs : (forall g, In g gs -> match g with GD _ cs => fine (map comment_piece cs) | GI _ its => runs n (fi its) end) -> forall w, runs n (fmt_groups cfg dir fi w gs).
Proof.
  induction gs as [|g gs IH]; intros H w; [apply runs_ret|]. assert (HG := H g (or_introl eq_refl)). assert (IH' : forall w, runs n (fmt_groups cfg dir fi w gs)) by (apply IH; intros g' Hg'; apply H; right; exact Hg').
  destruct g as [b cs|b its].
  - intros f Hf. cbn [fmt_groups]. fold (fmt_groups cfg dir fi). destruct (f_skip_comment f); [exact (IH' w f Hf)|]. refine (runs_seq n _ _ (runs_when n w _ (runs_separator n b)) _ f Hf). apply runs_seq; [apply runs_dangling; exact HG|apply IH'].
  - cbn [fmt_groups]. fold (fmt_groups cfg dir fi). apply runs_seq; [apply runs_when; apply runs_separator|]. apply runs_seq; [exact HG|apply IH'].
Qed.

(** ** Keys and values *)
Lemma runs_piece n p : (exists q, p = Some q) -> runs n (write_piece p).
Proof. intros [[k s] ->]. apply runs_write. Qed.
Lemma keys_in ks k : In k ks -> In k (keys_content ks).
Proof.
  induction ks as [|a ks IH]; intros H; [destruct H|]. destruct H as [<- |H]; [destruct ks; left; reflexivity|]. destruct ks as [|b ks]; [destruct H|]. right. right. exact (IH H).
Qed.
Lemma runs_keys n ks : forallb (fun k => key_kind (fst k)) ks = true -> fine (keys_content ks) -> runs n (fmt_keys cfg gr None ks).
Proof.
  intros HK HF. unfold fmt_keys, write_keys. rewrite forallb_forall in HK. rewrite Forall_forall in HF. change (runs n (m_iter_first (fun first k => m_when (negb first) (write DOT [46]) ;; write_piece (key_piece cfg k)) true ks)).
  apply runs_iter_first. intros b k Hk. apply runs_seq; [apply runs_when; apply runs_write|]. apply runs_piece. destruct (HF k (keys_in ks k Hk)) as (_ & H & _). apply H. exact (HK k Hk).
Qed.
Lemma item_fine f lead ks raw v c : fine (item_content f (Item lead ks raw v c)) -> fine (map comment_piece lead) /\ fine (keys_content ks) /\ fine (f v) /\ fine (comma_content c).
Proof.
  unfold item_content. destruct ks as [|k ks]; intros H; rewrite !Forall_app in H; [destruct H as (H1 & H2 & H3)|destruct H as (H1 & H2 & H3 & H4 & H5)]; (split; [assumption|]); (split; [|auto]); [constructor|assumption].
Qed.
Lemma runs_item n fv table lead ks raw v c al : wf_item table (Item lead ks raw v c) = true -> fine (map comment_piece lead) -> fine (keys_content ks) -> runs n (fv al v) -> runs n (fmt_item cfg gr dir fv None al (Item lead ks raw v c)).
Proof.
  intros HW HL HK HV. destruct ks as [|k ks]; [exact HV|]. cbn [fmt_item]. apply runs_seq; [apply runs_leading; exact HL|]. apply runs_seq; [apply runs_indent|]. apply runs_seq.
  - apply runs_keys; [|exact HK]. destruct table; cbn [wf_item nonempty negb] in HW; [|discriminate HW]. apply andb_prop in HW as [HW _]. unfold wf_keys in HW. apply andb_prop in HW as [_ HW]. exact HW.
  - apply runs_seq; [apply runs_spaces|]. apply runs_seq; [apply runs_write|]. apply runs_seq; [apply runs_spaces|]. apply runs_seq; [apply runs_skip|exact HV].
Qed.
Lemma comma_fine lead tc : fine (comma_content (Some (Comma lead tc))) -> fine (map comment_piece lead) /\ fine (opt_comment tc).
Proof. cbn [comma_content]. apply Forall_app. Qed.
Lemma runs_comma n al b c : fine (comma_content c) -> runs n (fmt_comma cfg gr dir al b c).
Proof.
  destruct c as [[lead tc]|]; intros H; [|apply runs_ret]. apply comma_fine in H as [H1 H2]. cbn [fmt_comma]. apply runs_seq; [|apply runs_seq; [apply runs_write|apply runs_trailing_opt; exact H2]].
  destruct (nonempty lead); [|apply runs_when]; (apply runs_seq; [apply runs_line|]); [apply runs_seq; [apply runs_leading; exact H1|]|]; apply runs_indent.
Qed.
Lemma runs_literal n al lead k tok tc : literal_kind k = true -> fine (map comment_piece lead ++ [(k, tok)] ++ opt_comment tc) -> runs n (fmt_literal cfg gr dir al lead k tok tc).
Proof.
  intros HK HF. rewrite !Forall_app in HF. destruct HF as (H1 & H2 & H3). unfold fmt_literal. apply runs_seq; [apply runs_leading; exact H1|]. apply runs_seq; [apply runs_indent|]. apply runs_seq; [|apply runs_trailing_opt; exact H3].
  apply runs_piece. inversion H2 as [|x l HP _]; subst. destruct HP as (_ & _ & HP). exact (HP HK).
Qed.
Lemma equal_none its : key_value_equal_alignment_width cfg gr its = Some None.
Proof. unfold key_value_equal_alignment_width. rewrite HA. reflexivity. Qed.

(** a value, an item, a group that can be written; [n] is room for its brackets *)
Definition value_runs (v : fval) : Prop :=
  (forall al, runs (vnest v) (fmt_value cfg gr dir al v)) /\ (forall f, f_depth f + N.of_nat (vnest v) <= room -> exists b, exceeds_line_width cfg gr dir v f = Some b).
Definition item_ok (table : bool) (i : item fval) : Prop :=
  match i with Item lead ks raw v c => wf_item table (Item lead ks raw v c) = true /\ fine (map comment_piece lead) /\ fine (keys_content ks) /\ fine (comma_content c) /\ value_runs v end.
Definition group_ok (table : bool) (n : nat) (g : group (item fval)) : Prop :=
  match g with GD _ cs => fine (map comment_piece cs) | GI _ its => forall i, In i its -> item_ok table i /\ (inest i <= n)%nat end.
Lemma item_runs table n i al : item_ok table i -> (inest i <= n)%nat -> runs n (fmt_item cfg gr dir (fmt_value cfg gr dir) None al i).
Proof. destruct i as [lead ks raw v c]. intros (HW & HL & HK & HC & HV) HN. apply (runs_item n _ table); auto. apply (runs_le (vnest v)); [exact HN|apply HV]. Qed.
Lemma runs_multi_items table n al its : (forall i, In i its -> item_ok table i /\ (inest i <= n)%nat) -> runs n (fmt_multi_items cfg gr dir (fmt_value cfg gr dir) None al its).
Proof.
  intros H. unfold fmt_multi_items. apply runs_iter_first. intros b i Hi. destruct (H i Hi) as [HO HN]. apply runs_seq; [apply runs_when; apply runs_line|]. apply runs_seq; [exact (item_runs table n i al HO HN)|].
  destruct i as [lead ks raw v c]. destruct HO as (_ & _ & _ & HC & _). apply runs_comma. exact HC.
Qed.
Lemma runs_groups_of table n al gs : (forall g, In g gs -> group_ok table n g) -> forall w, runs n (fmt_groups cfg dir (fmt_multi_items cfg gr dir (fmt_value cfg gr dir) None al) w gs).
Proof. intros H. apply runs_groups. intros g Hg. specialize (H g Hg). destruct g as [b cs|b its]; [exact H|]. apply (runs_multi_items table). exact H. Qed.
Lemma runs_multi table n al lead otc gs tc : (forall g, In g gs -> group_ok table n g) -> fine (map comment_piece lead) -> fine (opt_comment otc) -> fine (opt_comment tc) ->
  runs (S n) (fmt_multi cfg gr dir (fmt_value cfg gr dir) al table lead otc gs tc).
Proof.
  intros HG HL HO HT. unfold fmt_multi. apply runs_seq; [apply runs_leading; exact HL|]. apply runs_seq; [apply runs_indent|]. apply runs_seq; [apply runs_piece; eauto|]. apply runs_seq; [apply runs_trailing_opt; exact HO|]. apply runs_seq; [apply runs_line|].
  apply runs_nested; [|apply runs_seq; [apply runs_line|]; apply runs_seq; [apply runs_indent|]; apply runs_seq; [apply runs_piece; eauto|apply runs_trailing_opt; exact HT]].
  destruct table; [rewrite equal_none|]; eapply runs_groups_of; exact HG.
Qed.
Lemma runs_single_items table n al its : (forall i, In i its -> item_ok table i /\ (inest i <= n)%nat) -> forall b, runs n (fmt_single_items cfg gr dir (fmt_value cfg gr dir) al table b its).
Proof.
  intros H. unfold fmt_single_items. apply runs_iter_first. intros b i Hi. destruct (H i Hi) as [HO HN]. apply runs_seq; [apply runs_when; apply runs_seq; [apply runs_write|apply runs_spaces]|]. apply runs_seq; [apply runs_skip|]. exact (item_runs table n i al HO HN).
Qed.
Lemma runs_single_groups table n al gs : (forall g, In g gs -> group_ok table n g) -> forall b, runs n (fmt_single_groups cfg gr dir (fmt_value cfg gr dir) al table b gs).
Proof.
  induction gs as [|g gs IH]; intros H b; [apply runs_ret|]. assert (HG := H g (or_introl eq_refl)). assert (IH' : forall b, runs n (fmt_single_groups cfg gr dir (fmt_value cfg gr dir) al table b gs)) by (apply IH; intros g' Hg'; apply H; right; exact Hg').
  destruct g as [k cs|k its]; cbn [fmt_single_groups]; fold (fmt_single_groups cfg gr dir (fmt_value cfg gr dir) al table); [apply IH'|]. apply runs_seq; [apply runs_single_items; exact HG|apply IH'].
Qed.
Lemma runs_single table n al lead gs tc : (forall g, In g gs -> group_ok table n g) -> fine (map comment_piece lead) -> fine (opt_comment tc) ->
  runs (S n) (fmt_single cfg gr dir (fmt_value cfg gr dir) al table lead gs tc).
Proof.
  intros HG HL HT. unfold fmt_single. apply runs_seq; [apply runs_leading; exact HL|]. apply runs_seq; [apply runs_indent|]. apply runs_seq; [|apply runs_trailing_opt; exact HT].
  destruct (nonempty (items_of gs)); [|apply runs_seq; apply runs_piece; eauto]. apply runs_seq; [apply runs_piece; eauto|]. apply runs_seq; [apply runs_spaces|].
  apply runs_seq; [apply (runs_le n); [lia|]; apply runs_single_groups; exact HG|]. apply runs_seq; [apply runs_spaces|apply runs_piece; eauto].
Qed.
Lemma to_string_some n m f : runs n m -> f_depth f + N.of_nat n <= room -> exists s, format_to_string m f = Some s.
Proof. intros H Hf. unfold format_to_string. destruct (H (F (f_depth f) (f_skip_indent f) (f_skip_comment f) (f_single_line f) []) Hf) as (f' & ps & -> & _). cbn. eauto. Qed.
Lemma exceeds_items_some table n f its : (forall i, In i its -> item_ok table i /\ (inest i <= n)%nat) -> f_depth f + N.of_nat n <= room -> forall acc, exists r, exceeds_items cfg gr dir (exceeds_line_width cfg gr dir) (fmt_value cfg gr dir) table f its acc = Some r.
Proof.
  intros H Hf. induction its as [|i its IH]; intros acc; [eexists; reflexivity|]. destruct (H i (or_introl eq_refl)) as [HO HN].
  assert (IH' : forall acc, exists r, exceeds_items cfg gr dir (exceeds_line_width cfg gr dir) (fmt_value cfg gr dir) table f its acc = Some r) by (apply IH; intros j Hj; apply H; right; exact Hj).
  cbn [exceeds_items]. fold (exceeds_items cfg gr dir (exceeds_line_width cfg gr dir) (fmt_value cfg gr dir) table f).
  destruct (to_string_some n _ f (item_runs table n i None HO HN) Hf) as [s Es]. rewrite Es.
  assert (HM : exists b, nested_multiline cfg (exceeds_line_width cfg gr dir) (match i with Item _ _ _ v _ => v end) f = Some b).
  { destruct i as [lead ks raw v c]. destruct HO as (_ & _ & _ & _ & HV). unfold inest in HN. cbn [ival] in HN. destruct v as [l k t tc|tb l o gs tc]; [eexists; reflexivity|]. cbn [nested_multiline]. destruct (should_be_multiline _ _); [eauto|]. apply HV. lia. }
  destruct HM as [b ->]. destruct b; [eauto|apply IH'].
Qed.
Lemma exceeds_groups_some table n f gs : (forall g, In g gs -> group_ok table n g) -> f_depth f + N.of_nat n <= room -> forall acc, exists r, exceeds_groups cfg gr dir (exceeds_line_width cfg gr dir) (fmt_value cfg gr dir) table f gs acc = Some r.
Proof.
  intros H Hf. induction gs as [|g gs IH]; intros acc; [eexists; reflexivity|]. assert (HG := H g (or_introl eq_refl)).
  assert (IH' : forall acc, exists r, exceeds_groups cfg gr dir (exceeds_line_width cfg gr dir) (fmt_value cfg gr dir) table f gs acc = Some r) by (apply IH; intros j Hj; apply H; right; exact Hj).
  destruct g as [k cs|k its]; cbn [exceeds_groups]; fold (exceeds_groups cfg gr dir (exceeds_line_width cfg gr dir) (fmt_value cfg gr dir) table f); [apply IH'|].
  destruct (exceeds_items_some table n f its HG Hf acc) as [[b|acc'] ->]; [eauto|apply IH'].
Qed.
Lemma exceeds_some table n f gs tc : (forall g, In g gs -> group_ok table n g) -> fine (opt_comment tc) -> f_depth f + N.of_nat n <= room -> exists b, exceeds cfg gr dir (exceeds_line_width cfg gr dir) (fmt_value cfg gr dir) table gs tc f = Some b.
Proof.
  intros H HT Hf. unfold exceeds. destruct (_ && _); [eauto|]. destruct (exceeds_groups_some table n f gs H Hf (current_line_width gr f + 2 + 2 * box_space cfg table, true)) as [[b|[m x]] ->]; [eauto|].
  destruct tc as [c|]; [|eauto]. inversion HT; subst. destruct (to_string_some n _ f (runs_trailing n c ltac:(assumption)) Hf) as [s ->]. cbn [option_map]. eauto.
Qed.
Lemma box_groups table gs : forallb (fun g => match g with
        | GD _ cs => nonempty cs
        | GI _ its => nonempty its && forallb (fun i => match i with Item l ks r v c => wf_item table (Item l ks r v c) && wf_value v end) its
        end) gs = true -> fine (flat_map (fun g => match g with
        | GD _ cs => map comment_piece cs
        | GI _ its => flat_map (fun i => match i with Item l ks r v c => item_content (fun _ => value_content v) (Item l ks r v c) end) its
        end) gs) -> Forall (group_all (fun v => wf_value v = true -> fine (value_content v) -> value_runs v)) gs -> forall g, In g gs -> group_ok table (gsnest gs) g.
Proof.
  intros HW HF HG g Hg. rewrite forallb_forall in HW. specialize (HW g Hg). rewrite Forall_forall in HG. specialize (HG g Hg).
  assert (HFg : fine (match g with GD _ cs => map comment_piece cs | GI _ its => flat_map (fun i => match i with Item l ks r v c => item_content (fun _ => value_content v) (Item l ks r v c) end) its end)).
  { rewrite Forall_forall in HF |- *. intros p Hp. apply HF. apply in_flat_map. exists g. auto. }
  assert (HN : (gnest g <= gsnest gs)%nat) by (clear -Hg; induction gs as [|a gs IH]; [destruct Hg|]; cbn [gsnest fold_right]; fold (gsnest gs); destruct Hg as [-> |Hg]; [apply Nat.le_max_l|specialize (IH Hg); lia]).
  destruct g as [k cs|k its]; [exact HFg|]. intros i Hi. cbn [gnest] in HN. apply andb_prop in HW as [_ HW]. rewrite forallb_forall in HW. specialize (HW i Hi). cbn [group_all] in HG. rewrite Forall_forall in HG. specialize (HG i Hi).
  assert (HFi : fine (match i with Item l ks r v c => item_content (fun _ => value_content v) (Item l ks r v c) end)).
  { rewrite Forall_forall in HFg |- *. intros p Hp. apply HFg. apply in_flat_map. exists i. auto. }
  assert (HNi : (inest i <= isnest its)%nat) by (clear -Hi; induction its as [|a its IH]; [destruct Hi|]; cbn [isnest fold_right]; fold (isnest its); destruct Hi as [-> |Hi]; [apply Nat.le_max_l|specialize (IH Hi); lia]).
  split; [|lia]. destruct i as [lead ks raw v c]. apply andb_prop in HW as [HW HWv]. apply item_fine in HFi as (H1 & H2 & H3 & H4). cbn [ival] in HG. unfold item_ok. auto 7.
Qed.
Lemma value_total v : wf_value v = true -> fine (value_content v) -> value_runs v.
Proof.
  induction v as [lead k tok tc|table lead otc gs tc HG] using fval_ind'; intros HW HF.
  - split; [|intros f _; eexists; reflexivity]. intros al. cbn [fmt_value]. apply runs_literal; [exact HW|exact HF].
  - cbn [value_content] in HF. cbn [wf_value] in HW. rewrite !Forall_app in HF. destruct HF as (H1 & _ & H2 & H3 & _ & H4). pose proof (box_groups table gs HW H3 HG) as HGS. split.
    + intros al. rewrite vnest_box. intros f Hf.
      assert (HX : exists b, (if f_single_line f then Some false else if should_be_multiline (f_toml_version cfg) (FBox table lead otc gs tc) then Some true else exceeds cfg gr dir (exceeds_line_width cfg gr dir) (fmt_value cfg gr dir) table gs tc f) = Some b).
      { destruct (f_single_line f); [eauto|]. destruct (should_be_multiline _ _); [eauto|]. apply (exceeds_some table (gsnest gs)); auto. lia. }
      destruct HX as [b HX].
      assert (EQ : fmt_value cfg gr dir al (FBox table lead otc gs tc) f = match (if f_single_line f then Some false else if should_be_multiline (f_toml_version cfg) (FBox table lead otc gs tc) then Some true else exceeds cfg gr dir (exceeds_line_width cfg gr dir) (fmt_value cfg gr dir) table gs tc f) with None => None | Some true => fmt_multi cfg gr dir (fmt_value cfg gr dir) al table lead otc gs tc f | Some false => fmt_single cfg gr dir (fmt_value cfg gr dir) al table lead gs tc f end) by reflexivity.
      rewrite EQ, HX. destruct b; [apply (runs_multi table (gsnest gs)); auto|apply (runs_single table (gsnest gs)); auto].
    + intros f Hf. rewrite vnest_box in Hf. change (exists b, exceeds cfg gr dir (exceeds_line_width cfg gr dir) (fmt_value cfg gr dir) table gs tc f = Some b). apply (exceeds_some table (gsnest gs)); auto. lia.
Qed.

(** ** Lines and tables *)
Lemma group_total n g : wf_group g = true -> fine (group_content g) -> (gnest g <= n)%nat -> group_ok true n g.
Proof.
  destruct g as [k cs|k its]; intros HW HF HN; [exact HF|]. intros i Hi. cbn [wf_group] in HW. apply andb_prop in HW as [_ HW]. rewrite forallb_forall in HW. specialize (HW i Hi).
  assert (HFi : fine (item_content value_content i)) by (cbn [group_content] in HF; rewrite Forall_forall in HF |- *; intros p Hp; apply HF; apply in_flat_map; exists i; auto).
  assert (HNi : (inest i <= isnest its)%nat) by (clear -Hi; induction its as [|a its IH]; [destruct Hi|]; cbn [isnest fold_right]; fold (isnest its); destruct Hi as [-> |Hi]; [apply Nat.le_max_l|specialize (IH Hi); lia]).
  cbn [gnest] in HN. split; [|lia]. destruct i as [lead ks raw v c]. apply andb_prop in HW as [HW HWv]. apply item_fine in HFi as (H1 & H2 & H3 & H4). cbn [ival] in HWv. pose proof (value_total v HWv H3). unfold item_ok. auto 7.
Qed.
Lemma split_some acc s : s <> [] \/ acc <> [] -> split_lines acc s <> [].
Proof. destruct s as [|c s]; cbn [split_lines]; [destruct acc; intros [H|H]; congruence|]. intros _. destruct (N.eqb c 10); [discriminate|]. revert acc c. induction s as [|d s IH]; intros acc c; cbn [split_lines]; [discriminate|]. destruct (N.eqb d 10); [discriminate|apply IH]. Qed.
Lemma alignment_some s : s <> [] -> exists w, alignment_width gr s = Some w.
Proof. intros H. unfold alignment_width. pose proof (split_some [] s (or_introl H)) as HN. destruct (split_lines [] s); [contradiction|]. cbn [map max_list]. eauto. Qed.
Lemma item_written lead k ks raw v c al n f : item_ok true (Item lead (k :: ks) raw v c) -> (vnest v <= n)%nat -> f_depth f + N.of_nat n <= room ->
  exists s, format_to_string_without_comment (fmt_item cfg gr dir (fmt_value cfg gr dir) None al (Item lead (k :: ks) raw v c)) f = Some s /\ s <> [].
Proof.
  intros (HW & HL & HK & HC & HV) HN Hf. unfold format_to_string_without_comment. set (f0 := F (f_depth f) (f_skip_indent f) true (f_single_line f) []). assert (Hf0 : f_depth f0 + N.of_nat n <= room) by exact Hf.
  assert (HKS : forallb (fun k => key_kind (fst k)) (k :: ks) = true) by (cbn [wf_item] in HW; apply andb_prop in HW as [HW _]; unfold wf_keys in HW; apply andb_prop in HW as [_ HW]; exact HW).
  assert (HP : runs n (fmt_leading cfg dir lead ;; write_indent cfg ;; fmt_keys cfg gr None (k :: ks) ;; write_spaces (f_key_value_equal_space cfg))).
  { apply runs_seq; [apply runs_leading; exact HL|]. apply runs_seq; [apply runs_indent|]. apply runs_seq; [exact (runs_keys n (k :: ks) HKS HK)|apply runs_spaces]. }
  assert (HQ : runs n (write_spaces (f_key_value_equal_space cfg) ;; skip_indent ;; fmt_value cfg gr dir al v)).
  { apply runs_seq; [apply runs_spaces|]. apply runs_seq; [apply runs_skip|]. apply (runs_le (vnest v)); [exact HN|apply HV]. }
  assert (E : fmt_item cfg gr dir (fmt_value cfg gr dir) None al (Item lead (k :: ks) raw v c) f0 = ((fmt_leading cfg dir lead ;; write_indent cfg ;; fmt_keys cfg gr None (k :: ks) ;; write_spaces (f_key_value_equal_space cfg)) ;; write EQUAL [61] ;; (write_spaces (f_key_value_equal_space cfg) ;; skip_indent ;; fmt_value cfg gr dir al v)) f0).
  { cbn [fmt_item]. unfold m_seq. destruct (fmt_leading cfg dir lead f0) as [g|]; [|reflexivity]. destruct (write_indent cfg g) as [g1|]; [|reflexivity]. destruct (fmt_keys cfg gr None (k :: ks) g1); reflexivity. }
  rewrite E. destruct (HP f0 Hf0) as (g & ps & E1 & D1 & B1). unfold m_seq at 1. rewrite E1. unfold m_seq at 1. unfold write at 1. cbn [nonempty orb].
  set (g' := F (f_depth g) (f_skip_indent g) (f_skip_comment g) (f_single_line g) (f_buf g ++ [(EQUAL, [61])])). destruct (HQ g') as (h & qs & E2 & D2 & B2); [cbn [g' f_depth]; rewrite D1; exact Hf0|]. rewrite E2. cbn [option_map]. eexists. split; [reflexivity|].
  rewrite B2. cbn [g' f_buf]. unfold ptext. rewrite !flat_map_app. cbn. intros HX. apply app_eq_nil in HX as [HX _]. apply app_eq_nil in HX as [_ HX]. discriminate HX.
Qed.
Lemma opt_all_some {A B} (f : A -> option B) l : (forall a, In a l -> exists b, f a = Some b) -> exists bs, opt_all f l = Some bs.
Proof.
  induction l as [|a l IH]; intros H; [eexists; reflexivity|]. destruct (H a (or_introl eq_refl)) as [b Eb]. destruct IH as [bs Ebs]; [intros x Hx; apply H; right; exact Hx|]. cbn [opt_all]. fold (opt_all f). rewrite Eb, Ebs. eauto.
Qed.
Lemma runs_line_comma n al b c : fine (comma_content c) -> runs n (fmt_line_comma cfg gr dir al b c).
Proof.
  destruct c as [[lead tc]|]; intros H; [|apply runs_ret]. apply comma_fine in H as [H1 H2]. cbn [fmt_line_comma]. destruct tc as [c|].
  - destruct (_ && _); [apply runs_trailing_opt; exact H2|]. apply runs_seq; [apply runs_line|]. apply runs_seq; [apply runs_when; apply runs_leading; exact H1|]. apply runs_seq; [apply runs_indent|]. apply runs_seq; [apply runs_write|apply runs_trailing_opt; exact H2].
  - apply runs_when. apply runs_seq; [apply runs_line|]. apply runs_seq; [apply runs_leading; exact H1|]. apply runs_seq; [apply runs_indent|apply runs_write].
Qed.
Lemma runs_key_value_group n its : (forall i, In i its -> item_ok true i /\ (inest i <= n)%nat) -> runs n (fmt_key_value_group cfg gr dir its).
Proof.
  intros H f Hf. unfold fmt_key_value_group. rewrite equal_none.
  assert (HT : exists al, trailing_comment_alignment_width cfg gr dir None its f = Some al).
  { unfold trailing_comment_alignment_width. destruct (f_trailing_comment_alignment cfg); [|eauto].
    destruct (opt_all_some (fun i => match format_to_string_without_comment (fmt_item cfg gr dir (fmt_value cfg gr dir) None None i) f with Some s => alignment_width gr s | None => None end) its) as [bs ->]; [|cbn; eauto].
    intros i Hi. destruct (H i Hi) as [HO HN]. destruct i as [lead [|k ks] raw v c]; [destruct HO as (HW & _); discriminate HW|]. destruct (item_written lead k ks raw v c None n f HO HN Hf) as (s & -> & Hs). exact (alignment_some s Hs). }
  destruct HT as [al ->]. refine (runs_iter_first n _ its _ true f Hf). intros b i Hi. destruct (H i Hi) as [HO HN]. apply runs_seq; [apply runs_when; apply runs_line|]. apply runs_seq; [exact (item_runs true n i al HO HN)|].
  destruct i as [lead ks raw v c]. destruct HO as (_ & _ & _ & HC & _). apply runs_line_comma. exact HC.
Qed.
Lemma groups_total n gs : forallb wf_group gs = true -> fine (flat_map group_content gs) -> (gsnest gs <= n)%nat -> forall w, runs n (fmt_groups cfg dir (fmt_key_value_group cfg gr dir) w gs).
Proof.
  intros HW HF HN. apply runs_groups. intros g Hg. rewrite forallb_forall in HW.
  assert (HFg : fine (group_content g)) by (rewrite Forall_forall in HF |- *; intros p Hp; apply HF; apply in_flat_map; exists g; auto).
  assert (HNg : (gnest g <= gsnest gs)%nat) by (clear -Hg; induction gs as [|a gs IH]; [destruct Hg|]; cbn [gsnest fold_right]; fold (gsnest gs); destruct Hg as [-> |Hg]; [apply Nat.le_max_l|specialize (IH Hg); lia]).
  pose proof (group_total n g (HW g Hg) HFg ltac:(lia)) as H. destruct g as [k cs|k its]; [exact H|]. apply runs_key_value_group. exact H.
Qed.
Lemma runs_incs n k m rest : runs n m -> runs (k + n) rest -> runs (k + n) (m_iter (fun _ => inc_indent) (repeat tt k) ;; m ;; m_iter (fun _ => dec_indent) (repeat tt k) ;; rest).
Proof.
  intros Hm Hr f Hf.
  assert (HU : forall k f, f_depth f + N.of_nat k <= room -> m_iter (fun _ => inc_indent) (repeat tt k) f = Some (F (f_depth f + N.of_nat k) (f_skip_indent f) (f_skip_comment f) (f_single_line f) (f_buf f))).
  { clear -HR. intros k. induction k as [|k IH]; intros [d a b c e] Hf; cbn [f_depth] in *; [cbn; rewrite N.add_0_r; reflexivity|]. cbn [repeat m_iter]. unfold m_seq at 1, inc_indent at 1. cbn [f_depth]. assert (HL : d < 255) by lia. rewrite (proj2 (N.ltb_lt _ _) HL). unfold set_depth. cbn [f_skip_indent f_skip_comment f_single_line f_buf].
    fold (@m_iter unit). etransitivity; [apply IH; cbn [f_depth]; lia|]. cbn [f_depth f_skip_indent f_skip_comment f_single_line f_buf]. f_equal. f_equal. lia. }
  assert (HDn : forall k f, m_iter (fun _ => dec_indent) (repeat tt k) f = Some (F (f_depth f - N.of_nat k) (f_skip_indent f) (f_skip_comment f) (f_single_line f) (f_buf f))).
  { clear. intros k. induction k as [|k IH]; intros [d a b c e]; cbn [f_depth]; [cbn; rewrite N.sub_0_r; reflexivity|]. cbn [repeat m_iter]. unfold m_seq at 1, dec_indent at 1, set_depth. cbn [f_depth f_skip_indent f_skip_comment f_single_line f_buf].
    fold (@m_iter unit). etransitivity; [apply IH|]. cbn [f_depth f_skip_indent f_skip_comment f_single_line f_buf]. f_equal. f_equal. lia. }
  unfold m_seq at 1. rewrite HU by lia. destruct (Hm (F (f_depth f + N.of_nat k) (f_skip_indent f) (f_skip_comment f) (f_single_line f) (f_buf f))) as (g & ps & E & D & B); [cbn [f_depth]; lia|]. cbn [f_depth f_buf] in D, B. unfold m_seq at 1. rewrite E. unfold m_seq at 1. rewrite HDn.
  destruct (Hr (F (f_depth g - N.of_nat k) (f_skip_indent g) (f_skip_comment g) (f_single_line g) (f_buf g))) as (h & qs & E' & D' & B'); [cbn [f_depth]; lia|]. cbn [f_depth f_buf] in D', B'. exists h, (ps ++ qs). split; [exact E'|]. split; [lia|]. rewrite B', B, app_assoc. reflexivity.
Qed.
Lemma uniques_le seen l : (uniques seen l <= length l)%nat.
Proof. revert seen. induction l as [|a l IH]; intros seen; cbn [uniques length]; [lia|]. destruct (existsb _ seen); [specialize (IH seen); lia|specialize (IH (a :: seen)); lia]. Qed.
Lemma filter_le {A} (p : A -> bool) l : (length (filter p l) <= length l)%nat.
Proof. induction l as [|a l IH]; cbn [filter length]; [lia|]. destruct (p a); cbn [length]; lia. Qed.
Lemma take_while_le {A} (p : A -> bool) l : (length (take_while p l) <= length l)%nat.
Proof. induction l as [|a l IH]; cbn [take_while length]; [lia|]. destruct (p a); cbn [length]; lia. Qed.
Lemma sub_table_depth_le before ks : (sub_table_depth cfg before ks <= length before)%nat.
Proof. unfold sub_table_depth. etransitivity; [apply uniques_le|]. rewrite map_length. etransitivity; [apply filter_le|]. etransitivity; [apply filter_le|]. apply take_while_le. Qed.
Lemma seq_assoc a b c f : ((a ;; b) ;; c) f = (a ;; b ;; c) f.
Proof. unfold m_seq. destruct (a f); reflexivity. Qed.
Lemma table_steps (u b1 b2 b3 b4 b5 b6 b7 b8 i g d ds : fm) f :
  (u ;; b1 ;; b2 ;; b3 ;; b4 ;; b5 ;; b6 ;; b7 ;; b8 ;; i ;; g ;; d ;; ds) f = (u ;; ((b1 ;; b2 ;; b3 ;; b4 ;; b5 ;; b6 ;; b7 ;; b8) ;; (i ;; g ;; d ;; m_ret)) ;; ds ;; m_ret) f.
Proof.
  unfold m_seq, m_ret. repeat match goal with |- context [match ?a ?x with _ => _ end] => is_var a; is_var x; destruct (a x); [|reflexivity] end. reflexivity.
Qed.
Definition line_indent : nat := if f_indent_table_key_values cfg then 1 else 0.
Definition table_indent (tables : nat) : nat := if f_indent_sub_tables cfg then tables else 0.
Lemma runs_table n before t : wf_table t = true -> fine (table_content t) -> (gsnest (t_groups t) + line_indent <= n)%nat -> runs (table_indent (length before) + n) (fmt_table cfg gr dir before t).
Proof.
  intros HW HF HN. unfold wf_table in HW. apply andb_prop in HW as [HK HG]. unfold wf_keys in HK. apply andb_prop in HK as [_ HK]. unfold table_content in HF. rewrite !Forall_app in HF. destruct HF as (H1 & _ & H2 & _ & H3 & H4).
  set (k := if f_indent_sub_tables cfg then sub_table_depth cfg before (t_keys t) else 0%nat).
  assert (HKL : (k <= table_indent (length before))%nat) by (unfold k, table_indent; destruct (f_indent_sub_tables cfg); [apply sub_table_depth_le|lia]).
  apply (runs_le (k + n)); [lia|].
  assert (HB : runs n (m_when (nonempty (t_groups t)) (write_line_ending cfg ;; fmt_groups cfg dir (fmt_key_value_group cfg gr dir) false (t_groups t)))).
  { apply runs_when. apply runs_seq; [apply runs_line|]. apply groups_total; [exact HG|exact H4|lia]. }
  assert (HBL : runs n (m_when (f_indent_table_key_values cfg) inc_indent ;; m_when (nonempty (t_groups t)) (write_line_ending cfg ;; fmt_groups cfg dir (fmt_key_value_group cfg gr dir) false (t_groups t)) ;; m_when (f_indent_table_key_values cfg) dec_indent ;; m_ret)).
  { unfold line_indent in HN. destruct (f_indent_table_key_values cfg).
    - destruct n as [|n]; [lia|]. apply runs_nested; [|apply runs_ret]. apply runs_when. apply runs_seq; [apply runs_line|]. apply groups_total; [exact HG|exact H4|lia].
    - cbn [m_when]. apply runs_seq; [apply runs_ret|]. apply runs_seq; [exact HB|]. apply runs_seq; apply runs_ret. }
  assert (HM : runs n ((fmt_leading cfg dir (t_lead t) ;; write_indent cfg ;; write BRACKET_START [91] ;; m_when (t_array t) (write BRACKET_START [91]) ;; fmt_keys cfg gr None (t_keys t) ;; write BRACKET_END [93] ;; m_when (t_array t) (write BRACKET_END [93]) ;; fmt_trailing_opt cfg gr dir None (t_tc t)) ;;
     (m_when (f_indent_table_key_values cfg) inc_indent ;; m_when (nonempty (t_groups t)) (write_line_ending cfg ;; fmt_groups cfg dir (fmt_key_value_group cfg gr dir) false (t_groups t)) ;; m_when (f_indent_table_key_values cfg) dec_indent ;; m_ret))).
  { apply runs_seq; [|exact HBL]. apply runs_seq; [apply runs_leading; exact H1|]. apply runs_seq; [apply runs_indent|]. apply runs_seq; [apply runs_write|]. apply runs_seq; [apply runs_when; apply runs_write|]. apply runs_seq; [exact (runs_keys n (t_keys t) HK H2)|].
    apply runs_seq; [apply runs_write|]. apply runs_seq; [apply runs_when; apply runs_write|apply runs_trailing_opt; exact H3]. }
  pose proof (runs_incs n k _ m_ret HM (runs_ret _)) as HT. intros f Hf. destruct (HT f Hf) as (f' & ps & E & D). exists f', ps. split; [|exact D]. rewrite <- E. unfold fmt_table. apply table_steps.
Qed.
Lemma runs_tables n ts : forallb wf_table ts = true -> fine (flat_map table_content ts) -> (forall t, In t ts -> (gsnest (t_groups t) + line_indent <= n)%nat) ->
  forall m prev before, (length before + length ts <= m)%nat -> runs (table_indent m + n) (fmt_tables cfg gr dir prev before ts).
Proof.
  induction ts as [|t ts IH]; intros HW HF HN m prev before HL; [apply runs_ret|]. cbn [forallb] in HW. apply andb_prop in HW as [HW1 HW2]. cbn [flat_map] in HF. rewrite Forall_app in HF. destruct HF as [HF1 HF2]. cbn [length] in HL. cbn [fmt_tables].
  apply runs_seq; [|apply runs_seq].
  - destruct prev as [p|]; [|apply runs_ret]. apply runs_seq; [apply runs_line|]. apply runs_when. apply runs_iter. intros; apply runs_line.
  - apply (runs_le (table_indent (length before) + n)); [unfold table_indent; destruct (f_indent_sub_tables cfg); lia|]. apply runs_table; auto. apply HN. left. reflexivity.
  - apply IH; auto; [intros t' Ht; apply HN; right; exact Ht|]. cbn [length]. lia.
Qed.
(** the indentation of the deepest line of a document, at most *)
Definition deepest (d : fdoc) : nat := (table_indent (length (d_tables d)) + line_indent + dnest d)%nat.
Lemma root_total d f : wf_doc d = true -> fine (doc_content d) -> N.of_nat (deepest d) <= room -> exists f', fmt_root cfg gr dir d f = Some f'.
Proof.
  intros HW HF HD. unfold wf_doc in HW. apply andb_prop in HW as [HG HT]. unfold doc_content in HF. rewrite Forall_app in HF. destruct HF as [F1 F2].
  assert (HR' : runs (deepest d) (fmt_groups cfg dir (fmt_key_value_group cfg gr dir) false (d_groups d) ;;
    match d_tables d with
    | [] => m_ret
    | t :: _ => m_when (nonempty (d_groups d)) (if no_items (d_groups d) then write_blank_lines cfg (N.min (t_blank t) (f_group_blank_lines_limit cfg)) else write_blank_lines cfg (f_table_blank_lines cfg))
    end ;; fmt_tables cfg gr dir None [] (d_tables d))).
  { apply runs_seq; [|apply runs_seq].
    - apply groups_total; [exact HG|exact F1|]. unfold deepest, dnest. lia.
    - destruct (d_tables d) as [|t ts]; [apply runs_ret|]. apply runs_when. destruct (no_items (d_groups d)); apply runs_blank_lines.
    - unfold deepest. rewrite <- Nat.add_assoc. apply runs_tables; auto. intros t Ht. unfold dnest.
      assert (HX : (gsnest (t_groups t) <= fold_right (fun t m => Nat.max (gsnest (t_groups t)) m) 0 (d_tables d))%nat) by (clear -Ht; induction (d_tables d) as [|a l IH]; [destruct Ht|]; cbn [fold_right]; destruct Ht as [-> |Ht]; [apply Nat.le_max_l|specialize (IH Ht); lia]). lia. }
  unfold fmt_root. unfold m_seq at 1. unfold set_depth at 1. destruct (HR' (F 0 (f_skip_indent f) (f_skip_comment f) (f_single_line f) (f_buf f))) as (f' & ps & E & _); [cbn [f_depth]; lia|]. exists f'. exact E.
Qed.
End Total.
