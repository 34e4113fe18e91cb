(** Number tokens against the TOML grammar. *)
From Coq Require Import String Ascii List NArith Bool Arith Lia ZifyBool.
From Verif Require Import Base SyntaxKind TextModel Regex LexerModel LexerSpec LexerProofs TomlGrammar LexScalars LexSound.
Import ListNotations.
Open Scope N_scope.
Open Scope list_scope.

(** Every underscore stands between two digits. *)
Definition underscores_ok (w : str) : Prop :=
  forall a b, w = a ++ 95 :: b ->
    (exists a' d, a = a' ++ [d] /\ in_range 48 57 d = true) /\
    (exists d b', b = d :: b' /\ in_range 48 57 d = true).

(** The number does not begin, after its sign, with a zero followed by another digit. *)
Definition no_leading_zero (w : str) : Prop :=
  forall sg d r, w = sg ++ 48 :: d :: r -> (sg = [] \/ sg = [43] \/ sg = [45]) ->
    in_range 48 57 d || N.eqb d 95 = false.

Definition unsigned_text (w : str) : Prop := forall c r, w = c :: r -> c <> 43 /\ c <> 45.

Lemma run_of d u : forallb k_digit_ u = true -> in_range 48 57 d = true -> underscores_ok (d :: u) -> lang (g_run g_digit) u.
Proof.
  revert d. remember (length u) as n eqn:En. revert u En.
  induction n as [n IH] using lt_wf_ind. intros u En d Hu Hd HU.
  destruct u as [|x u]; [constructor|].
  simpl in Hu. apply andb_true_iff in Hu as [Hx Hu].
  unfold k_digit_ in Hx. apply orb_true_iff in Hx as [Hx|Hx].
  - change (x :: u) with ([x] ++ u). constructor.
    + apply LAltL. constructor. exact Hx.
    + eapply (IH (length u)) with (d := x); auto.
      * subst n. simpl. lia.
      * intros a b E. destruct (HU (d :: a) b) as [H1 H2]; [simpl; rewrite E; reflexivity|]. split; auto.
        destruct H1 as (a' & y & E1 & Hy). destruct a' as [|z a']; simpl in E1; inversion E1; subst.
        -- (* a = [] *) simpl in E. inversion E; subst. unfold k_digit in Hx. discriminate.
        -- eauto.
  - apply N.eqb_eq in Hx. subst x.
    destruct (HU [d] u) as [_ (y & b' & -> & Hy)]; [reflexivity|].
    change (95 :: y :: b') with ([95; y] ++ b'). constructor.
    + apply LAltR. change [95; y] with ([95] ++ [y]). constructor; [apply lang_chr_inv; auto|constructor; auto].
    + eapply (IH (length b')) with (d := y); auto.
      * subst n. simpl. lia.
      * simpl in Hu. apply andb_true_iff in Hu. tauto.
      * intros a b E. destruct (HU (d :: 95 :: a) b) as [H1 H2]; [simpl; rewrite E; reflexivity|]. split; auto.
        destruct H1 as (a' & z & E1 & Hz). destruct a' as [|z0 [|z1 a']]; simpl in E1; inversion E1; subst.
        -- simpl in E. inversion E; subst. discriminate.
        -- eauto.
Qed.

Lemma zp_of u : u <> [] -> forallb k_digit_ u = true -> underscores_ok u -> lang g_zero_prefixable_int u.
Proof.
  intros Hn Hd HU. destruct u as [|x u]; [contradiction|].
  simpl in Hd. apply andb_true_iff in Hd as [Hx Hu]. unfold k_digit_ in Hx. apply orb_true_iff in Hx as [Hx|Hx].
  - change (x :: u) with ([x] ++ u). constructor; [constructor; exact Hx|]. eapply run_of; eauto.
  - apply N.eqb_eq in Hx. subst x. destruct (HU [] u eq_refl) as [(a' & y & E & _) _]. destruct a'; discriminate.
Qed.

Lemma ud_of u : u <> [] -> forallb k_digit_ u = true -> underscores_ok u ->
  (forall d r, u = 48 :: d :: r -> False) -> lang g_unsigned_dec_int u.
Proof.
  intros Hn Hd HU HZ. pose proof (zp_of _ Hn Hd HU) as H. apply nonempty_seq_cls in H as (x & v & -> & Hx & Hv).
  destruct v as [|y v].
  - apply LAltL. constructor. exact Hx.
  - apply LAltR. change (x :: y :: v) with ([x] ++ (y :: v)). constructor.
    + constructor. assert (x <> 48) by (intros ->; eapply HZ; eauto). ucls. lia.
    + unfold g_run in Hv. apply lang_star_inv in Hv as (u1 & u2 & -> & H1 & H2).
      change (y :: u1 ++ u2) with ((y :: u1) ++ u2). constructor; auto.
Qed.

Lemma us_ok_part p a q :
  underscores_ok (p ++ a ++ q) ->
  (forall p' x, p = p' ++ [x] -> in_range 48 57 x = false) ->
  (forall x q', q = x :: q' -> in_range 48 57 x = false) -> underscores_ok a.
Proof.
  intros HU Hp Hq s t E. subst a.
  destruct (HU (p ++ s) (t ++ q)) as [H1 H2].
  { rewrite <- !app_assoc. reflexivity. }
  split.
  - destruct H1 as (a' & d & E & Hd). destruct s as [|s0 s] using rev_ind.
    + rewrite app_nil_r in E. exfalso. rewrite (Hp a' d E) in Hd. discriminate.
    + rewrite app_assoc in E. apply app_inj_tail in E as [_ ->]. eauto.
  - destruct H2 as (d & b' & E & Hd). destruct t as [|t0 t].
    + simpl in E. exfalso. rewrite (Hq d b' E) in Hd. discriminate.
    + simpl in E. inversion E; subst. eauto.
Qed.

(** * Decomposition of the float pattern when there is no colon *)
Lemma float_parts w : lang REGEX_FLOAT w -> ~ In 58 w ->
  exists a f e, w = a ++ f ++ e /\ a <> [] /\ forallb k_digit_ a = true /\
    (f = [] \/ exists fd, f = 46 :: fd /\ fd <> [] /\ forallb k_digit_ fd = true) /\
    (e = [] \/ exists x sg ed, e = x :: sg ++ ed /\ k_e x = true /\ (sg = [] \/ sg = [43] \/ sg = [45]) /\
                               ed <> [] /\ forallb k_digit_ ed = true) /\
    (f <> [] \/ e <> []).
Proof.
  unfold REGEX_FLOAT. intros H HC. apply lang_seq_inv in H as (a & v & -> & Ha & Hv). apply lang_plus_cls in Ha as [Ha1 Ha2].
  assert (Hcol : forall r z, lang (ROpt (RChr 58)) z -> ~ In 58 (z ++ r) -> z = []).
  { intros r z Hz Hi. apply lang_opt_inv in Hz as [Hz| ->]; auto. apply lang_chr_inv in Hz as ->. exfalso. apply Hi. simpl; auto. }
  assert (HCv : ~ In 58 v) by (intros K; apply HC, in_or_app; auto).
  apply lang_alt_inv in Hv as [Hv|Hv].
  - unfold colon_opt at 1 in Hv. apply lang_seq_inv in Hv as (z & v1 & -> & Hz & Hv).
    assert (Ez : z = []) by (eapply Hcol; eauto). subst z. cbn [app] in *.
    apply lang_seq_inv in Hv as (f & e & -> & Hf & He).
    apply lang_seq_inv in He as (x & e1 & -> & Hx & He). apply lang_cls_inv in Hx as (x0 & -> & Hx).
    apply lang_seq_inv in He as (sg & ed & -> & Hs & He). apply lang_plus_cls in He as [He1 He2].
    exists a, f, ([x0] ++ sg ++ ed). split; [auto|]. split; [auto|]. split; [auto|]. split; [|split].
    + apply lang_opt_inv in Hf as [Hf|Hf]; auto. unfold colon_opt in Hf.
      apply lang_seq_inv in Hf as (z' & f1 & -> & Hz' & Hf).
      assert (HCf : ~ In 58 (z' ++ f1)) by (intros K; apply HCv, in_or_app; auto).
      assert (Ez : z' = []) by (eapply Hcol; eauto). subst z'. cbn [app] in *.
      apply nonempty_seq_chr in Hf as (fd & -> & Hf). apply lang_plus_cls in Hf as [? ?]. right. eauto.
    + right. exists x0, sg, ed. repeat split; auto. apply sign_inv. exact Hs.
    + right. discriminate.
  - apply nonempty_seq_chr in Hv as (fd & -> & Hf). apply lang_plus_cls in Hf as [? ?].
    exists a, (46 :: fd), []. rewrite app_nil_r. repeat split; auto; [right; eauto|left; discriminate].
Qed.

Lemma k_e_nondigit x : k_e x = true -> in_range 48 57 x = false.
Proof. cls. Qed.

Lemma ufloat_of w : lang REGEX_FLOAT w -> ~ In 58 w -> underscores_ok w ->
  (forall d r, w = 48 :: d :: r -> in_range 48 57 d || N.eqb d 95 = false) -> lang g_ufloat w.
Proof.
  intros H HC HU HZ. destruct (float_parts _ H HC) as (a & f & e & -> & Ha & Ha2 & Hf & He & Hne).
  assert (Hnd : forall x q', f ++ e = x :: q' -> in_range 48 57 x = false).
  { intros x q' E. destruct Hf as [->|(fd & -> & _)]; simpl in E; [|inversion E; reflexivity].
    destruct He as [->|(y & sg & ed & -> & Hy & _)]; [discriminate|]. inversion E; subst. apply k_e_nondigit; auto. }
  assert (HUa : lang g_unsigned_dec_int a).
  { apply ud_of; auto.
    - apply (us_ok_part [] a (f ++ e)); auto. intros [|? ?] ? E; discriminate.
    - intros d r ->. specialize (HZ d (r ++ f ++ e) eq_refl). simpl in Ha2.
      apply andb_true_iff in Ha2 as [Hd _]. unfold k_digit_, k_digit in Hd. congruence. }
  assert (HF : f = [] \/ lang g_frac f).
  { destruct Hf as [->|(fd & -> & Hfd & Hfd2)]; auto. right. change (46 :: fd) with ([46] ++ fd).
    constructor; [apply lang_chr_inv; auto|]. apply zp_of; auto.
    apply (us_ok_part (a ++ [46]) fd e).
    - rewrite <- app_assoc. exact HU.
    - intros p' x E. apply app_inj_tail in E as [_ <-]. reflexivity.
    - intros x q' ->. destruct He as [He|(y & sg & ed & E & Hy & _)]; [discriminate|]. inversion E; subst. apply k_e_nondigit; auto. }
  assert (HE : e = [] \/ lang g_exp e).
  { destruct He as [->|(y & sg & ed & -> & Hy & Hs & Hed & Hed2)]; auto. right.
    change (y :: sg ++ ed) with ([y] ++ sg ++ ed). constructor; [constructor; exact Hy|]. constructor.
    - destruct Hs as [->|[->| ->]]; apply lang_opt_inv; auto; left; constructor; reflexivity.
    - apply zp_of; auto. apply (us_ok_part (a ++ f ++ y :: sg) ed []).
      + rewrite app_nil_r. rewrite <- !app_assoc. exact HU.
      + intros p' x E. assert (E' : (a ++ f) ++ y :: sg = p' ++ [x]) by (rewrite <- app_assoc; exact E).
        destruct Hs as [->|[->| ->]].
        * apply app_inj_tail in E' as [_ <-]. apply k_e_nondigit; auto.
        * change ((a ++ f) ++ [y; 43]) with ((a ++ f) ++ [y] ++ [43]) in E'. rewrite app_assoc in E'.
          apply app_inj_tail in E' as [_ <-]. reflexivity.
        * change ((a ++ f) ++ [y; 45]) with ((a ++ f) ++ [y] ++ [45]) in E'. rewrite app_assoc in E'.
          apply app_inj_tail in E' as [_ <-]. reflexivity.
      + intros x q' E; discriminate. }
  constructor; auto.
  destruct HF as [->|HF].
  - destruct HE as [->|HE]; [destruct Hne; contradiction|]. apply LAltL. auto.
  - apply LAltR. constructor; auto. apply lang_opt_inv. destruct HE; auto.
Qed.

(** * Integers without a colon *)
Lemma colon_run_incl k d w : (forall c, k c = true -> c <> 124 -> d c = true) ->
  lang (RStar (colon_opt (opt_us k))) w -> ~ In 58 w -> ~ In 124 w -> lang (g_run (RCls d)) w.
Proof.
  intros Hk H. unfold g_run. remember (RStar (colon_opt (opt_us k))) as r eqn:E.
  induction H; inversion E; subst; intros HC HB; [constructor|].
  constructor.
  2: { apply IHlang2; auto; intros K; [apply HC|apply HB]; apply in_or_app; auto. }
  apply lang_seq_inv in H as (z & u' & -> & Hz & Hu).
  apply lang_opt_inv in Hz as [Hz| ->]; [apply lang_chr_inv in Hz as ->; exfalso; apply HC; simpl; auto|].
  apply lang_seq_inv in Hu as (z & x & -> & Hz & Hx). apply lang_cls_inv in Hx as (y & -> & Hy). simpl in *.
  assert (Hd : d y = true).
  { apply Hk; auto. intros ->. apply HB. apply in_or_app; left. apply in_or_app; right; simpl; auto. }
  apply lang_opt_inv in Hz as [Hz| ->].
  - apply LAltR. constructor; auto. constructor. auto.
  - apply LAltL. constructor. auto.
Qed.

Lemma prefixed_of p2 k d w : (forall c, k c = true -> c <> 124 -> d c = true) ->
  lang (RSeq (RChr 48) (RSeq (RChr p2) (RSeq (RCls k) (RStar (colon_opt (opt_us k)))))) w ->
  ~ In 58 w -> ~ In 124 w ->
  lang (RSeq (RSeq (RChr 48) (RSeq (RChr p2) REps)) (RSeq (RCls d) (g_run (RCls d)))) w.
Proof.
  intros Hk H HC HB. apply nonempty_seq_chr in H as (v & -> & H). apply nonempty_seq_chr in H as (u & -> & H).
  apply nonempty_seq_cls in H as (x & z & -> & Hx & Hz).
  change (48 :: p2 :: x :: z) with ([48; p2] ++ [x] ++ z).
  constructor; [apply str2_inv; auto|]. constructor.
  - constructor. apply Hk; auto. intros ->. apply HB. simpl; auto.
  - eapply colon_run_incl; eauto; intros K; [apply HC|apply HB]; simpl; auto.
Qed.

Lemma dec_of w : lang REGEX_INTEGER_DEC w -> ~ In 58 w -> lang g_unsigned_dec_int w.
Proof.
  intros H HC. apply lang_alt_inv in H as [H|H].
  2: { apply lang_chr_inv in H as ->. apply LAltL. constructor. reflexivity. }
  apply lang_seq_inv in H as (z & u & -> & Hz & Hu).
  apply lang_opt_inv in Hz as [Hz| ->]; [apply lang_chr_inv in Hz as ->; exfalso; apply HC; simpl; auto|]. simpl in *.
  apply nonempty_seq_cls in Hu as (x & v & -> & Hx & Hv).
  assert (HR : lang (g_run (RCls (in_range 48 57))) v).
  { eapply colon_run_incl; [|exact Hv| |].
    - auto.
    - intros K; apply HC; simpl; auto.
    - assert (HA : chars_in (RStar (colon_opt (opt_us k_digit))) (fun c => negb (N.eqb c 124))).
      { unfold colon_opt, opt_us, ROpt, RChr. ci. }
      intros K. specialize (HA _ Hv). rewrite forallb_forall in HA. specialize (HA _ K). discriminate. }
  destruct v as [|y v].
  - apply LAltL. constructor. ucls; lia.
  - apply LAltR. change (x :: y :: v) with ([x] ++ (y :: v)). constructor; [constructor; exact Hx|].
    unfold g_run in HR. apply lang_star_inv in HR as (u1 & u2 & -> & H1 & H2).
    change (y :: u1 ++ u2) with ((y :: u1) ++ u2). constructor; auto.
Qed.

(** * The text of a number token *)
Definition no_colon_bar (w : str) : Prop := ~ In 58 w /\ ~ In 124 w.

Definition clean_number (k : kind) (w : str) : Prop :=
  no_colon_bar w /\
  match k with
  | INTEGER_BIN | INTEGER_OCT | INTEGER_HEX => unsigned_text w
  | FLOAT => underscores_ok w /\ no_leading_zero w
  | _ => True
  end.

Definition number_token_kind (k : kind) : bool :=
  match k with
  | INTEGER_DEC | INTEGER_BIN | INTEGER_OCT | INTEGER_HEX | FLOAT => true
  | _ => false
  end.

Lemma sign_lang sg : sg = [] \/ sg = [43] \/ sg = [45] -> lang (ROpt g_sign) sg.
Proof. intros [->|[->| ->]]; apply lang_opt_inv; auto; left; constructor; reflexivity. Qed.

Lemma unsigned_no_sign L w : signed L w -> unsigned_text w -> L w.
Proof.
  intros (sg & u & -> & [->|[->| ->]] & H) HU; auto; destruct (HU _ _ eq_refl); congruence.
Qed.

Lemma number_text_toml k w : number_token_kind k = true -> text_ok k w -> clean_number k w -> scalar k w.
Proof.
  intros HK HT [[HC HB] HX]. destruct k; try discriminate; simpl in HT.
  - apply S_dec. destruct HT as (sg & u & -> & Hs & Hu). constructor; [apply sign_lang; auto|].
    apply dec_of; auto. intros K; apply HC, in_or_app; auto.
  - apply S_hex. eapply prefixed_of; [|apply unsigned_no_sign; eauto| |]; auto.
  - apply S_oct. eapply prefixed_of; [|apply unsigned_no_sign; eauto| |]; auto.
  - apply S_bin. eapply prefixed_of; [|apply unsigned_no_sign; eauto| |]; auto. cls.
  - destruct HT as (sg & u & -> & Hs & [Hu|[->| ->]]).
    + apply S_float. destruct HX as [HU HZ].
      assert (HF : lang g_ufloat u).
      { apply ufloat_of; auto.
        - intros K; apply HC, in_or_app; auto.
        - apply (us_ok_part sg u []).
          + rewrite app_nil_r. auto.
          + intros p' x E. destruct Hs as [->|[->| ->]].
            * destruct p'; discriminate.
            * change [43] with ([] ++ [43]) in E. apply app_inj_tail in E as [_ <-]. reflexivity.
            * change [45] with ([] ++ [45]) in E. apply app_inj_tail in E as [_ <-]. reflexivity.
          + intros; discriminate.
        - intros d r ->. apply (HZ sg d r); auto. }
      apply lang_seq_inv in HF as (a & b & -> & Ha & Hb). rewrite app_assoc. constructor; auto. constructor; auto.
      apply sign_lang; auto.
    + apply S_special. constructor; [apply sign_lang; auto|]. apply LAltL, g_str_inv. reflexivity.
    + apply S_special. constructor; [apply sign_lang; auto|]. apply LAltR, g_str_inv. reflexivity.
Qed.

(** * Tokens of [lex] *)
Lemma len_bytes_prefix_inj a b r s : a ++ r = b ++ s -> len_bytes a = len_bytes b -> a = b.
Proof.
  revert b; induction a as [|x a IH]; intros b E H.
  - symmetry. apply len_bytes_zero. rewrite <- H. reflexivity.
  - destruct b as [|y b].
    + apply len_bytes_zero in H. discriminate.
    + simpl in E. inversion E; subst. f_equal. apply IH; auto. cbn [len_bytes] in H. lia.
Qed.

Lemma lex_token_from seg source l t :
  lex seg source = Some l -> In t (tokens l) -> tkind t <> EOF ->
  exists b c1 r c2 w, at_pos b c1 /\ source = b ++ rest c1 /\ advance_token c1 = Some (r, c2) /\
    t = result_token r /\ rest c1 = w ++ rest c2 /\ w <> [] /\
    tspan t = MkSpan (len_bytes b) (len_bytes (b ++ w)).
Proof.
  intros HL Ht Hk. unfold lex in HL.
  destruct (tokenize _ _) as [[rs c]|] eqn:ET; [|discriminate].
  destruct (drop_bytes _ source) as [tl|]; [|discriminate]. inversion HL; subst l. clear HL. simpl in Ht.
  rewrite (proj1 (push_fold rs (MkLexed [] [] Lf))) in Ht. simpl in Ht.
  apply in_app_or in Ht as [Ht|[<-|[]]]; [|exfalso; apply Hk; reflexivity].
  apply in_map_iff in Ht as (r & <- & Hr).
  assert (HP : at_pos [] (cursor_new source)) by (repeat split).
  destruct (tokenize_from _ _ _ _ _ ET HP r Hr) as (b & c1 & c2 & K1 & K2 & K3). simpl in K2.
  destruct (advance_token_lexes _ _ _ K3) as (x & w & HX).
  exists b, c1, r, c2, (x :: w). destruct HX; cbn [fst snd] in *. destruct K1 as (P1 & P2 & P3 & P4).
  repeat split; auto; try discriminate.
  rewrite result_token_span, lx_span, len_bytes_app. f_equal; congruence.
Qed.

Lemma lex_token_text seg source l t :
  lex seg source = Some l -> In t (tokens l) -> tkind t <> EOF -> tkind t <> INVALID_TOKEN ->
  exists w, slice source (tspan t) = Some w /\ text_ok (tkind t) w.
Proof.
  intros HL Ht Hk Hi. destruct (lex_token_from _ _ _ _ HL Ht Hk) as (b & c1 & r & c2 & w & H1 & H2 & H3 & H4 & H5 & H6 & H7).
  exists w. split.
  - rewrite H7, H2, H5. apply slice_app.
  - destruct r as [t0|e]; simpl in H4; subst t; [|exfalso; apply Hi; reflexivity].
    destruct (advance_sound _ _ H3 t0 eq_refl) as (w' & E & HT). simpl in E.
    rewrite H5 in E. apply app_inv_tail in E. subst. exact HT.
Qed.

Lemma lex_scalar_at seg p k w s l t :
  scalar k w -> ends_value s -> not_continued k s ->
  lex seg (p ++ w ++ s) = Some l -> In t (tokens l) -> tkind t <> EOF -> sstart (tspan t) = len_bytes p ->
  tkind t = k /\ tspan t = MkSpan (len_bytes p) (len_bytes (p ++ w)).
Proof.
  intros HS HE HN HL Ht Hk Hst.
  destruct (lex_token_from _ _ _ _ HL Ht Hk) as (b & c1 & r & c2 & u & H1 & H2 & H3 & H4 & H5 & H6 & H7).
  rewrite H7 in Hst. simpl in Hst.
  assert (p = b) by (eapply len_bytes_prefix_inj; eauto). subst b. apply app_inv_head in H2.
  destruct (scalar_lexed c1 k w s HS HE HN (eq_sym H2)) as (t0 & c' & E & HK & HR).
  rewrite H3 in E. inversion E; subst. simpl. split; auto.
  rewrite H5 in H2. apply app_inv_tail in H2. subst u. simpl in H7. exact H7.
Qed.

Lemma scalar_nonempty k w : scalar k w -> w <> [].
Proof.
  intros H ->.
  assert (HR : rest (cursor_new []) = [] ++ []) by reflexivity.
  assert (HN : not_continued k []) by (destruct k; exact I).
  destruct (scalar_lexed (cursor_new []) k [] [] H I HN HR) as (t & c' & E & _). discriminate.
Qed.

Lemma lex_scalar_first seg k w s l :
  scalar k w -> ends_value s -> not_continued k s -> lex seg (w ++ s) = Some l ->
  exists t ts, tokens l = t :: ts /\ tkind t = k /\ tspan t = MkSpan 0 (len_bytes w).
Proof.
  intros HS HE HN HL. pose proof HL as HL'. unfold lex in HL'.
  destruct (scalar_lexed (cursor_new (w ++ s)) k w s HS HE HN eq_refl) as (t0 & c' & E & HK & HR).
  destruct (tokenize _ _) as [[rs c]|] eqn:ET; [|discriminate].
  simpl in ET. rewrite E in ET. destruct (tokenize _ c') as [[rs' c2]|]; [|discriminate].
  inversion ET; subst rs c. destruct (drop_bytes _ _) as [tl|]; [|discriminate]. inversion HL'; subst l.
  simpl. rewrite (proj1 (push_fold rs' _)). simpl.
  eexists t0, _. split; [reflexivity|]. split; auto.
  apply (lex_scalar_at seg [] k w s) with (t := t0) in HL; auto; try tauto.
  - simpl. rewrite (proj1 (push_fold rs' _)). simpl. left. reflexivity.
  - destruct (advance_token_lexes _ _ _ E) as (x & u & HX). destruct HX; simpl in *. tauto.
  - destruct (advance_token_lexes _ _ _ E) as (x & u & HX). destruct HX; cbn [fst snd result_span] in *.
    rewrite lx_span. reflexivity.
Qed.
