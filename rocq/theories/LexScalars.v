(** Every TOML scalar is lexed as one token of its kind. *)
From Coq Require Import String Ascii List NArith Bool Arith Lia ZifyBool.
From Verif Require Import Base SyntaxKind TextModel Regex LexerModel LexerSpec LexerProofs TomlGrammar.
Import ListNotations.
Open Scope N_scope.
Open Scope list_scope.

Ltac ucls := unfold k_digit_, k_hex, k_digit, k_oct, k_bin_or_bar, k_1_9, k_e, k_sign, k_t_space, k_dot_comma, k_z,
  is_token_separator, is_token_separator_with_dot, is_whitespace, is_line_break, is_ascii_digit, in_range,
  c_tab, c_nl, c_cr, c_space, c_dquote, c_hash, c_squote, c_plus, c_comma, c_minus, c_dot, c_eq,
  c_lbracket, c_backslash, c_rbracket, c_lbrace, c_rbrace in *.
Ltac cls := intros; ucls; lia.

(** * Languages *)
Lemma lang_star_mono a b w : (forall u, lang a u -> lang b u) -> lang (RStar a) w -> lang (RStar b) w.
Proof.
  intros H HL. remember (RStar a) as r eqn:E. induction HL; inversion E; subst.
  - constructor.
  - constructor; auto.
Qed.
Lemma lang_seq_mono a a' b b' w :
  (forall u, lang a u -> lang a' u) -> (forall u, lang b u -> lang b' u) ->
  lang (RSeq a b) w -> lang (RSeq a' b') w.
Proof. intros H1 H2 H. apply lang_seq_inv in H as (u & v & -> & Hu & Hv). constructor; auto. Qed.
Lemma lang_opt_inv a w : lang (ROpt a) w <-> lang a w \/ w = [].
Proof. unfold ROpt. rewrite lang_alt_inv, lang_eps_inv. reflexivity. Qed.
Lemma lang_chr_inv c w : lang (RChr c) w <-> w = [c].
Proof.
  unfold RChr. rewrite lang_cls_inv. split.
  - intros (x & -> & H). apply N.eqb_eq in H. congruence.
  - intros ->. exists c. rewrite N.eqb_refl. auto.
Qed.

Lemma lang_star_cls p w : lang (RStar (RCls p)) w <-> forallb p w = true.
Proof.
  split.
  - intros H. remember (RStar (RCls p)) as r eqn:E. induction H; inversion E; subst; auto.
    apply lang_cls_inv in H as (c & -> & Hc). simpl. rewrite Hc. auto.
  - induction w as [|c w IH]; simpl; intros H; [constructor|].
    apply andb_true_iff in H as [H1 H2]. change (c :: w) with ([c] ++ w). constructor; auto. constructor; auto.
Qed.
Lemma lang_plus_cls p w : lang (RPlus (RCls p)) w <-> w <> [] /\ forallb p w = true.
Proof.
  unfold RPlus. rewrite lang_seq_inv. split.
  - intros (u & v & -> & Hu & Hv). apply lang_cls_inv in Hu as (c & -> & Hc). apply lang_star_cls in Hv.
    split; [discriminate|]. simpl. rewrite Hc; auto.
  - intros [H1 H2]. destruct w as [|c w]; [contradiction|]. simpl in H2. apply andb_true_iff in H2 as [H2 H3].
    exists [c], w. repeat split; auto. + constructor; auto. + apply lang_star_cls; auto.
Qed.

(** Characters of a language. *)
Definition chars_in (r : re) (P : char -> bool) : Prop := forall w, lang r w -> forallb P w = true.
Lemma ci_cls p (P : char -> bool) : (forall c, p c = true -> P c = true) -> chars_in (RCls p) P.
Proof. intros H w Hw. apply lang_cls_inv in Hw as (c & -> & Hc). simpl. rewrite H; auto. Qed.
Lemma ci_eps P : chars_in REps P.
Proof. intros w Hw. apply lang_eps_inv in Hw as ->. reflexivity. Qed.
Lemma ci_seq a b P : chars_in a P -> chars_in b P -> chars_in (RSeq a b) P.
Proof. intros H1 H2 w Hw. apply lang_seq_inv in Hw as (u & v & -> & Hu & Hv). rewrite forallb_app, H1, H2; auto. Qed.
Lemma ci_alt a b P : chars_in a P -> chars_in b P -> chars_in (RAlt a b) P.
Proof. intros H1 H2 w Hw. apply lang_alt_inv in Hw as [Hw|Hw]; auto. Qed.
Lemma ci_star a P : chars_in a P -> chars_in (RStar a) P.
Proof.
  intros H w Hw. remember (RStar a) as r eqn:E. induction Hw; inversion E; subst; auto.
  rewrite forallb_app, H, IHHw2; auto.
Qed.
Ltac ci := repeat first [apply ci_seq|apply ci_alt|apply ci_star|apply ci_eps|apply ci_cls; cls].

(** Plain characters: ASCII and not a separator. *)
Definition plain (c : char) : bool := negb (is_token_separator c) && (c <? 128).

Lemma plain_ascii_len w : forallb (fun c => c <? 128) w = true -> len_bytes w = N.of_nat (length w).
Proof.
  induction w as [|c w IH]; cbn [forallb len_bytes length]; [reflexivity|].
  intros H. apply andb_true_iff in H as [H1 H2]. rewrite IH by auto. unfold len_utf8. rewrite H1. lia.
Qed.

Lemma forallb_impl {A} (p q : A -> bool) l : (forall x, p x = true -> q x = true) -> forallb p l = true -> forallb q l = true.
Proof. intros H. rewrite !forallb_forall. auto. Qed.

Definition sep_start (s : str) : Prop := match s with [] => True | c :: _ => is_token_separator c = true end.

Lemma ends_value_sep s : ends_value s -> sep_start s.
Proof. destruct s as [|c s]; simpl; auto. intros H. repeat (destruct H as [<-|H]; [reflexivity|]). contradiction. Qed.

Lemma sep_with_dot c : is_token_separator c = true -> is_token_separator_with_dot c = true.
Proof. cls. Qed.

Lemma take_while_sep u s :
  forallb plain u = true -> sep_start s ->
  take_while (fun x => negb (is_token_separator x)) (u ++ s) = u.
Proof.
  intros H1 H2. rewrite take_while_app.
  - destruct s as [|c s]; simpl in *; [apply app_nil_r|]. rewrite H2. apply app_nil_r.
  - eapply forallb_impl; [|exact H1]. unfold plain. intros x Hx. apply andb_true_iff in Hx. tauto.
Qed.

Lemma eat_match_rest c u s :
  rest c = u ++ s -> forallb plain (current c :: u) = true ->
  rest (eat_match (len_bytes (current c :: u)) c) = s /\ adv c u (eat_match (len_bytes (current c :: u)) c).
Proof.
  intros H HP. rewrite plain_ascii_len.
  2: { eapply forallb_impl; [|exact HP]. unfold plain. intros x Hx. apply andb_true_iff in Hx. tauto. }
  unfold eat_match. simpl length.
  destruct u as [|y u].
  - simpl. split; [rewrite H; reflexivity|apply adv_refl].
  - destruct (N.ltb_spec 1 (N.of_nat (S (length (y :: u))))); [|simpl length in *; lia].
    replace (N.to_nat (N.of_nat (S (length (y :: u))) - 1)) with (length (y :: u)) by lia.
    split.
    + rewrite eat_n_rest, H. rewrite skipn_app, skipn_all, Nat.sub_diag. reflexivity.
    + pose proof (adv_eat_n_firstn (length (y :: u)) c) as HA.
      rewrite H, firstn_app, firstn_all, Nat.sub_diag, app_nil_r in HA. exact HA.
Qed.

Lemma peek1_sep c s : rest c = s -> sep_start s -> is_token_separator_with_dot (peek 1 c) = true.
Proof.
  intros H1 H2. unfold peek. rewrite H1. destruct s as [|x s]; simpl in *; [reflexivity|].
  apply sep_with_dot; auto.
Qed.

(** The outcome of lexing a whole token. *)
Definition yields (c : cursor) (k : kind) (s : str) (res : lex_result * cursor) : Prop :=
  exists t, fst res = inl t /\ tkind t = k /\ rest (snd res) = s.

Lemma yields_ok c k s c0 : rest c = s -> yields c0 k s (ok k c).
Proof. intros H. eexists. simpl. eauto. Qed.

(** * Number patterns *)
Lemma float_shape w : lang REGEX_FLOAT w ->
  exists a x b, w = a ++ x :: b /\ a <> [] /\ forallb k_digit_ a = true /\ (x = 58 \/ x = 46 \/ k_e x = true).
Proof.
  unfold REGEX_FLOAT. intros H. apply lang_seq_inv in H as (u & v & -> & Hu & Hv).
  apply lang_plus_cls in Hu as [Hu1 Hu2].
  assert (exists x b, v = x :: b /\ (x = 58 \/ x = 46 \/ k_e x = true)) as (x & b & -> & Hx).
  { apply lang_alt_inv in Hv as [Hv|Hv].
    - apply lang_seq_inv in Hv as (p & q & -> & Hp & Hq).
      apply lang_opt_inv in Hp as [Hp| ->]; [apply lang_chr_inv in Hp as ->; simpl; eauto 6|]. simpl.
      apply lang_seq_inv in Hq as (q1 & q2 & -> & Hq1 & Hq2).
      apply lang_opt_inv in Hq1 as [Hq1| ->].
      + apply lang_seq_inv in Hq1 as (p1 & p2 & -> & Hp1 & Hp2).
        apply lang_opt_inv in Hp1 as [Hp1| ->]; [apply lang_chr_inv in Hp1 as ->; simpl; eauto 6|]. simpl.
        apply lang_seq_inv in Hp2 as (p3 & p4 & -> & Hp3 & Hp4). apply lang_chr_inv in Hp3 as ->. simpl. eauto 7.
      + simpl. apply lang_seq_inv in Hq2 as (p3 & p4 & -> & Hp3 & Hp4). apply lang_cls_inv in Hp3 as (y & -> & Hy).
        simpl. eauto 7.
    - apply lang_seq_inv in Hv as (p & q & -> & Hp & Hq). apply lang_chr_inv in Hp as ->. simpl. eauto 7. }
  eauto 8.
Qed.

Lemma bin_shape w : lang REGEX_INTEGER_BIN w -> exists b, w = 48 :: 98 :: b.
Proof.
  intros H. apply lang_seq_inv in H as (u & v & -> & Hu & Hv). apply lang_chr_inv in Hu as ->.
  apply lang_seq_inv in Hv as (u & z & -> & Hu & Hz). apply lang_chr_inv in Hu as ->. simpl. eauto.
Qed.
Lemma oct_shape w : lang REGEX_INTEGER_OCT w -> exists b, w = 48 :: 111 :: b.
Proof.
  intros H. apply lang_seq_inv in H as (u & v & -> & Hu & Hv). apply lang_chr_inv in Hu as ->.
  apply lang_seq_inv in Hv as (u & z & -> & Hu & Hz). apply lang_chr_inv in Hu as ->. simpl. eauto.
Qed.
Lemma hex_shape w : lang REGEX_INTEGER_HEX w -> exists b, w = 48 :: 120 :: b.
Proof.
  intros H. apply lang_seq_inv in H as (u & v & -> & Hu & Hv). apply lang_chr_inv in Hu as ->.
  apply lang_seq_inv in Hv as (u & z & -> & Hu & Hz). apply lang_chr_inv in Hu as ->. simpl. eauto.
Qed.

Lemma no_match r w : ~ lang r w -> full_match r w = false.
Proof. intros H. destruct (full_match r w) eqn:E; auto. apply full_match_spec in E. contradiction. Qed.

(** Which pattern [number] selects for a line. *)
Definition number_kind (w : str) : option kind :=
  if full_match REGEX_FLOAT w then Some FLOAT
  else if full_match REGEX_INTEGER_BIN w then Some INTEGER_BIN
  else if full_match REGEX_INTEGER_OCT w then Some INTEGER_OCT
  else if full_match REGEX_INTEGER_HEX w then Some INTEGER_HEX
  else if full_match REGEX_INTEGER_DEC w then Some INTEGER_DEC
  else None.

Lemma is_number_kind c : is_number c =
  match number_kind (peek_with_current_while (fun x => negb (is_token_separator x)) c) with Some _ => true | None => false end.
Proof.
  unfold is_number, number_kind.
  repeat (destruct (full_match _ _); simpl; [reflexivity|]). reflexivity.
Qed.

Lemma number_yields c u s k :
  rest c = u ++ s -> forallb plain (current c :: u) = true -> sep_start s ->
  number_kind (current c :: u) = Some k -> yields c k s (number c).
Proof.
  intros H HP HS HK. unfold number.
  assert (HL : peek_with_current_while (fun x => negb (is_token_separator x)) c = current c :: u).
  { unfold peek_with_current_while. rewrite H. f_equal. apply take_while_sep; auto.
    simpl in HP. apply andb_true_iff in HP. tauto. }
  rewrite HL. unfold find_end. unfold number_kind in HK.
  assert (HB : forall k, yields c k s (number_branch k (len_bytes (current c :: u)) c)).
  { intros k'. unfold number_branch. destruct (eat_match_rest c u s H HP) as [E1 E2].
    rewrite (peek1_sep _ s E1 HS). apply yields_ok; auto. }
  repeat (match type of HK with context [full_match ?r ?w] => destruct (full_match r w) end;
          [inversion HK; subst; apply HB|]).
  discriminate.
Qed.

Lemma dec_kind w : lang REGEX_INTEGER_DEC w -> forallb k_digit_ w = true -> number_kind w = Some INTEGER_DEC.
Proof.
  intros H HD. unfold number_kind.
  assert (HN : forall x, In x w -> k_digit_ x = true) by (apply forallb_forall; auto).
  rewrite (no_match REGEX_FLOAT w), (no_match REGEX_INTEGER_BIN w), (no_match REGEX_INTEGER_OCT w), (no_match REGEX_INTEGER_HEX w).
  - apply full_match_spec in H. rewrite H. reflexivity.
  - intros K. apply hex_shape in K as [b ->]. specialize (HN 120 ltac:(simpl; auto)). discriminate.
  - intros K. apply oct_shape in K as [b ->]. specialize (HN 111 ltac:(simpl; auto)). discriminate.
  - intros K. apply bin_shape in K as [b ->]. specialize (HN 98 ltac:(simpl; auto)). discriminate.
  - intros K. apply float_shape in K as (a & x & b & -> & _ & _ & Hx).
    specialize (HN x ltac:(apply in_or_app; simpl; auto)). ucls. lia.
Qed.

Lemma not_float_prefixed y b : (y =? 46) || (y =? 58) || k_e y || k_digit_ y = false -> ~ lang REGEX_FLOAT (48 :: y :: b).
Proof.
  intros Hy K. apply float_shape in K as (a & x & b' & E & Ha & Hd & Hx).
  destruct a as [|a0 a]; [contradiction|]. inversion E; subst.
  destruct a as [|a1 a]; simpl in *; inversion H1; subst; ucls; lia.
Qed.

Lemma hex_kind w : lang REGEX_INTEGER_HEX w -> number_kind w = Some INTEGER_HEX.
Proof.
  intros H. unfold number_kind. pose proof (hex_shape _ H) as [b E]. apply full_match_spec in H. subst w.
  rewrite (no_match REGEX_FLOAT), (no_match REGEX_INTEGER_BIN), (no_match REGEX_INTEGER_OCT), H; auto.
  - intros K. apply oct_shape in K as [b' E']. discriminate.
  - intros K. apply bin_shape in K as [b' E']. discriminate.
  - apply not_float_prefixed. reflexivity.
Qed.
Lemma oct_kind w : lang REGEX_INTEGER_OCT w -> number_kind w = Some INTEGER_OCT.
Proof.
  intros H. unfold number_kind. pose proof (oct_shape _ H) as [b E]. apply full_match_spec in H. subst w.
  rewrite (no_match REGEX_FLOAT), (no_match REGEX_INTEGER_BIN), H; auto.
  - intros K. apply bin_shape in K as [b' E']. discriminate.
  - apply not_float_prefixed. reflexivity.
Qed.
Lemma bin_kind w : lang REGEX_INTEGER_BIN w -> number_kind w = Some INTEGER_BIN.
Proof.
  intros H. unfold number_kind. pose proof (bin_shape _ H) as [b E]. apply full_match_spec in H. subst w.
  rewrite (no_match REGEX_FLOAT), H; auto.
  apply not_float_prefixed. reflexivity.
Qed.
Lemma float_kind w : lang REGEX_FLOAT w -> number_kind w = Some FLOAT.
Proof. intros H. apply full_match_spec in H. unfold number_kind. rewrite H. reflexivity. Qed.

(** * The grammar is included in the patterns *)
Lemma run_incl k d w : (forall c, d c = true -> k c = true) ->
  lang (RStar (RAlt (RCls d) (RSeq g_us (RCls d)))) w -> lang (RStar (colon_opt (opt_us k))) w.
Proof.
  intros Hk. apply lang_star_mono. intros u Hu. unfold colon_opt, opt_us.
  change u with ([] ++ u). constructor; [apply lang_opt_inv; auto|].
  apply lang_alt_inv in Hu as [Hu|Hu].
  - change u with ([] ++ u). constructor; [apply lang_opt_inv; auto|].
    apply lang_cls_inv in Hu as (c & -> & Hc). constructor; auto.
  - apply lang_seq_inv in Hu as (a & b & -> & Ha & Hb). constructor; [apply lang_opt_inv; auto|].
    apply lang_cls_inv in Hb as (c & -> & Hc). constructor; auto.
Qed.

Lemma dec_incl w : lang g_unsigned_dec_int w -> lang REGEX_INTEGER_DEC w.
Proof.
  intros H. unfold REGEX_INTEGER_DEC. apply lang_alt_inv in H as [H|H].
  - apply lang_cls_inv in H as (c & -> & Hc).
    destruct (N.eqb_spec c 48) as [->|E]; [apply LAltR; apply lang_chr_inv; auto|].
    apply LAltL. change [c] with ([] ++ [c]). constructor; [apply lang_opt_inv; auto|].
    change [c] with ([c] ++ []). constructor; [constructor; ucls; lia|constructor].
  - apply LAltL. change w with ([] ++ w). constructor; [apply lang_opt_inv; auto|].
    revert H. apply lang_seq_mono; [auto|]. intros u Hu.
    apply (run_incl k_digit (in_range 48 57)); [auto|].
    unfold RPlus in Hu. apply lang_seq_inv in Hu as (a & b & -> & Ha & Hb). constructor; auto.
Qed.

Lemma str2_inv a b w : lang (RSeq (RChr a) (RSeq (RChr b) REps)) w <-> w = [a; b].
Proof.
  split.
  - intros H. apply lang_seq_inv in H as (u & v & -> & Hu & Hv). apply lang_chr_inv in Hu as ->.
    apply lang_seq_inv in Hv as (u & z & -> & Hu & Hz). apply lang_chr_inv in Hu as ->. apply lang_eps_inv in Hz as ->. reflexivity.
  - intros ->. change [a;b] with ([a] ++ [b] ++ []). repeat constructor; apply N.eqb_refl.
Qed.

Lemma prefixed_incl p2 k d w :
  (forall c, d c = true -> k c = true) ->
  lang (RSeq (RSeq (RChr 48) (RSeq (RChr p2) REps)) (RSeq (RCls d) (g_run (RCls d)))) w ->
  lang (RSeq (RChr 48) (RSeq (RChr p2) (RSeq (RCls k) (RStar (colon_opt (opt_us k)))))) w.
Proof.
  intros Hk H. apply lang_seq_inv in H as (u & v & -> & Hu & Hv). apply str2_inv in Hu as ->.
  change ([48; p2] ++ v) with ([48] ++ [p2] ++ v). constructor; [apply lang_chr_inv; auto|].
  constructor; [apply lang_chr_inv; auto|]. revert Hv. apply lang_seq_mono.
  - intros u Hu. apply lang_cls_inv in Hu as (c & -> & Hc). constructor; auto.
  - intros u. apply run_incl. auto.
Qed.

Lemma hex_incl w : lang g_hex_int w -> lang REGEX_INTEGER_HEX w.
Proof. apply prefixed_incl. auto. Qed.
Lemma oct_incl w : lang g_oct_int w -> lang REGEX_INTEGER_OCT w.
Proof. apply prefixed_incl. auto. Qed.
Lemma bin_incl w : lang g_bin_int w -> lang REGEX_INTEGER_BIN w.
Proof. apply prefixed_incl. cls. Qed.

Lemma nonempty_seq_cls p r w : lang (RSeq (RCls p) r) w -> exists c v, w = c :: v /\ p c = true /\ lang r v.
Proof.
  intros H. apply lang_seq_inv in H as (u & v & -> & Hu & Hv). apply lang_cls_inv in Hu as (c & -> & Hc). simpl. eauto.
Qed.
Lemma nonempty_seq_chr x r w : lang (RSeq (RChr x) r) w -> exists v, w = x :: v /\ lang r v.
Proof. intros H. apply nonempty_seq_cls in H as (c & v & -> & Hc & Hv). apply N.eqb_eq in Hc as ->. eauto. Qed.

Lemma zp_incl w : lang g_zero_prefixable_int w -> lang (RPlus (RCls k_digit_)) w.
Proof.
  intros H. apply lang_plus_cls. split.
  - apply nonempty_seq_cls in H as (c & v & -> & _). discriminate.
  - revert w H. change (chars_in g_zero_prefixable_int k_digit_). unfold g_zero_prefixable_int, g_run, g_digit, g_us, RChr. ci.
Qed.
Lemma ud_incl w : lang g_unsigned_dec_int w -> lang (RPlus (RCls k_digit_)) w.
Proof.
  intros H. apply lang_plus_cls. split.
  - apply lang_alt_inv in H as [H|H].
    + apply lang_cls_inv in H as (c & -> & _). discriminate.
    + apply nonempty_seq_cls in H as (c & v & -> & _). discriminate.
  - revert w H. change (chars_in g_unsigned_dec_int k_digit_).
    unfold g_unsigned_dec_int, g_run, g_digit, g_digit1_9, g_us, RChr, RPlus. ci.
Qed.

Lemma exp_incl w : lang g_exp w -> lang (RSeq (RCls k_e) (RSeq (ROpt (RCls k_sign)) (RPlus (RCls k_digit_)))) w.
Proof.
  apply lang_seq_mono; [auto|]. intros u. apply lang_seq_mono; [auto|]. intros v. apply zp_incl.
Qed.
Lemma frac_incl w : lang g_frac w -> lang (RSeq (RChr 46) (RPlus (RCls k_digit_))) w.
Proof. apply lang_seq_mono; [auto|]. apply zp_incl. Qed.

Definition g_ufloat : re := RSeq g_unsigned_dec_int (RAlt g_exp (RSeq g_frac (ROpt g_exp))).
Lemma float_incl w : lang g_ufloat w -> lang REGEX_FLOAT w.
Proof.
  apply lang_seq_mono; [apply ud_incl|]. intros u Hu.
  apply lang_alt_inv in Hu as [Hu|Hu].
  - apply LAltL. change u with ([] ++ u). constructor; [apply lang_opt_inv; auto|].
    change u with ([] ++ u). constructor; [apply lang_opt_inv; auto|]. apply exp_incl; auto.
  - apply lang_seq_inv in Hu as (a & b & -> & Ha & Hb). apply frac_incl in Ha.
    apply lang_opt_inv in Hb as [Hb| ->].
    + apply LAltL. change (a ++ b) with ([] ++ (a ++ b)). constructor; [apply lang_opt_inv; auto|].
      constructor; [|apply exp_incl; auto]. apply lang_opt_inv. left.
      change a with ([] ++ a). constructor; [apply lang_opt_inv; auto|auto].
    + rewrite app_nil_r. apply LAltR. auto.
Qed.

(** * Dates and times *)
Lemma rep2_inv p w : lang (RRep 2 (RCls p)) w <-> exists a b, w = [a; b] /\ p a = true /\ p b = true.
Proof.
  simpl. split.
  - intros H. apply nonempty_seq_cls in H as (a & v & -> & Ha & H). apply nonempty_seq_cls in H as (b & v' & -> & Hb & H).
    apply lang_eps_inv in H as ->. eauto.
  - intros (a & b & -> & Ha & Hb). change [a;b] with ([a] ++ [b] ++ []). repeat constructor; auto.
Qed.
Lemma rep4_inv p w : lang (RRep 4 (RCls p)) w <->
  exists a b c d, w = [a; b; c; d] /\ p a = true /\ p b = true /\ p c = true /\ p d = true.
Proof.
  simpl. split.
  - intros H. apply nonempty_seq_cls in H as (a & v & -> & Ha & H). apply nonempty_seq_cls in H as (b & v' & -> & Hb & H).
    apply nonempty_seq_cls in H as (c & v & -> & Hc & H). apply nonempty_seq_cls in H as (d & v' & -> & Hd & H).
    apply lang_eps_inv in H as ->. eauto 10.
  - intros (a & b & c & d & -> & Ha & Hb & Hc & Hd).
    change [a;b;c;d] with ([a] ++ [b] ++ [c] ++ [d] ++ []). repeat constructor; auto.
Qed.

Definition date_chars (w : str) : Prop := exists y1 y2 y3 y4 m1 m2 d1 d2,
  w = [y1;y2;y3;y4;45;m1;m2;45;d1;d2] /\
  forallb k_digit [y1;y2;y3;y4;m1;m2;d1;d2] = true.

Lemma date_inv w : lang r_date w <-> date_chars w.
Proof.
  unfold r_date, date_chars. split.
  - intros H. apply lang_seq_inv in H as (u & v & -> & Hu & Hv). apply rep4_inv in Hu as (y1 & y2 & y3 & y4 & -> & ? & ? & ? & ?).
    apply nonempty_seq_chr in Hv as (v' & -> & Hv). apply lang_seq_inv in Hv as (u & v & -> & Hu & Hv).
    apply rep2_inv in Hu as (m1 & m2 & -> & ? & ?). apply nonempty_seq_chr in Hv as (v' & -> & Hv).
    apply rep2_inv in Hv as (d1 & d2 & -> & ? & ?).
    exists y1, y2, y3, y4, m1, m2, d1, d2. split; [reflexivity|]. simpl.
    repeat (apply andb_true_iff; split; auto).
  - intros (y1 & y2 & y3 & y4 & m1 & m2 & d1 & d2 & -> & H). simpl in H.
    repeat (apply andb_true_iff in H as [? H]).
    change [y1;y2;y3;y4;45;m1;m2;45;d1;d2] with ([y1;y2;y3;y4] ++ [45] ++ [m1;m2] ++ [45] ++ [d1;d2]).
    constructor; [apply rep4_inv; eauto 10|]. constructor; [apply lang_chr_inv; auto|].
    constructor; [apply rep2_inv; eauto|]. constructor; [apply lang_chr_inv; auto|]. apply rep2_inv; eauto.
Qed.

Lemma time_start w : lang r_time w -> exists h1 h2 m1 m2 v, w = h1 :: h2 :: 58 :: m1 :: m2 :: v /\
  k_digit h1 = true /\ k_digit h2 = true /\ k_digit m1 = true /\ k_digit m2 = true.
Proof.
  unfold r_time. intros H. apply lang_seq_inv in H as (u & v & -> & Hu & Hv).
  apply rep2_inv in Hu as (h1 & h2 & -> & ? & ?). apply nonempty_seq_chr in Hv as (v' & -> & Hv).
  apply lang_seq_inv in Hv as (u & v & -> & Hu & Hv). apply rep2_inv in Hu as (m1 & m2 & -> & ? & ?).
  exists h1, h2, m1, m2, v. auto 10.
Qed.

(** A run of digits broken by another character is neither the start of a date nor of a time. *)
Definition broken (l : str) : Prop :=
  forallb k_digit_ l = true \/
  exists a x b, l = a ++ x :: b /\ forallb k_digit_ a = true /\ k_digit x = false /\ x <> 45 /\ x <> 58.


Lemma broken_head x b : broken (x :: b) -> x <> 45 /\ x <> 58.
Proof.
  intros [H|(a & y & b' & E & H1 & H2 & H3 & H4)].
  - simpl in H. apply andb_true_iff in H as [H _]. ucls. lia.
  - destruct a as [|a0 a]; simpl in *; inversion E; subst; auto.
    apply andb_true_iff in H1 as [H1 _]. ucls. lia.
Qed.
Lemma broken_tail y l : broken (y :: l) -> k_digit y = true -> broken l.
Proof.
  intros [H|(a & x & b & E & H1 & H2 & H3 & H4)] Hy.
  - left. simpl in H. apply andb_true_iff in H; tauto.
  - destruct a as [|a0 a]; simpl in *; inversion E; subst; [congruence|].
    right. apply andb_true_iff in H1 as [? ?]. eauto 10.
Qed.

Lemma broken_not_date c : broken (current c :: rest c) -> is_date_time c = false.
Proof.
  intros HB. unfold is_date_time, peeks_with_current.
  destruct (prefix_match _ _) eqn:E; auto. exfalso.
  apply prefix_match_spec in E as (u & v & E & Hu). apply date_inv in Hu as (y1 & y2 & y3 & y4 & m1 & m2 & d1 & d2 & -> & HD).
  simpl in HD. repeat (apply andb_true_iff in HD as [? HD]).
  rewrite <- (firstn_skipn 9 (rest c)) in HB. simpl "-"%nat in E. rewrite app_comm_cons, E in HB.
  simpl in HB.
  repeat (apply broken_tail in HB; [|assumption]). apply broken_head in HB. tauto.
Qed.
Lemma broken_not_time c : broken (current c :: rest c) -> is_time c = false.
Proof.
  intros HB. unfold is_time, peeks_with_current.
  destruct (full_match _ _) eqn:E; auto. exfalso.
  apply full_match_spec in E. apply time_start in E as (h1 & h2 & m1 & m2 & v & E & ? & ? & ? & ?).
  rewrite <- (firstn_skipn 4 (rest c)) in HB. simpl "-"%nat in E. rewrite app_comm_cons, E in HB.
  simpl in HB.
  repeat (apply broken_tail in HB; [|assumption]). apply broken_head in HB. tauto.
Qed.

(** * The dispatch on the first character *)
Definition lexed_as (c : cursor) (k : kind) (s : str) : Prop :=
  exists t c', advance_token c = Some (inl t, c') /\ tkind t = k /\ rest c' = s.

Lemma yields_lexed c k s res : advance_token c = Some res -> forall c0, yields c0 k s res -> lexed_as c k s.
Proof. intros H c0 (t & H1 & H2 & H3). destruct res as [r c']. simpl in *. subst. exists t, c'. auto. Qed.

Lemma dispatch_digit c x r : rest c = x :: r -> k_digit x = true ->
  advance_token c = Some (let c := bump c in
        if is_date_time c then date_time c
        else if is_time c then time c
        else if is_number c then number c
        else key c).
Proof.
  intros H Hx. unfold advance_token. rewrite H. destruct (adv_bump_cons c x r H) as (_ & _ & HC).
  cbv zeta. rewrite HC.
  replace (is_whitespace x) with false by (symmetry; ucls; lia).
  replace (is_line_break x) with false by (symmetry; ucls; lia).
  replace (N.eqb x c_hash) with false by (symmetry; ucls; lia).
  replace (N.eqb x c_dquote) with false by (symmetry; ucls; lia).
  replace (is_ascii_digit x) with true by (symmetry; ucls; lia). reflexivity.
Qed.

Lemma broken_num w s : w <> [] -> sep_start s ->
  (forallb k_digit_ w = true \/
   exists a x b, w = a ++ x :: b /\ forallb k_digit_ a = true /\ k_digit x = false /\ x <> 45 /\ x <> 58) ->
  broken (w ++ s).
Proof.
  intros Hn HS [H|(a & x & b & -> & H)].
  - destruct s as [|y s]; [rewrite app_nil_r; left; auto|]. right. exists w, y, s. simpl in HS.
    repeat split; auto; ucls; lia.
  - right. exists a, x, (b ++ s). rewrite <- app_assoc. auto.
Qed.

Lemma unsigned_lexed c x u s k :
  rest c = x :: u ++ s -> k_digit x = true -> forallb plain (x :: u) = true -> sep_start s ->
  broken (x :: u ++ s) -> number_kind (x :: u) = Some k -> lexed_as c k s.
Proof.
  intros H Hx HP HS HB HK. eapply yields_lexed; [eapply dispatch_digit; eauto|].
  destruct (adv_bump_cons c x (u ++ s) H) as (_ & HR & HC). cbv zeta.
  rewrite broken_not_date, broken_not_time by (rewrite HR, HC; auto).
  rewrite is_number_kind. unfold peek_with_current_while. rewrite HR, HC, take_while_sep; auto.
  2: { simpl in HP. apply andb_true_iff in HP. tauto. }
  rewrite HK. apply number_yields with (u := u); rewrite ?HC; auto.
Qed.

Lemma plus_lexed c x u s k :
  rest c = 43 :: x :: u ++ s -> k_digit x = true -> forallb plain (x :: u) = true -> sep_start s ->
  number_kind (x :: u) = Some k -> lexed_as c k s.
Proof.
  intros H Hx HP HS HK.
  destruct (adv_bump_cons c 43 _ H) as (_ & HR & HC).
  destruct (adv_bump_cons (bump c) x _ HR) as (_ & HR2 & HC2).
  eapply yields_lexed with (c0 := c) (res := number (bump (bump c))).
  - unfold advance_token. rewrite H. cbv zeta. rewrite HC. simpl. rewrite HC2.
    unfold is_keyword, matches_str. simpl. rewrite HC2.
    replace (N.eqb x 105) with false by (symmetry; ucls; lia).
    replace (N.eqb x 110) with false by (symmetry; ucls; lia). simpl.
    replace (is_ascii_digit x) with true by (symmetry; ucls; lia). reflexivity.
  - apply number_yields with (u := u); rewrite ?HC2; auto.
Qed.

Lemma minus_lexed c x u s k :
  rest c = 45 :: x :: u ++ s -> k_digit x = true -> forallb plain (x :: u) = true -> sep_start s ->
  number_kind (x :: u) = Some k -> lexed_as c k s.
Proof.
  intros H Hx HP HS HK.
  destruct (adv_bump_cons c 45 _ H) as (_ & HR & HC).
  destruct (adv_bump_cons (bump c) x _ HR) as (_ & HR2 & HC2).
  eapply yields_lexed with (c0 := c) (res := number (bump (bump c))).
  - unfold advance_token. rewrite H. cbv zeta. rewrite HC. simpl.
    unfold peeks, peek. rewrite HR. simpl.
    replace (N.eqb x 105) with false by (symmetry; ucls; lia).
    replace (N.eqb x 110) with false by (symmetry; ucls; lia).
    simpl. replace (is_ascii_digit x) with true by (symmetry; ucls; lia).
    rewrite is_number_kind. unfold peek_with_current_while. rewrite HR2, HC2, take_while_sep; auto.
    2: { simpl in HP. apply andb_true_iff in HP. tauto. }
    rewrite HK. reflexivity.
  - apply number_yields with (u := u); rewrite ?HC2; auto.
Qed.

(** * Numbers of the grammar *)
Lemma ud_first w : lang g_unsigned_dec_int w -> exists x u, w = x :: u /\ k_digit x = true.
Proof.
  intros H. apply lang_alt_inv in H as [H|H].
  - apply lang_cls_inv in H as (c & -> & Hc). eauto.
  - apply nonempty_seq_cls in H as (c & v & -> & Hc & _). exists c, v. split; auto. ucls; lia.
Qed.
Lemma ud_digits w : lang g_unsigned_dec_int w -> forallb k_digit_ w = true.
Proof. intros H. apply ud_incl, lang_plus_cls in H. tauto. Qed.

Lemma digit__plain c : k_digit_ c = true -> plain c = true.
Proof. unfold plain. cls. Qed.

Lemma ufloat_plain w : lang g_ufloat w -> forallb plain w = true.
Proof.
  revert w. change (chars_in g_ufloat plain). unfold plain.
  unfold g_ufloat, g_unsigned_dec_int, g_exp, g_frac, g_zero_prefixable_int, g_run, g_digit, g_digit1_9, g_us, g_sign, RChr, RPlus, ROpt. ci.
Qed.
Lemma hex_plain w : lang g_hex_int w -> forallb plain w = true.
Proof. revert w. change (chars_in g_hex_int plain). unfold plain, g_hex_int, g_hexdig, g_run, g_us, g_str. simpl. unfold RChr. ci. Qed.
Lemma oct_plain w : lang g_oct_int w -> forallb plain w = true.
Proof. revert w. change (chars_in g_oct_int plain). unfold plain, g_oct_int, g_digit0_7, g_run, g_us, g_str. simpl. unfold RChr. ci. Qed.
Lemma bin_plain w : lang g_bin_int w -> forallb plain w = true.
Proof. revert w. change (chars_in g_bin_int plain). unfold plain, g_bin_int, g_digit0_1, g_run, g_us, g_str. simpl. unfold RChr. ci. Qed.

Lemma ufloat_first w : lang g_ufloat w -> exists x u, w = x :: u /\ k_digit x = true.
Proof.
  intros H. apply lang_seq_inv in H as (a & b & -> & Ha & _). apply ud_first in Ha as (x & u & -> & Hx).
  exists x, (u ++ b). auto.
Qed.

Lemma ufloat_broken w : lang g_ufloat w ->
  exists a x b, w = a ++ x :: b /\ forallb k_digit_ a = true /\ k_digit x = false /\ x <> 45 /\ x <> 58.
Proof.
  intros H. apply lang_seq_inv in H as (a & b & -> & Ha & Hb). apply ud_digits in Ha.
  apply lang_alt_inv in Hb as [Hb|Hb].
  - apply nonempty_seq_cls in Hb as (x & v & -> & Hx & _). exists a, x, v. repeat split; auto; ucls; lia.
  - apply lang_seq_inv in Hb as (b1 & b2 & -> & Hb1 & _). apply nonempty_seq_chr in Hb1 as (v & -> & _).
    exists a, 46, (v ++ b2). repeat split; auto; lia.
Qed.

Lemma unsigned_any c w s k :
  rest c = w ++ s -> (exists x u, w = x :: u /\ k_digit x = true) -> forallb plain w = true -> sep_start s ->
  (forallb k_digit_ w = true \/
   exists a x b, w = a ++ x :: b /\ forallb k_digit_ a = true /\ k_digit x = false /\ x <> 45 /\ x <> 58) ->
  number_kind w = Some k -> lexed_as c k s.
Proof.
  intros H (x & u & -> & Hx) HP HS HB HK. eapply (unsigned_lexed c x u s k); eauto.
  apply (broken_num (x :: u) s); auto. discriminate.
Qed.

Lemma signed_any c sg w s k :
  rest c = sg ++ w ++ s -> (sg = [] \/ sg = [43] \/ sg = [45]) ->
  (exists x u, w = x :: u /\ k_digit x = true) -> forallb plain w = true -> sep_start s ->
  (forallb k_digit_ w = true \/
   exists a x b, w = a ++ x :: b /\ forallb k_digit_ a = true /\ k_digit x = false /\ x <> 45 /\ x <> 58) ->
  number_kind w = Some k -> lexed_as c k s.
Proof.
  intros H [->|[->| ->]] HF HP HS HB HK; [eapply unsigned_any; eauto| |];
  destruct HF as (x & u & -> & Hx); [eapply (plus_lexed c x u)|eapply (minus_lexed c x u)]; eauto.
Qed.

Lemma sign_inv w : lang (ROpt g_sign) w -> w = [] \/ w = [43] \/ w = [45].
Proof.
  intros H. apply lang_opt_inv in H as [H|H]; auto. apply lang_cls_inv in H as (c & -> & H).
  apply orb_true_iff in H as [H|H]; apply N.eqb_eq in H; subst; auto.
Qed.

Lemma dec_lexed c w s : lang g_dec_int w -> sep_start s -> rest c = w ++ s -> lexed_as c INTEGER_DEC s.
Proof.
  intros H HS HR. apply lang_seq_inv in H as (sg & u & -> & Hs & Hu). rewrite <- app_assoc in HR.
  pose proof (ud_digits _ Hu). apply (signed_any c sg u s); auto using sign_inv, ud_first.
  - eapply forallb_impl; [apply digit__plain|auto].
  - apply dec_kind; auto using dec_incl.
Qed.

Lemma float_lexed c w s : lang g_float w -> sep_start s -> rest c = w ++ s -> lexed_as c FLOAT s.
Proof.
  intros H HS HR. unfold g_float in H. apply lang_seq_inv in H as (d & v & -> & Hd & Hv).
  apply lang_seq_inv in Hd as (sg & u & -> & Hs & Hu).
  assert (HF : lang g_ufloat (u ++ v)) by (constructor; auto).
  rewrite <- !app_assoc in HR. rewrite (app_assoc u) in HR.
  apply (signed_any c sg (u ++ v) s); auto using sign_inv, ufloat_first, ufloat_plain, ufloat_broken.
  apply float_kind; auto using float_incl.
Qed.

Lemma prefixed_lexed c w s p b k :
  w = 48 :: p :: b -> k_digit p = false -> p <> 45 -> p <> 58 ->
  forallb plain w = true -> sep_start s -> rest c = w ++ s -> number_kind w = Some k -> lexed_as c k s.
Proof.
  intros -> H1 H2 H3 HP HS HR HK. eapply unsigned_any; eauto.
  right. exists [48], p, b. auto.
Qed.
Lemma hex_lexed c w s : lang g_hex_int w -> sep_start s -> rest c = w ++ s -> lexed_as c INTEGER_HEX s.
Proof.
  intros H HS HR. pose proof (hex_shape _ (hex_incl _ H)) as [b E].
  eapply prefixed_lexed; eauto using hex_plain, hex_kind, hex_incl; discriminate.
Qed.
Lemma oct_lexed c w s : lang g_oct_int w -> sep_start s -> rest c = w ++ s -> lexed_as c INTEGER_OCT s.
Proof.
  intros H HS HR. pose proof (oct_shape _ (oct_incl _ H)) as [b E].
  eapply prefixed_lexed; eauto using oct_plain, oct_kind, oct_incl; discriminate.
Qed.
Lemma bin_lexed c w s : lang g_bin_int w -> sep_start s -> rest c = w ++ s -> lexed_as c INTEGER_BIN s.
Proof.
  intros H HS HR. pose proof (bin_shape _ (bin_incl _ H)) as [b E].
  eapply prefixed_lexed; eauto using bin_plain, bin_kind, bin_incl; discriminate.
Qed.

(** * Keywords *)
Lemma g_str_inv (l : str) : forall w, lang (fold_right (fun c r => RSeq (RChr c) r) REps l) w <-> w = l.
Proof.
  induction l as [|x l IH]; intros w; simpl.
  - apply lang_eps_inv.
  - split.
    + intros H. apply nonempty_seq_chr in H as (v & -> & H). apply IH in H. congruence.
    + intros ->. change (x :: l) with ([x] ++ l). constructor; [apply lang_chr_inv; auto|apply IH; auto].
Qed.

Lemma sep_nth s : sep_start s -> is_token_separator_with_dot (nth 0 s EOF_CHAR) = true.
Proof. destruct s as [|x s]; simpl; intros H; [reflexivity|apply sep_with_dot; auto]. Qed.

Ltac kw_step c H :=
  match type of H with rest _ = ?x :: ?r => destruct (adv_bump_cons c x r H) as (_ & ?HR & ?HC) end.

Lemma bool_lexed c w s : lang g_boolean w -> sep_start s -> rest c = w ++ s -> lexed_as c BOOLEAN s.
Proof.
  intros H HS HR. pose proof (sep_nth _ HS) as HN. apply lang_alt_inv in H as [H|H]; apply g_str_inv in H; subst w; simpl in HR.
  - destruct (adv_bump_cons c _ _ HR) as (_ & HR1 & HC1).
    eapply yields_lexed with (c0 := c) (res := ok BOOLEAN (eat_n 3 (bump c))).
    + unfold advance_token. rewrite HR. cbv zeta. rewrite HC1. simpl.
      unfold is_keyword, matches_str, matches_from, peek. simpl lit. rewrite HC1, HR1. simpl. rewrite ?HR1. simpl. rewrite HN. reflexivity.
    + apply yields_ok. rewrite eat_n_rest, HR1. reflexivity.
  - destruct (adv_bump_cons c _ _ HR) as (_ & HR1 & HC1).
    eapply yields_lexed with (c0 := c) (res := ok BOOLEAN (eat_n 4 (bump c))).
    + unfold advance_token. rewrite HR. cbv zeta. rewrite HC1. simpl.
      unfold is_keyword, matches_str, matches_from, peek. simpl lit. rewrite HC1, HR1. simpl. rewrite ?HR1. simpl. rewrite HN. reflexivity.
    + apply yields_ok. rewrite eat_n_rest, HR1. reflexivity.
Qed.

Lemma special_lexed c w s : lang g_special_float w -> sep_start s -> rest c = w ++ s -> lexed_as c FLOAT s.
Proof.
  intros H HS HR. pose proof (sep_nth _ HS) as HN. apply lang_seq_inv in H as (sg & v & -> & Hs & Hv).
  apply sign_inv in Hs as [->|[->| ->]];
  (apply lang_alt_inv in Hv as [Hv|Hv]; apply g_str_inv in Hv; subst v; simpl in HR;
   destruct (adv_bump_cons c _ _ HR) as (_ & HR1 & HC1)).
  1,2: eapply yields_lexed with (c0 := c) (res := ok FLOAT (eat_n 2 (bump c))).
  5,6: destruct (adv_bump_cons (bump c) _ _ HR1) as (_ & HR2 & HC2);
       eapply yields_lexed with (c0 := c) (res := ok FLOAT (eat_n 2 (bump (bump c)))).
  9,10: eapply yields_lexed with (c0 := c) (res := ok FLOAT (eat_n 3 (bump c))).
  1,3: unfold advance_token; rewrite HR; cbv zeta; rewrite HC1; simpl;
       unfold is_keyword, matches_str, matches_from, peek; simpl lit; rewrite HC1, HR1; simpl; rewrite ?HR1; simpl; rewrite HN; reflexivity.
  1,2: apply yields_ok; rewrite eat_n_rest, HR1; reflexivity.
  1,3: unfold advance_token; rewrite HR; cbv zeta; rewrite HC1; simpl;
       unfold is_keyword, matches_str, matches_from, peek; simpl lit; rewrite HC2, HR2; simpl; rewrite ?HR2; simpl; rewrite HN; reflexivity.
  1,2: apply yields_ok; rewrite eat_n_rest, HR2; reflexivity.
  1,3: unfold advance_token; rewrite HR; cbv zeta; rewrite HC1; simpl;
       unfold peeks, peek; rewrite HR1; simpl; rewrite HN; reflexivity.
  1,2: apply yields_ok; rewrite eat_n_rest, HR1; reflexivity.
Qed.

(** * Dates and times *)
Lemma time_incl w : lang g_partial_time w -> lang r_time w.
Proof.
  unfold g_partial_time, r_time. apply lang_seq_mono; [auto|]. intros a. apply lang_seq_mono; [auto|]. intros b.
  apply lang_seq_mono; [auto|]. intros d Hd. apply lang_opt_inv in Hd as [Hd| ->].
  - apply lang_seq_inv in Hd as (u & v & -> & Hu & Hv). apply lang_seq_inv in Hv as (x & y & -> & Hx & Hy).
    rewrite app_assoc. constructor.
    + apply lang_opt_inv. left. constructor; auto.
    + apply lang_opt_inv in Hy as [Hy| ->]; apply lang_opt_inv; auto. left. revert Hy. apply lang_seq_mono; auto.
      intros z Hz. apply lang_chr_inv in Hz as ->. constructor. reflexivity.
  - change (@nil N) with (@nil N ++ []). constructor; apply lang_opt_inv; auto.
Qed.

Lemma time_plain w : lang g_partial_time w -> forallb plain w = true.
Proof.
  revert w. change (chars_in g_partial_time plain). unfold plain, g_partial_time, g_2digit, g_secfrac, g_digit, RPlus, ROpt, RRep, RChr. ci.
Qed.
Lemma offset_plain w : lang g_offset w -> forallb plain w = true.
Proof.
  revert w. change (chars_in g_offset plain). unfold plain, g_offset, g_sign, g_2digit, g_digit, RPlus, ROpt, RRep, RChr. ci.
Qed.

Lemma eat_match_ascii c u s :
  rest c = u ++ s -> forallb (fun c => c <? 128) (current c :: u) = true ->
  rest (eat_match (len_bytes (current c :: u)) c) = s.
Proof.
  intros H HP. rewrite plain_ascii_len by auto.
  unfold eat_match. simpl length.
  destruct u as [|y u].
  - simpl. rewrite H; reflexivity.
  - destruct (N.ltb_spec 1 (N.of_nat (S (length (y :: u))))); [|simpl length in *; lia].
    replace (N.to_nat (N.of_nat (S (length (y :: u))) - 1)) with (length (y :: u)) by lia.
    rewrite eat_n_rest, H. rewrite skipn_app, skipn_all, Nat.sub_diag. reflexivity.
Qed.
Lemma plain_ascii w : forallb plain w = true -> forallb (fun c => c <? 128) w = true.
Proof. apply forallb_impl. unfold plain. intros x Hx. apply andb_true_iff in Hx. tauto. Qed.

Lemma prefix_true r a b : lang r a -> prefix_match r (a ++ b) = true.
Proof. intros H. apply prefix_match_spec. eauto. Qed.

Lemma dtl_sep i u s : forallb plain u = true -> sep_start s -> (i >= 10)%nat -> date_time_line i (u ++ s) = u.
Proof.
  revert i; induction u as [|x u IH]; intros i HP HS Hi.
  - destruct s as [|y s]; simpl in *; auto. rewrite HS.
    replace (Nat.eqb i 9) with false by (symmetry; apply Nat.eqb_neq; lia). reflexivity.
  - simpl in HP |- *. apply andb_true_iff in HP as [H1 H2].
    unfold plain in H1. apply andb_true_iff in H1 as [H1 _]. rewrite H1, orb_true_r. f_equal. apply IH; auto.
Qed.

Lemma digit_nsep x : k_digit x = true -> is_token_separator x = false.
Proof. cls. Qed.

(** The line read after a date. *)
Lemma dtl_date y2 y3 y4 m1 m2 d1 d2 r :
  forallb k_digit [y2;y3;y4;m1;m2;d1;d2] = true ->
  date_time_line 0 (y2 :: y3 :: y4 :: 45 :: m1 :: m2 :: 45 :: d1 :: d2 :: r)
  = y2 :: y3 :: y4 :: 45 :: m1 :: m2 :: 45 :: d1 :: d2 :: date_time_line 9 r.
Proof.
  intros H. simpl in H. repeat (apply andb_true_iff in H as [? H]).
  cbn [date_time_line Nat.eqb andb orb]. 
  rewrite ?(digit_nsep y2), ?(digit_nsep y3), ?(digit_nsep y4), ?(digit_nsep m1), ?(digit_nsep m2), ?(digit_nsep d1), ?(digit_nsep d2) by assumption.
  reflexivity.
Qed.

Lemma dtl_delim x r : k_t_space x = true -> date_time_line 9 (x :: r) = x :: date_time_line 10 r.
Proof.
  intros H. cbn [date_time_line Nat.eqb andb orb].
  replace (N.eqb x c_space || negb (is_token_separator x)) with true; [reflexivity|].
  symmetry. ucls. lia.
Qed.

Lemma is_date_time_true c y1 y2 y3 y4 m1 m2 d1 d2 r :
  forallb k_digit [y1;y2;y3;y4;m1;m2;d1;d2] = true ->
  current c = y1 -> rest c = y2 :: y3 :: y4 :: 45 :: m1 :: m2 :: 45 :: d1 :: d2 :: r ->
  is_date_time c = true.
Proof.
  intros H HC HR. unfold is_date_time, peeks_with_current. rewrite HC, HR. simpl firstn.
  change [y1;y2;y3;y4;45;m1;m2;45;d1;d2] with ([y1;y2;y3;y4;45;m1;m2;45;d1;d2] ++ []).
  apply prefix_true, date_inv. exists y1,y2,y3,y4,m1,m2,d1,d2. auto.
Qed.

Lemma tail_of_time v : lang r_time v -> forall x, In x v -> k_digit x = true \/ x = 58 \/ x = 46 \/ x = 44.
Proof.
  assert (H : chars_in r_time (fun x => k_digit x || N.eqb x 58 || N.eqb x 46 || N.eqb x 44)).
  { unfold r_time, RPlus, ROpt, RRep, RChr. ci. }
  intros Hv x Hx. specialize (H v Hv). rewrite forallb_forall in H. specialize (H x Hx). lia.
Qed.

(** A time followed by an offset is not a time. *)
Lemma offset_last w : lang r_offset w -> exists x v, w = x :: v /\ k_digit x = false /\ x <> 58 /\ x <> 46 /\ x <> 44.
Proof.
  intros H. apply lang_alt_inv in H as [H|H].
  - apply lang_cls_inv in H as (x & -> & Hx). exists x, []. repeat split; ucls; lia.
  - apply nonempty_seq_cls in H as (x & v & -> & Hx & _). exists x, v. repeat split; ucls; lia.
Qed.

Lemma date_first_plain y1 y2 y3 y4 m1 m2 d1 d2 :
  forallb k_digit [y1;y2;y3;y4;m1;m2;d1;d2] = true ->
  forallb plain [y1;y2;y3;y4;45;m1;m2;45;d1;d2] = true.
Proof.
  intros H. simpl in H. repeat (apply andb_true_iff in H as [? H]).
  assert (HD : forall x, k_digit x = true -> plain x = true) by (unfold plain; cls).
  cbn [forallb]. rewrite (HD y1), (HD y2), (HD y3), (HD y4), (HD m1), (HD m2), (HD d1), (HD d2) by assumption. reflexivity.
Qed.

Lemma offset_incl w : lang g_offset w -> lang r_offset w.
Proof. auto. Qed.

Lemma seq3 a b d u v w : lang a u -> lang b v -> lang d w -> lang (RSeq a (RSeq b d)) (u ++ v ++ w).
Proof. intros. constructor; auto. constructor; auto. Qed.

Lemma not_offset_of_local D d T :
  length D = 10%nat -> lang r_time T -> ~ lang REGEX_OFFSET_DATE_TIME (D ++ d :: T).
Proof.
  intros HD HT H. unfold REGEX_OFFSET_DATE_TIME in H. apply lang_seq_inv in H as (u & v & E & Hu & Hv).
  apply date_inv in Hu as (? & ? & ? & ? & ? & ? & ? & ? & -> & _).
  do 10 (destruct D as [|? D]; [discriminate|]). destruct D; [|discriminate]. simpl in E. inversion E; subst.
  apply nonempty_seq_cls in Hv as (xx & w & E2 & _ & Hw). inversion E2; subst.
  apply lang_seq_inv in Hw as (t & o & -> & _ & Ho). apply offset_last in Ho as (x9 & z & -> & Hz).
  destruct (tail_of_time _ HT x9) as [K|[K|[K|K]]]; try (apply in_or_app; right; left; reflexivity); try tauto.
  destruct Hz as [Hz _]; congruence.
Qed.

Lemma dt_lexed c D d T k s :
  date_chars D -> k_t_space d = true -> forallb plain T = true -> sep_start s ->
  (lang REGEX_OFFSET_DATE_TIME (D ++ d :: T) /\ k = OFFSET_DATE_TIME \/
   ~ lang REGEX_OFFSET_DATE_TIME (D ++ d :: T) /\ lang REGEX_LOCAL_DATE_TIME (D ++ d :: T) /\ k = LOCAL_DATE_TIME) ->
  rest c = (D ++ d :: T) ++ s -> lexed_as c k s.
Proof.
  intros (y1 & y2 & y3 & y4 & m1 & m2 & d1 & d2 & -> & HD) Hd HP HS HK HR.
  pose proof (date_first_plain _ _ _ _ _ _ _ _ HD) as HPD.
  assert (Hall : forallb (fun c => c <? 128) ([y1;y2;y3;y4;45;m1;m2;45;d1;d2] ++ d :: T) = true).
  { rewrite forallb_app, (plain_ascii _ HPD). simpl. rewrite (plain_ascii _ HP), andb_true_r. ucls; lia. }
  cbn [app] in *. pose proof HD as HD'. cbn [forallb] in HD'.
  apply andb_true_iff in HD' as [Hy1 HD'].
  destruct (adv_bump_cons c _ _ HR) as (_ & HR1 & HC1).
  eapply yields_lexed with (c0 := c); [eapply dispatch_digit; eauto|]. cbv zeta.
  erewrite is_date_time_true; [|exact HD|exact HC1|exact HR1].
  assert (HL : date_time_line 0 (rest (bump c)) = y2 :: y3 :: y4 :: 45 :: m1 :: m2 :: 45 :: d1 :: d2 :: d :: T).
  { rewrite HR1, dtl_date.
    - rewrite dtl_delim by auto. rewrite dtl_sep; auto.
    - cbn [forallb]. repeat (apply andb_true_iff in HD' as [? HD']). 
      repeat (apply andb_true_iff; split; auto). }
  unfold date_time. rewrite HL, HC1. unfold find_end.
  assert (HE : rest (eat_match (len_bytes (y1 :: y2 :: y3 :: y4 :: 45 :: m1 :: m2 :: 45 :: d1 :: d2 :: d :: T)) (bump c)) = s).
  { rewrite <- HC1. apply eat_match_ascii; [exact HR1|]. rewrite HC1. exact Hall. }
  destruct HK as [[HK ->]|(HN & HK & ->)].
  - apply full_match_spec in HK. rewrite HK. rewrite (peek1_sep _ s HE HS). apply yields_ok. auto.
  - apply no_match in HN. apply full_match_spec in HK. rewrite HN, HK.
    rewrite (peek1_sep _ s HE HS). apply yields_ok. auto.
Qed.

Lemma odt_lexed c w s : lang g_offset_date_time w -> sep_start s -> rest c = w ++ s -> lexed_as c OFFSET_DATE_TIME s.
Proof.
  intros H HS HR. apply lang_seq_inv in H as (D & v & -> & HD & Hv). pose proof HD as HD'. apply date_inv in HD'.
  apply nonempty_seq_cls in Hv as (d & u & -> & Hd & Hu). apply lang_seq_inv in Hu as (t & o & -> & Ht & Ho).
  eapply (dt_lexed c D d (t ++ o)); eauto.
  - rewrite forallb_app, time_plain, offset_plain; auto.
  - left. split; auto. unfold REGEX_OFFSET_DATE_TIME. constructor; auto.
    change (d :: t ++ o) with ([d] ++ t ++ o). apply seq3; auto using time_incl. constructor; auto.
Qed.
Lemma ldt_lexed c w s : lang g_local_date_time w -> sep_start s -> rest c = w ++ s -> lexed_as c LOCAL_DATE_TIME s.
Proof.
  intros H HS HR. apply lang_seq_inv in H as (D & v & -> & HD & Hv). pose proof HD as HD'. apply date_inv in HD'.
  apply nonempty_seq_cls in Hv as (d & t & -> & Hd & Ht).
  eapply (dt_lexed c D d t); eauto.
  - apply time_plain; auto.
  - right. repeat split; auto.
    + apply not_offset_of_local; auto using time_incl. destruct HD' as (? & ? & ? & ? & ? & ? & ? & ? & -> & _). reflexivity.
    + unfold REGEX_LOCAL_DATE_TIME. constructor; auto.
      change (d :: t) with ([d] ++ t). constructor; auto using time_incl. constructor; auto.
Qed.

(** A date alone. *)
Lemma dt_needs_digit D v : length D = 10%nat ->
  (lang REGEX_OFFSET_DATE_TIME (D ++ v) \/ lang REGEX_LOCAL_DATE_TIME (D ++ v)) ->
  exists d x v', v = d :: x :: v' /\ k_digit x = true.
Proof.
  intros HD H.
  assert (exists r, lang (RSeq r_date (RSeq (RCls k_t_space) (RSeq r_time r))) (D ++ v)) as [r K].
  { destruct H as [H|H]; [exists r_offset; exact H|]. exists REps.
    revert H. apply lang_seq_mono; auto. intros u. apply lang_seq_mono; auto. intros z Hz.
    rewrite <- (app_nil_r z). constructor; auto. constructor. }
  apply lang_seq_inv in K as (u & w & E & Hu & Hw). apply date_inv in Hu as (? & ? & ? & ? & ? & ? & ? & ? & -> & _).
  do 10 (destruct D as [|? D]; [discriminate|]). destruct D; [|discriminate]. simpl in E. inversion E; subst.
  apply nonempty_seq_cls in Hw as (d & z & -> & _ & Hz). apply lang_seq_inv in Hz as (t & o & -> & Ht & _).
  apply time_start in Ht as (h1 & h2 & a1 & a2 & q & -> & Hh & _). exists d, h1. simpl. eauto.
Qed.

Lemma ld_lexed c w s : lang g_local_date w -> ends_value s -> not_continued LOCAL_DATE s ->
  rest c = w ++ s -> lexed_as c LOCAL_DATE s.
Proof.
  intros H HS HN HR. apply date_inv in H as (y1 & y2 & y3 & y4 & m1 & m2 & d1 & d2 & -> & HD).
  pose proof (date_first_plain _ _ _ _ _ _ _ _ HD) as HPD. apply ends_value_sep in HS as HS'.
  cbn [app] in *. pose proof HD as HD'. cbn [forallb] in HD'. apply andb_true_iff in HD' as [Hy1 HD'].
  destruct (adv_bump_cons c _ _ HR) as (_ & HR1 & HC1).
  eapply yields_lexed with (c0 := c); [eapply dispatch_digit; eauto|]. cbv zeta.
  erewrite is_date_time_true; [|exact HD|exact HC1|exact HR1].
  assert (HL : date_time_line 0 (rest (bump c)) = [y2;y3;y4;45;m1;m2;45;d1;d2] ++ date_time_line 9 s).
  { rewrite HR1, dtl_date; [reflexivity|]. cbn [forallb]. repeat (apply andb_true_iff in HD' as [? HD']).
    repeat (apply andb_true_iff; split; auto). }
  assert (HV : forall d x v', date_time_line 9 s = d :: x :: v' -> k_digit x = true -> False).
  { intros d x v' E Hx. destruct s as [|z s]; [discriminate|]. cbn [date_time_line Nat.eqb andb] in E.
    simpl in HS'. rewrite HS' in E. simpl in E.
    destruct (N.eqb_spec z c_space) as [Ez|Ez]; [|discriminate]. subst z. simpl in E.
    inversion E; subst. destruct s as [|q s]; [discriminate|].
    cbn [date_time_line Nat.eqb andb orb] in H1.
    destruct (negb (is_token_separator q)); [|discriminate]. inversion H1; subst.
    simpl in HN. unfold k_digit in Hx. congruence. }
  unfold date_time. rewrite HL, HC1. unfold find_end.
  change (y1 :: [y2; y3; y4; 45; m1; m2; 45; d1; d2] ++ date_time_line 9 s)
    with ([y1; y2; y3; y4; 45; m1; m2; 45; d1; d2] ++ date_time_line 9 s).
  rewrite (no_match REGEX_OFFSET_DATE_TIME), (no_match REGEX_LOCAL_DATE_TIME).
  - simpl firstn.
    assert (HM : full_match REGEX_LOCAL_DATE [y1; y2; y3; y4; 45; m1; m2; 45; d1; d2] = true).
    { apply full_match_spec, date_inv. exists y1,y2,y3,y4,m1,m2,d1,d2. auto. }
    rewrite HM.
    assert (HE : rest (eat_match (len_bytes [y1; y2; y3; y4; 45; m1; m2; 45; d1; d2]) (bump c)) = s).
    { rewrite <- HC1. apply eat_match_ascii; [exact HR1|]. rewrite HC1. apply plain_ascii. exact HPD. }
    rewrite (peek1_sep _ s HE HS'). apply yields_ok. auto.
  - intros K. destruct (dt_needs_digit [y1; y2; y3; y4; 45; m1; m2; 45; d1; d2] (date_time_line 9 s)) as (d & x & v' & E & Hx); eauto.
  - intros K. destruct (dt_needs_digit [y1; y2; y3; y4; 45; m1; m2; 45; d1; d2] (date_time_line 9 s)) as (d & x & v' & E & Hx); eauto.
Qed.

Lemma is_time_true c h1 h2 m1 m2 r :
  k_digit h1 = true -> k_digit h2 = true -> k_digit m1 = true -> k_digit m2 = true ->
  current c = h1 -> rest c = h2 :: 58 :: m1 :: m2 :: r -> is_time c = true.
Proof.
  intros H1 H2 H3 H4 HC HR. unfold is_time, peeks_with_current. rewrite HC, HR. simpl firstn.
  apply full_match_spec. unfold REGEX_LOCAL_TIME, r_time.
  change [h1;h2;58;m1;m2] with ([h1;h2] ++ [58] ++ [m1;m2] ++ [] ++ []).
  constructor; [apply rep2_inv; eauto|]. constructor; [apply lang_chr_inv; auto|].
  constructor; [apply rep2_inv; eauto|]. constructor; apply lang_opt_inv; auto.
Qed.

Lemma lt_lexed c w s : lang g_local_time w -> sep_start s -> rest c = w ++ s -> lexed_as c LOCAL_TIME s.
Proof.
  intros H HS HR. pose proof (time_plain _ H) as HP. apply time_incl in H.
  pose proof (time_start _ H) as (h1 & h2 & m1 & m2 & v & -> & ? & ? & ? & ?).
  cbn [app] in HR. destruct (adv_bump_cons c _ _ HR) as (_ & HR1 & HC1).
  eapply yields_lexed with (c0 := c); [eapply dispatch_digit; eauto|]. cbv zeta.
  replace (is_date_time (bump c)) with false.
  2: { symmetry. unfold is_date_time, peeks_with_current. destruct (prefix_match _ _) eqn:E; auto. exfalso.
    apply prefix_match_spec in E as (u & z & E & Hu). apply date_inv in Hu as (? & ? & x & ? & ? & ? & ? & ? & -> & HD).
    rewrite HC1, HR1 in E. simpl in E. inversion E; subst. simpl in HD. rewrite !andb_false_r in HD. 
    repeat (apply andb_true_iff in HD as [? HD]). discriminate. }
  rewrite (is_time_true (bump c) h1 h2 m1 m2 (v ++ s)); auto.
  unfold time, peek_with_current_while. rewrite HC1, HR1.
  change (h2 :: 58 :: m1 :: m2 :: v ++ s) with ((h2 :: 58 :: m1 :: m2 :: v) ++ s).
  rewrite take_while_sep; auto.
  2: { simpl in HP |- *. apply andb_true_iff in HP. tauto. }
  unfold find_end. apply full_match_spec in H. unfold REGEX_LOCAL_TIME. rewrite H.
  apply yields_ok. rewrite <- HC1 at 1. apply eat_match_ascii; [exact HR1|]. rewrite HC1. apply plain_ascii. exact HP.
Qed.

Lemma scalar_lexed c k w s :
  scalar k w -> ends_value s -> not_continued k s -> rest c = w ++ s -> lexed_as c k s.
Proof.
  intros H HE HN HR. pose proof (ends_value_sep _ HE) as HS.
  destruct H; eauto using dec_lexed, hex_lexed, oct_lexed, bin_lexed, float_lexed, special_lexed, bool_lexed,
    odt_lexed, ldt_lexed, ld_lexed, lt_lexed.
Qed.
