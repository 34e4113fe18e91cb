(** Proofs about the rewriting of single tokens. *)
From Coq Require Import String Ascii List NArith Bool Arith Lia ZifyBool.
From Verif Require Import Base SyntaxKind TextModel Regex LexerModel LexerSpec LexerProofs TomlGrammar LexScalars LexSound LexNumbers
  TomlTextModel TomlStringGrammar TomlTextProofs FormatPieces.
Import ListNotations.
Open Scope N_scope.
Open Scope list_scope.

(** * Strings *)
Lemma contains_false c s : contains c s = false <-> ~ In c s.
Proof.
  unfold contains. split.
  - intros H Hin. assert (existsb (N.eqb c) s = true); [|congruence]. apply existsb_exists. exists c. rewrite N.eqb_refl. auto.
  - intros H. destruct (existsb (N.eqb c) s) eqn:E; [|reflexivity]. apply existsb_exists in E as (x & Hx & E). apply N.eqb_eq in E. subst. contradiction.
Qed.

Lemma inner_no_break b s : no_break_start b -> is_line_break (nth 0 (b ++ 34 :: s) EOF_CHAR) = false.
Proof. destruct b; [reflexivity|]. auto. Qed.
Lemma basic_inner_loop b : basic_inner b -> forall c s, rest c = b ++ 34 :: s -> yields c BASIC_STRING s (basic_string_loop (b ++ 34 :: s) c).
Proof.
  induction 1 as [|x b N1 N2 Hb H IH|y b Hy H IH|y b N1 N2 Hy H IH]; intros c s HR.
  - cbn [app basic_string_loop]. destruct (adv_bump_cons c _ _ HR) as (_ & HR1 & _).
    simpl. apply yields_ok. exact HR1.
  - cbn [app basic_string_loop] in *. destruct (adv_bump_cons c _ _ HR) as (_ & HR1 & _).
    unfold c_dquote, c_backslash.
    replace (N.eqb x 34) with false by lia. replace (N.eqb x 92) with false by lia. cbn [andb].
    unfold peek at 1. rewrite HR1. cbn [Nat.sub]. rewrite (inner_no_break b s) by auto.
    destruct (IH (bump c) s HR1) as (t & K1 & K2 & K3). exists t. auto.
  - cbn [app basic_string_loop] in *. destruct (adv_bump_cons c _ _ HR) as (_ & HR1 & _).
    destruct (adv_bump_cons (bump c) _ _ HR1) as (_ & HR2 & _).
    unfold c_dquote, c_backslash, peek. rewrite HR1. cbn [Nat.sub nth].
    replace (N.eqb 92 34) with false by reflexivity.
    replace (N.eqb 92 92 && (N.eqb y 34 || N.eqb y 92)) with true by lia.
    destruct (IH (bump (bump c)) s HR2) as (t & K1 & K2 & K3). exists t. auto.
  - cbn [app] in *. destruct (adv_bump_cons c _ _ HR) as (_ & HR1 & _).
    specialize (IH (bump c) s HR1).
    assert (E : basic_string_loop (92 :: y :: b ++ 34 :: s) c = basic_string_loop (y :: b ++ 34 :: s) (bump c)).
    { cbn [basic_string_loop]. unfold c_dquote at 1, c_backslash at 1.
      replace (N.eqb 92 34) with false by reflexivity.
      unfold peek at 1 2 3. rewrite HR1. cbn [Nat.sub nth].
      replace (N.eqb 92 92 && (N.eqb y c_dquote || N.eqb y c_backslash)) with false by (unfold c_dquote, c_backslash; lia).
      rewrite Hy. reflexivity. }
    rewrite E. destruct IH as (t & K1 & K2 & K3). exists t. auto.
Qed.
(** A basic string token is lexed again as one in any place where no quote follows. *)
Lemma relex_basic w s : text_ok BASIC_STRING w -> not_start 34 s -> always_lexed BASIC_STRING w s.
Proof.
  intros (b & -> & Hb) Hs c HR. cbn [app] in HR. rewrite <- app_assoc in HR. cbn [app] in HR.
  destruct (adv_bump_cons c _ _ HR) as (_ & HR1 & HC).
  eapply yields_lexed with (c0 := bump c); [eapply dispatch_dquote; eauto|].
  assert (HM : matches_str [c_dquote; c_dquote; c_dquote] (bump c) = false).
  { rewrite matches3_iff, HC, HR1. destruct Hb as [|x b N1 N2 _ Hb|y b Hy Hb|y b N1 N2 Hy Hb]; cbn [app nth]; try reflexivity.
    - destruct s as [|z s]; [reflexivity|]. cbn [nth]. unfold c_dquote. destruct (N.eqb_spec z 34) as [->|]; auto.
      exfalso. eapply Hs; eauto.
    - unfold c_dquote. replace (N.eqb x 34) with false by lia. reflexivity. }
  rewrite HM. unfold basic_string. rewrite HR1. apply basic_inner_loop; auto.
Qed.

Lemma literal_inner_loop b : literal_inner b -> forall c s, rest c = b ++ 39 :: s ->
  yields c LITERAL_STRING s (literal_string_loop (b ++ 39 :: s) c).
Proof.
  induction b as [|x b IH]; intros (H1 & H2) c s HR.
  - cbn [app literal_string_loop]. destruct (adv_bump_cons c _ _ HR) as (_ & HR1 & _).
    simpl. apply yields_ok. exact HR1.
  - cbn [app literal_string_loop] in *. destruct (adv_bump_cons c _ _ HR) as (_ & HR1 & _).
    unfold c_squote. replace (N.eqb x 39) with false by (symmetry; apply N.eqb_neq; intros ->; apply H1; left; auto).
    unfold peek at 1. rewrite HR1. cbn [Nat.sub]. cbn [tl] in H2.
    replace (is_line_break (nth 0 (b ++ 39 :: s) EOF_CHAR)) with false.
    + assert (HI : literal_inner b). { split; [intros K; apply H1; right; exact K|]. destruct b; [reflexivity|]. cbn [forallb] in H2. apply andb_prop in H2. tauto. }
      destruct (IH HI (bump c) s HR1) as (t & K1 & K2 & K3). exists t. auto.
    + symmetry. destruct b as [|y b]; [reflexivity|]. cbn [app nth forallb] in *. apply andb_prop in H2 as [H2 _]. apply negb_true_iff in H2. exact H2.
Qed.
Lemma relex_literal w s : text_ok LITERAL_STRING w -> not_start 39 s -> always_lexed LITERAL_STRING w s.
Proof.
  intros (b & -> & Hb) Hs c HR. cbn [app] in HR. rewrite <- app_assoc in HR. cbn [app] in HR.
  destruct (adv_bump_cons c _ _ HR) as (_ & HR1 & HC).
  eapply yields_lexed with (c0 := bump c); [eapply dispatch_squote; eauto|].
  assert (HM : matches_str [c_squote; c_squote; c_squote] (bump c) = false).
  { rewrite matches3_iff, HC, HR1. destruct b as [|x b]; cbn [app nth].
    - destruct s as [|z s]; [reflexivity|]. cbn [nth]. unfold c_squote. destruct (N.eqb_spec z 39) as [->|]; auto.
      exfalso. eapply Hs; eauto.
    - unfold c_squote. destruct (N.eqb_spec x 39) as [->|]; [exfalso; apply Hb; left; auto|reflexivity]. }
  rewrite HM. unfold literal_string. rewrite HR1. apply literal_inner_loop; auto.
Qed.

Lemma inner_plain b : basic_inner b -> ~ In 92 b -> ~ In 39 b -> literal_inner b.
Proof.
  intros H. induction H as [|x b N1 N2 Hb H IH|y b Hy H IH|y b N1 N2 Hy H IH]; intros K1 K2.
  - split; [intros []|reflexivity].
  - destruct IH as [I1 I2]; [intros K; apply K1; right; auto|intros K; apply K2; right; auto|].
    split; [auto|]. cbn [tl]. destruct b as [|y b]; [reflexivity|]. cbn [forallb tl no_break_start] in *. rewrite Hb, I2. reflexivity.
  - exfalso. apply K1. left; auto.
  - exfalso. apply K1. left; auto.
Qed.
Lemma plain_inner b : literal_inner b -> ~ In 92 b -> ~ In 34 b -> basic_inner b.
Proof.
  induction b as [|x b IH]; intros (H1 & H2) K1 K2; [constructor|].
  assert (HI : literal_inner b). { split; [intros K; apply H1; right; exact K|]. cbn [tl] in H2. destruct b; [reflexivity|]. cbn [forallb] in H2. apply andb_prop in H2. tauto. }
  apply bi_plain; [intros ->; apply K2; left; auto|intros ->; apply K1; left; auto| |].
  - cbn [tl] in H2. destruct b as [|y b]; [exact I|]. cbn [forallb] in H2. apply andb_prop in H2 as [H2 _]. apply negb_true_iff in H2. exact H2.
  - apply IH; auto; intros K; [apply K1|apply K2]; right; auto.
Qed.

(** Without a backslash both decoders agree. *)
Lemma parse_same v b : ~ In 92 b -> parse_basic_string b v false = parse_literal_string b false.
Proof.
  unfold parse_basic_string. induction b as [|c b IH]; intros H; [reflexivity|].
  cbn [parse_basic parse_literal_string]. replace (N.eqb c 92) with false by (symmetry; apply N.eqb_neq; intros ->; apply H; left; auto).
  cbn [andb]. destruct (is_forbidden_control c); [reflexivity|]. rewrite IH; [reflexivity|]. intros K. apply H. right. auto.
Qed.

Lemma not_in_inside {A} (c : A) a b d : ~ In c (a ++ b ++ d) -> ~ In c b.
Proof. intros H K. apply H. apply in_or_app. right. apply in_or_app. auto. Qed.

Lemma requote_shape w q b d : d < 128 -> w = [d] ++ b ++ [d] -> 
  (requote_string w q = Some w) \/ (~ In 92 w /\ ~ In q w /\ requote_string w q = Some ([q] ++ b ++ [q])).
Proof.
  intros Hd E. unfold requote_string. destruct (contains 92 w) eqn:E1; [left; reflexivity|]. destruct (contains q w) eqn:E2; [left; reflexivity|].
  right. cbn [orb]. apply contains_false in E1, E2. split; auto. split; auto.
  rewrite E. replace 1 with (len_bytes [d]) by (cbn [len_bytes]; unfold len_utf8; replace (d <? 128) with true by lia; reflexivity).
  rewrite strip_delims. reflexivity.
Qed.

(** * Comments *)
Lemma starts_with_pre p s : starts_with p (p ++ s) = true.
Proof. apply starts_with_app. eauto. Qed.
Lemma strip_prefix_app p s : strip_prefix p (p ++ s) = Some s.
Proof. unfold strip_prefix. rewrite starts_with_pre, skipn_app, skipn_all, Nat.sub_diag. reflexivity. Qed.
Lemma strip_prefix_inv p s r : strip_prefix p s = Some r -> s = p ++ r.
Proof.
  unfold strip_prefix. destruct (starts_with p s) eqn:E; [|discriminate]. intros H; inversion H; subst.
  apply starts_with_app in E as (u & ->). rewrite skipn_app, skipn_all, Nat.sub_diag. reflexivity.
Qed.
Lemma strip_prefix_none p s : strip_prefix p s = None <-> ~ exists u, s = p ++ u.
Proof.
  unfold strip_prefix. rewrite <- starts_with_app. destruct (starts_with p s); split; intros H; try discriminate; auto.
  exfalso. apply H. reflexivity.
Qed.

Lemma trim_end_split p s : exists post, s = trim_end_by p s ++ post /\ forallb p post = true.
Proof.
  unfold trim_end_by. exists (rev (take_while p (rev s))). split.
  - rewrite <- rev_app_distr, take_drop_while, rev_involutive. reflexivity.
  - rewrite forallb_forall. intros x Hx. apply in_rev in Hx. pose proof (take_while_all p (rev s)) as K.
    rewrite forallb_forall in K. auto.
Qed.
Definition ends_clean (p : char -> bool) (s : str) : Prop := forall a x, s = a ++ [x] -> p x = false.
Lemma trim_end_clean p s : ends_clean p (trim_end_by p s).
Proof.
  intros a x E. unfold trim_end_by in E. pose proof (drop_while_head p (rev s)) as K.
  destruct (drop_while p (rev s)) as [|y l] eqn:ED; [destruct a; discriminate|].
  simpl in E. apply app_inj_tail in E as [_ ->]. exact K.
Qed.
Lemma clean_trim p s : ends_clean p s -> trim_end_by p s = s.
Proof.
  intros H. unfold trim_end_by. destruct (rev s) as [|x l] eqn:E.
  - apply (f_equal (@rev N)) in E. rewrite rev_involutive in E. subst. reflexivity.
  - assert (ES : s = rev l ++ [x]) by (rewrite <- (rev_involutive s), E; reflexivity).
    cbn [drop_while]. rewrite (H _ _ ES). rewrite <- E. apply rev_involutive.
Qed.
Lemma clean_app p a b : b <> [] -> ends_clean p b -> ends_clean p (a ++ b).
Proof.
  intros Hb H c x E. destruct (exists_last Hb) as (b' & y & ->). rewrite app_assoc in E. apply app_inj_tail in E as [_ ->].
  apply (H b'). reflexivity.
Qed.
Lemma clean_tail p a b : ends_clean p (a ++ b) -> ends_clean p b.
Proof. intros H c x ->. apply (H (a ++ c)). apply app_assoc. Qed.

Lemma drop_blank_nonempty p r : ends_clean p r -> (forall c, is_blank c = true -> p c = true) -> r <> [] -> drop_while is_blank r <> [].
Proof.
  intros H Hp Hr. destruct (exists_last Hr) as (a & x & ->).
  assert (Hx : is_blank x = false). { destruct (is_blank x) eqn:E; [|reflexivity]. apply Hp in E. rewrite (H a x eq_refl) in E. discriminate. }
  clear H Hr. induction a as [|y a IH]; cbn [app drop_while].
  - rewrite Hx. discriminate.
  - destruct (is_blank y); [exact IH|discriminate].
Qed.
Lemma blank_ascii c : is_blank c = true -> is_ascii_whitespace c = true.
Proof. unfold is_blank, is_ascii_whitespace. lia. Qed.
Lemma drop_while_suffix {A} (p : A -> bool) l : exists a, l = a ++ drop_while p l /\ forallb p a = true.
Proof. exists (take_while p l). split; [symmetry; apply take_drop_while|apply take_while_all]. Qed.

(** What a body becomes. *)
Definition body_of (sl : bool) (c : char) (r : str) : str :=
  if negb (is_blank c) then c :: r else if sl then drop_while is_blank r else r.
Lemma body_of_spec sl c r : ends_clean is_ascii_whitespace (c :: r) ->
  body_of sl c r <> [] /\ ends_clean is_ascii_whitespace (body_of sl c r) /\
  exists pre, c :: r = pre ++ body_of sl c r /\ forallb is_blank pre = true /\
    (if sl then match body_of sl c r with [] => True | x :: _ => is_blank x = false end else (length pre <= 1)%nat).
Proof.
  intros H. unfold body_of. destruct (is_blank c) eqn:E; cbn [negb].
  - assert (Hr : r <> []). { intros ->. pose proof (H [] c eq_refl) as K. apply blank_ascii in E. congruence. }
    pose proof (clean_tail _ [c] r H) as Hc.
    destruct sl.
    + split; [apply (drop_blank_nonempty is_ascii_whitespace); auto using blank_ascii|].
      destruct (drop_while_suffix is_blank r) as (a & Ea & Ha). split; [|].
      * apply (clean_tail _ a). rewrite <- Ea. exact Hc.
      * exists (c :: a). cbn [app forallb]. rewrite E, Ha, <- Ea. split; auto. split; auto. exact (drop_while_head is_blank r).
    + split; auto. split; auto. exists [c]. cbn [app forallb length]. rewrite E. auto.
  - split; [discriminate|]. split; auto. exists []. split; auto. split; auto. destruct sl; [exact E|simpl; lia].
Qed.
Lemma body_of_again sl c r : ends_clean is_ascii_whitespace (c :: r) -> body_of sl 32 (body_of sl c r) = body_of sl c r.
Proof.
  intros H. destruct (body_of_spec sl c r H) as (H1 & H2 & pre & H3 & H4 & H5).
  unfold body_of at 1. change (is_blank 32) with true. cbn [negb]. destruct sl; [|reflexivity].
  destruct (body_of true c r) as [|x l]; [reflexivity|]. cbn [drop_while]. rewrite H5. reflexivity.
Qed.

Lemma hashes_spec r : forall c, let '(w, o) := hashes c r in
  exists n, w = repeat 35 n /\
  match o with
  | None => c :: r = w
  | Some (x, r') => c :: r = w ++ x :: r' /\ x <> 35
  end.
Proof.
  induction r as [|y r IH]; intros c; cbn [hashes].
  - destruct (N.eqb_spec c 35) as [->|Hc]; [exists 1%nat; split; reflexivity|]. exists O. split; auto.
  - destruct (N.eqb_spec c 35) as [->|Hc]; [|exists O; split; auto].
    specialize (IH y). destruct (hashes y r) as [w o]. destruct IH as (n & -> & Ho). exists (S n). split; [reflexivity|].
    destruct o as [[x r']|]; [destruct Ho as [Ho Hx]; split; auto; cbn [app repeat]; rewrite Ho; reflexivity|].
    cbn [repeat]. rewrite Ho. reflexivity.
Qed.
Lemma hashes_run n x r : x <> 35 -> hashes 35 (repeat 35 n ++ x :: r) = (repeat 35 (S n), Some (x, r)).
Proof.
  intros Hx. induction n as [|n IH].
  - cbn [repeat app]. cbn [hashes]. assert (E : hashes x r = ([], Some (x, r))) by (destruct r; cbn [hashes]; replace (N.eqb x 35) with false by lia; reflexivity). rewrite E. reflexivity.
  - change (repeat 35 (S n) ++ x :: r) with (35 :: (repeat 35 n ++ x :: r)).
    change (hashes 35 (35 :: (repeat 35 n ++ x :: r))) with
      (let '(w, o) := hashes 35 (repeat 35 n ++ x :: r) in (35 :: w, o)).
    rewrite IH. reflexivity.
Qed.
Lemma hashes_all n : hashes 35 (repeat 35 n) = (repeat 35 (S n), None).
Proof.
  induction n as [|n IH]; [reflexivity|]. change (repeat 35 (S n)) with (35 :: repeat 35 n) at 1.
  change (hashes 35 (35 :: repeat 35 n)) with (let '(w, o) := hashes 35 (repeat 35 n) in (35 :: w, o)). rewrite IH. reflexivity.
Qed.

(** The markers kept by the formatter. *)
Definition marker (m : str) : Prop := m = [35] \/ m = [35; 33] \/ exists n, m = repeat 35 (S (S n)).

(** What the formatter makes of a plain comment that has no whitespace at its end. *)
Lemma plain_cases sl t : ends_clean is_ascii_whitespace t -> (exists b, t = 35 :: b) ->
  exists m, marker m /\
  ((t = m /\ format_plain_comment sl t = Some m) \/
   (exists c r, t = m ++ c :: r /\ ends_clean is_ascii_whitespace (c :: r) /\
      format_plain_comment sl t = Some (m ++ 32 :: body_of sl c r) /\
      (m = [35] -> c <> 35 /\ c <> 33) /\ (forall n, m = repeat 35 (S n) -> c <> 35))).
Proof.
  intros Hc (b & ->). unfold format_plain_comment, trim_ascii_end. rewrite (clean_trim _ _ Hc).
  destruct b as [|c r].
  - exists [35]. split; [left; auto|]. left. auto.
  - destruct (N.eqb_spec c 33) as [->|N1].
    + destruct r as [|n r]; [exists [35; 33]; split; [right; left; auto|left; auto]|].
      exists [35; 33]. split; [right; left; auto|]. right. exists n, r. split; [reflexivity|]. split; [apply (clean_tail _ [35; 33]); exact Hc|].
      split; [reflexivity|]. split; [discriminate|]. intros k E. destruct k; discriminate.
    + destruct (N.eqb_spec c 35) as [->|N2].
      * pose proof (hashes_spec r 35) as K. destruct (hashes 35 r) as [w o]. destruct K as (n & Ew & Ho).
        destruct o as [[x r']|].
        -- destruct Ho as [Ho Hx]. destruct n as [|n]; [subst w; cbn in Ho; inversion Ho; subst; contradiction|].
           exists (35 :: w). split; [right; right; exists n; subst w; reflexivity|]. right. exists x, r'. rewrite Ho. split; [reflexivity|].
           split; [apply (clean_tail _ (35 :: w)); change ((35 :: w) ++ x :: r') with (35 :: (w ++ x :: r')); rewrite <- Ho; exact Hc|].
           split; [reflexivity|]. split; [intros E; subst w; discriminate|]. auto.
        -- destruct n as [|n]; [subst w; discriminate|].
           exists (35 :: w). split; [right; right; exists n; subst w; reflexivity|]. left. rewrite Ho. auto.
      * exists [35]. split; [left; auto|]. right. exists c, r. split; [reflexivity|]. split; [apply (clean_tail _ [35]); exact Hc|].
        split; [reflexivity|]. split; auto.
Qed.

Lemma plain_trims sl c : format_plain_comment sl c = format_plain_comment sl (trim_ascii_end c).
Proof. unfold format_plain_comment, trim_ascii_end. rewrite (clean_trim _ (trim_end_by _ c)); [reflexivity|]. apply trim_end_clean. Qed.

Lemma marker_35 m : marker m -> exists b, m = 35 :: b.
Proof. intros [->|[->|(n & ->)]]; eexists; reflexivity. Qed.

Lemma trim_comment c b : c = 35 :: b -> exists b', trim_ascii_end c = 35 :: b'.
Proof.
  intros ->. unfold trim_ascii_end. destruct (trim_end_split is_ascii_whitespace (35 :: b)) as (post & E & Hp).
  destruct (trim_end_by is_ascii_whitespace (35 :: b)) as [|x l].
  - cbn [app] in E. subst post. discriminate.
  - inversion E; subst. eauto.
Qed.

(** Formatting again keeps the result. *)
Lemma plain_formatted sl m c r : marker m -> (m = [35] -> c <> 35 /\ c <> 33) -> (forall n, m = repeat 35 (S n) -> c <> 35) ->
  ends_clean is_ascii_whitespace (c :: r) ->
  format_plain_comment sl (m ++ 32 :: body_of sl c r) = Some (m ++ 32 :: body_of sl c r).
Proof.
  intros Hm K1 K2 Hc. destruct (body_of_spec sl c r Hc) as (H1 & H2 & _).
  assert (HC : ends_clean is_ascii_whitespace (m ++ 32 :: body_of sl c r)).
  { change (m ++ 32 :: body_of sl c r) with (m ++ [32] ++ body_of sl c r). rewrite app_assoc. apply clean_app; auto. }
  unfold format_plain_comment, trim_ascii_end. rewrite (clean_trim _ _ HC).
  destruct Hm as [->|[->|(n & ->)]].
  - cbn [app]. change (N.eqb 32 33) with false. change (N.eqb 32 35) with false. cbn [app]. unfold comment_body.
    fold (body_of sl 32 (body_of sl c r)). rewrite body_of_again by auto. reflexivity.
  - cbn [app]. change (N.eqb 33 33) with true. cbn [app]. unfold comment_body.
    fold (body_of sl 32 (body_of sl c r)). rewrite body_of_again by auto. reflexivity.
  - cbn [repeat app]. change (N.eqb 35 33) with false. change (N.eqb 35 35) with true. cbv iota.
    rewrite hashes_run by discriminate. cbn [app]. unfold comment_body. fold (body_of sl 32 (body_of sl c r)). rewrite body_of_again by auto. reflexivity.
Qed.
Lemma plain_marker sl m : marker m -> format_plain_comment sl m = Some m.
Proof.
  intros [->|[->|(n & ->)]]; try reflexivity.
  unfold format_plain_comment, trim_ascii_end. rewrite clean_trim.
  - cbn [repeat]. change (N.eqb 35 33) with false. change (N.eqb 35 35) with true. cbv iota.
    rewrite hashes_all. reflexivity.
  - intros a x E. assert (Hx : In x (repeat 35 (S (S n)))) by (rewrite E; apply in_or_app; right; left; auto).
    apply repeat_spec in Hx. subst. reflexivity.
Qed.

Lemma plain_idempotent sl c out : (exists b, c = 35 :: b) -> format_plain_comment sl c = Some out -> format_plain_comment sl out = Some out.
Proof.
  intros (b & Eb) H. rewrite plain_trims in H.
  destruct (plain_cases sl (trim_ascii_end c)) as (m & Hm & [[E1 E2]|(x & r & E1 & Hc & E2 & K1 & K2)]).
  - apply trim_end_clean.
  - eapply trim_comment; eauto.
  - rewrite H in E2. inversion E2; subst. apply plain_marker; auto.
  - rewrite H in E2. inversion E2; subst. apply plain_formatted; auto.
Qed.

(** ** Plain comments stay plain *)
Lemma trim_start_app a b : trim_start (a ++ b) = match trim_start a with [] => trim_start b | x => x ++ b end.
Proof.
  unfold trim_start. induction a as [|x a IH]; cbn [app drop_while]; [reflexivity|].
  destruct (is_unicode_whitespace x); [exact IH|reflexivity].
Qed.
Lemma trim_start_ws a b : forallb is_unicode_whitespace a = true -> trim_start (a ++ b) = trim_start b.
Proof.
  intros H. rewrite trim_start_app. replace (trim_start a) with (@nil N); [reflexivity|].
  unfold trim_start. induction a as [|x a IH]; [reflexivity|]. cbn [forallb drop_while] in *. apply andb_prop in H as [-> H]. auto.
Qed.
Lemma blank_ws a : forallb is_blank a = true -> forallb is_unicode_whitespace a = true.
Proof.
  rewrite !forallb_forall. intros H x Hx. specialize (H x Hx). unfold is_blank in H. unfold is_unicode_whitespace, in_range. lia.
Qed.
Lemma starts_app p s t : starts_with p s = true -> starts_with p (s ++ t) = true.
Proof. rewrite !starts_with_app. intros (u & ->). exists (u ++ t). symmetry. apply app_assoc. Qed.

Lemma plain_stays_plain sl c out : (exists b, c = 35 :: b) -> format_plain_comment sl c = Some out ->
  value_directive c = None ->
  strip_prefix (lit "#:schema ") out = None /\ strip_prefix (lit "#:tombi ") out = None /\ value_directive out = None.
Proof.
  intros (b & Eb) H HV. rewrite plain_trims in H.
  destruct (plain_cases sl (trim_ascii_end c)) as (m & Hm & [[E1 E2]|(x & r & E1 & Hc & E2 & K1 & K2)]).
  - apply trim_end_clean.
  - eapply trim_comment; eauto.
  - rewrite H in E2. inversion E2; subst out.
    destruct Hm as [->|[->|(n & ->)]]; repeat split; reflexivity.
  - rewrite H in E2. inversion E2; subst out.
    destruct Hm as [->|[->|(n & ->)]]; [|repeat split; reflexivity|repeat split; reflexivity].
    split; [reflexivity|]. split; [reflexivity|].
    destruct (value_directive ([35] ++ 32 :: body_of sl x r)) eqn:ED; [|reflexivity]. exfalso.
    unfold value_directive, strip_prefix in ED, HV. cbn [app tl] in ED.
    destruct (starts_with _ _) eqn:ES in ED; [|discriminate].
    assert (EW : starts_with (lit "tombi:") (trim_start (tl c)) = true).
    { destruct (body_of_spec sl x r Hc) as (_ & _ & pre & E3 & E4 & _).
      destruct (trim_end_split is_ascii_whitespace c) as (post & E5 & _). fold (trim_ascii_end c) in E5.
      assert (ET : tl c = (pre ++ body_of sl x r) ++ post). { rewrite E5, E1. cbn [app tl]. rewrite <- E3. reflexivity. }
      rewrite ET. rewrite trim_start_app. rewrite (trim_start_ws pre) by (apply blank_ws; auto).
      change (32 :: body_of sl x r) with ([32] ++ body_of sl x r) in ES. rewrite (trim_start_ws [32]) in ES by reflexivity.
      destruct (trim_start (body_of sl x r)) as [|y ys] eqn:EY; [discriminate|]. apply starts_app. exact ES. }
    rewrite EW in HV. discriminate.
Qed.

Lemma trim_idem s : trim (trim s) = trim s.
Proof.
  unfold trim. set (p := is_unicode_whitespace).
  assert (H : trim_start (trim_end_by p (trim_start s)) = trim_end_by p (trim_start s)).
  { destruct (trim_end_split p (trim_start s)) as (post & E & Hp).
    pose proof (drop_while_head p s) as HH. change (drop_while p s) with (trim_start s) in HH.
    destruct (trim_end_by p (trim_start s)) as [|x l]; [reflexivity|].
    rewrite E in HH. cbn [app] in HH. unfold trim_start. cbn [drop_while]. fold p. rewrite HH. reflexivity. }
  rewrite H. apply clean_trim. apply trim_end_clean.
Qed.
Lemma trim_incl s x : In x (trim s) -> In x s.
Proof.
  unfold trim. intros H. destruct (trim_end_split is_unicode_whitespace (trim_start s)) as (post & E & _).
  destruct (drop_while_suffix is_unicode_whitespace s) as (a & Ea & _). fold (trim_start s) in Ea.
  rewrite Ea. apply in_or_app. right. rewrite E. apply in_or_app. auto.
Qed.
