(** What an error-free run of the parser leaves behind: the trees of its events, over the tokens it passed. *)
From Coq Require Import String Ascii List NArith Bool Arith Lia.
From Verif Require Import Base SyntaxKind TextModel LexerModel LexerSpec LexerProofs ParserModel ParserInv ParserPrims ParserBuild.
Import ListNotations.
Open Scope N_scope.
Open Scope list_scope.

(** * Errors *)
Definition is_err (e : event) : bool := match e with EError _ => true | _ => false end.
Definition nerr (p : pst) : nat := length (filter is_err (p_events p)).

(** The kinds that may stand for a key *)
Definition remapped (k : kind) : bool :=
  match k with INTEGER_DEC | INTEGER_HEX | INTEGER_OCT | INTEGER_BIN | BOOLEAN | LOCAL_DATE | FLOAT => true | _ => false end.
Inductive leaf_ok (src : str) : kind -> list token -> Prop :=
| lf_same t : leaf_ok src (tkind t) [t]
| lf_key t : remapped (tkind t) = true -> (tkind t = FLOAT -> ~ In 46 (wtext src t)) -> leaf_ok src BARE_KEY [t]
| lf_open t u : tkind t = BRACKET_START -> tkind u = BRACKET_START -> leaf_ok src DOUBLE_BRACKET_START [t; u]
| lf_close t u : tkind t = BRACKET_END -> tkind u = BRACKET_END -> leaf_ok src DOUBLE_BRACKET_END [t; u].

(** The event trees [tr], over the tokens [ts], are the trees [cs] without trivia. *)
Inductive shaped (src : str) : list ptree -> list token -> list tree -> Prop :=
| sh_nil : shaped src [] [] []
| sh_triv t tr ts cs : triv t = true -> shaped src tr ts cs -> shaped src tr (t :: ts) cs
| sh_tok k n grp tr ts cs : Forall (fun t => triv t = false) grp -> length grp = n -> leaf_ok src k grp ->
    shaped src tr ts cs -> shaped src (PTk k n :: tr) (grp ++ ts) (TToken k (wtexts src grp) :: cs)
| sh_node k tr1 ts1 cs1 tr ts cs : k <> TOMBSTONE -> shaped src tr1 ts1 cs1 -> shaped src tr ts cs ->
    shaped src (PNd k tr1 :: tr) (ts1 ++ ts) (TNode k cs1 :: cs).

Lemma shaped_app src a x u b y v : shaped src a x u -> shaped src b y v -> shaped src (a ++ b) (x ++ y) (u ++ v).
Proof.
  induction 1 as [|t tr ts cs HT H IH|k n grp tr ts cs HF HL HK H IH|k tr1 ts1 cs1 tr ts cs HT H1 IH1 H IH]; intros HB; cbn [app]; auto.
  - apply sh_triv; auto.
  - rewrite <- app_assoc. apply sh_tok; auto.
  - rewrite <- app_assoc. apply sh_node; auto.
Qed.
Lemma shaped_trivia src ws : forallb triv ws = true -> shaped src [] ws [].
Proof.
  induction ws as [|t ws IH]; intros H; [constructor|]. cbn [forallb] in H. apply andb_true_iff in H as [H1 H2]. apply sh_triv; auto.
Qed.
Lemma shaped_errs src tr ts cs : shaped src tr ts cs -> flat_map errs tr = [].
Proof. induction 1; cbn [flat_map errs app]; auto. rewrite IHshaped1, IHshaped2. reflexivity. Qed.
Lemma leaf_ne src k grp : leaf_ok src k grp -> grp <> [].
Proof. destruct 1; discriminate. Qed.
Lemma shaped_cov src tr ts cs : shaped src tr ts cs -> cov ts (flat_map leaves tr).
Proof.
  induction 1 as [|t tr ts cs HT H IH|k n grp tr ts cs HF HL HK H IH|k tr1 ts1 cs1 tr ts cs HT H1 IH1 H IH]; cbn [flat_map leaves app].
  - apply cov_nil. reflexivity.
  - change (cov ([t] ++ ts) ([] ++ flat_map leaves tr)). apply cov_app; [|exact IH]. apply cov_nil. cbn. rewrite HT. reflexivity.
  - apply (cov_cons [] grp ts n _); auto. eapply leaf_ne; eauto.
  - apply cov_app; auto.
Qed.
Lemma shaped_kinds src tr ts cs : shaped src tr ts cs -> forallb kinds_ok tr = true.
Proof.
  induction 1 as [|t tr ts cs HT H IH|k n grp tr ts cs HF HL HK H IH|k tr1 ts1 cs1 tr ts cs HT H1 IH1 H IH]; cbn [forallb kinds_ok]; auto.
  apply kind_eqb_neq in HT. rewrite HT. cbn. rewrite IH1. exact IH.
Qed.

(** * The tokens passed and the tokens put out: the same, but for a float that was split into two keys *)
Definition at_span (k : kind) (a b : N) (t : token) : Prop := tkind t = k /\ tspan t = MkSpan a b.
Inductive reads (src : str) : list token -> list token -> Prop :=
| rd_nil : reads src [] []
| rd_same t c n : reads src c n -> reads src (t :: c) (t :: n)
| rd_split t u v x y z c n : tkind t = FLOAT -> text_slice src (sstart (tspan t)) (send (tspan t)) = Some (u ++ [46] ++ v) ->
    ~ In 46 u -> ~ In 46 v ->
    at_span BARE_KEY (sstart (tspan t)) (sstart (tspan t) + len_bytes u) x ->
    at_span DOT (sstart (tspan t) + len_bytes u) (sstart (tspan t) + len_bytes u + 1) y ->
    at_span BARE_KEY (sstart (tspan t) + len_bytes u + 1) (sstart (tspan t) + len_bytes u + 1 + len_bytes v) z ->
    reads src c n -> reads src (t :: c) (x :: y :: z :: n).
Lemma reads_app src a x b y : reads src a x -> reads src b y -> reads src (a ++ b) (x ++ y).
Proof. induction 1; intros HB; cbn [app]; auto; [apply rd_same; auto|eapply rd_split; eauto]. Qed.
Lemma reads_refl src a : reads src a a.
Proof. induction a; constructor; auto. Qed.

(** * Runs *)
Record yields (p : pst) (cs : list tree) (p' : pst) : Prop := MkY {
  y_src : p_src p' = p_src p;
  y_run : exists tr c new,
    p_events p' = p_events p ++ flats tr /\ p_rest p = c ++ p_rest p' /\ p_tokens p' = p_tokens p ++ new /\
    shaped (p_src p) tr new cs /\ reads (p_src p) c new /\ Forall (fun t => tkind t <> EOF) c }.

Lemma yields_refl p : yields p [] p.
Proof.
  split; [reflexivity|]. exists [], [], []. cbn. rewrite !app_nil_r. repeat split; constructor.
Qed.
Lemma yields_trans p1 a p2 b p3 : yields p1 a p2 -> yields p2 b p3 -> yields p1 (a ++ b) p3.
Proof.
  intros [S1 (t1 & c1 & n1 & E1 & R1 & T1 & H1 & D1 & F1)] [S2 (t2 & c2 & n2 & E2 & R2 & T2 & H2 & D2 & F2)].
  split; [congruence|]. exists (t1 ++ t2), (c1 ++ c2), (n1 ++ n2). rewrite S1 in *.
  split; [|split; [|split; [|split; [|split]]]].
  - rewrite E2, E1. unfold flats. rewrite flat_map_app, app_assoc. reflexivity.
  - rewrite R1, R2, app_assoc. reflexivity.
  - rewrite T2, T1, app_assoc. reflexivity.
  - apply shaped_app; auto.
  - apply reads_app; auto.
  - apply Forall_app; auto.
Qed.
Lemma yields_node p cs pc k p' : k <> TOMBSTONE -> yields (snd (start p)) cs pc ->
  complete (length (p_events p)) k pc = Done p' -> yields p [TNode k cs] p'.
Proof.
  intros HK [S1 (t1 & c1 & n1 & E1 & R1 & T1 & H1 & D1 & F1)] HC. cbn [start snd push_event p_src p_rest p_tokens p_events] in *.
  unfold complete in HC. rewrite E1, <- app_assoc in HC. cbn [app] in HC.
  rewrite nth_error_app2, Nat.sub_diag in HC by lia. cbn [nth_error] in HC. rewrite set_nth_app in HC.
  injection HC as <-. split; [exact S1|]. exists [PNd k t1], c1, n1. cbn [p_events p_rest p_tokens].
  split; [|split; [exact R1|split; [exact T1|split; [|split; [exact D1|exact F1]]]]].
  - unfold flats. cbn [flat_map flat]. rewrite <- app_assoc, app_nil_r. reflexivity.
  - rewrite <- (app_nil_r n1). apply sh_node; auto. constructor.
Qed.
Lemma complete_rest m k p p' : complete m k p = Done p' -> p_rest p' = p_rest p.
Proof. unfold complete. destruct (nth_error (p_events p) m) as [[]|]; try discriminate. intros H. injection H as <-. reflexivity. Qed.

(** * Counting errors *)
Lemma filter_set_nth {A} (f : A -> bool) i x y l : nth_error l i = Some y -> f x = f y ->
  length (filter f (set_nth i x l)) = length (filter f l).
Proof.
  revert i. induction l as [|a l IH]; intros [|i] H E; cbn in *; try discriminate.
  - injection H as ->. rewrite E. destruct (f y); reflexivity.
  - specialize (IH i H E). destruct (f a); cbn; congruence.
Qed.
Lemma nerr_complete m k p p' : complete m k p = Done p' -> nerr p' = nerr p.
Proof.
  unfold complete, nerr. destruct (nth_error (p_events p) m) as [[]|] eqn:E; try discriminate. intros H. injection H as <-. cbn [p_events].
  rewrite filter_app, app_length. cbn. rewrite Nat.add_0_r. eapply filter_set_nth; eauto.
Qed.
Lemma nerr_push e p : nerr (push_event e p) = (nerr p + if is_err e then 1 else 0)%nat.
Proof. unfold nerr, push_event. cbn [p_events]. rewrite filter_app, app_length. cbn. destruct (is_err e); reflexivity. Qed.
Lemma nerr_start p : nerr (snd (start p)) = nerr p.
Proof. unfold start. cbn [snd]. rewrite nerr_push. cbn. lia. Qed.
Lemma nerr_error k r p : nerr (p_error k r p) = S (nerr p).
Proof. unfold p_error. rewrite nerr_push. cbn. lia. Qed.
Lemma nerr_bump k n p : nerr (do_bump k n p) = nerr p.
Proof. unfold do_bump, nerr. destruct (nth_split n (p_rest p)). cbn [p_events]. rewrite filter_app, app_length. cbn. lia. Qed.
Lemma nerr_eat k p b p' : eat k p = (b, p') -> nerr p' = nerr p.
Proof. unfold eat. destruct (negb (at_ k p)); intros H; injection H as <- <-; auto. apply nerr_bump. Qed.
Lemma nerr_eat_ts s p b p' : eat_ts s p = (b, p') -> nerr p' = nerr p.
Proof. unfold eat_ts. destruct (negb _); intros H; injection H as <- <-; auto. apply nerr_bump. Qed.
Lemma nerr_p_bump k p p' : p_bump k p = Done p' -> nerr p' = nerr p.
Proof. unfold p_bump. destruct (eat k p) as [[] q] eqn:E; intros H; [|discriminate]. injection H as <-. eapply nerr_eat; eauto. Qed.
Lemma nerr_bump_any p : nerr (bump_any p) = nerr p.
Proof. unfold bump_any. destruct (kind_eqb _ _); auto. apply nerr_bump. Qed.
Lemma nerr_bump_remap k p : nerr (bump_remap k p) = nerr p.
Proof. unfold bump_remap. destruct (kind_eqb _ _); auto. apply nerr_bump. Qed.
Lemma nerr_bump_times n p : nerr (bump_any_times n p) = nerr p.
Proof. revert p. induction n as [|n IH]; intros p; cbn [bump_any_times]; auto. rewrite IH. apply nerr_bump_any. Qed.

Definition mono {A} (p : pst) (m : res A) (st : A -> pst) : Prop := forall a, m = Done a -> (nerr p <= nerr (st a))%nat.
Lemma mono_bind {A B} p (m : res A) (f : A -> res B) st st' : mono p m st -> (forall a, m = Done a -> mono (st a) (f a) st') -> mono p (bind m f) st'.
Proof. intros H1 H2 b. destruct m as [a| | |]; cbn [bind]; try discriminate. intros HB. specialize (H1 a eq_refl). specialize (H2 a eq_refl b HB). lia. Qed.
Lemma mono_any {A B} p (m : res A) (f : A -> res B) st : (forall a, mono p (f a) st) -> mono p (bind m f) st.
Proof. intros H b. destruct m as [a| | |]; cbn [bind]; try discriminate. apply H. Qed.
Lemma mono_done {A} p (a : A) st : (nerr p <= nerr (st a))%nat -> mono p (Done a) st.
Proof. intros H b E. injection E as <-. exact H. Qed.
Lemma mono_panic {A} p st : mono p (@Panic A) st.
Proof. intros a H. discriminate. Qed.
Lemma mono_diverge {A} p st : mono p (@Diverge A) st.
Proof. intros a H. discriminate. Qed.
Lemma mono_deep {A} p st : mono p (@Deep A) st.
Proof. intros a H. discriminate. Qed.
Lemma mono_weak {A} p q (m : res A) st : (nerr p <= nerr q)%nat -> mono q m st -> mono p m st.
Proof. intros H1 H2 a H. specialize (H2 a H). lia. Qed.
Lemma mono_loop body : (forall p, mono p (body p) snd) -> forall p, mono p (loop body p) idp.
Proof.
  intros HB p. unfold loop. generalize (S (length (p_rest p))). intros fuel. revert p. induction fuel as [|fuel IH]; intros p a; [discriminate|].
  cbn [loop_]. pose proof (HB p) as Hb. destruct (body p) as [[[] q]| | |]; try discriminate; intros H.
  - specialize (Hb _ eq_refl). specialize (IH q a H). unfold idp in *. cbn in Hb. lia.
  - injection H as <-. exact (Hb _ eq_refl).
Qed.
Lemma mono_complete m k p : mono p (complete m k p) idp.
Proof. intros a H. rewrite <- (nerr_complete _ _ _ _ H). reflexivity. Qed.

Ltac mdone := apply mono_done; cbn [snd fst again break]; unfold idp; lia.
Lemma mono_while_eat k p : mono p (while_eat k p) idp.
Proof. apply mono_loop. intros q. destruct (eat k q) as [b q'] eqn:E. apply mono_done. cbn. rewrite (nerr_eat _ _ _ _ E). reflexivity. Qed.
Lemma mono_trailing p : mono p (trailing_comment p) idp.
Proof. apply mono_while_eat. Qed.
Lemma mono_leading p : mono p (leading_comments p) idp.
Proof. apply mono_loop. intros q. destruct (eat_ts TS_LEADING_COMMENTS_KINDS q) as [b q'] eqn:E. apply mono_done. cbn. rewrite (nerr_eat_ts _ _ _ _ E). reflexivity. Qed.
Lemma mono_skip_until s p : mono p (skip_until s p) idp.
Proof.
  apply mono_loop. intros q. destruct (at_ts s q).
  - mdone.
  - apply mono_done. cbn. rewrite nerr_bump_any. reflexivity.
Qed.
Lemma mono_invalid_line k p : mono p (invalid_line k p) idp.
Proof. apply mono_any. intros r. eapply mono_weak; [|apply mono_skip_until]. rewrite nerr_bump_any, nerr_error. lia. Qed.
Lemma strict_invalid_line k p p' : invalid_line k p = Done p' -> (nerr p < nerr p')%nat.
Proof.
  unfold invalid_line. destruct (current_range p) as [r| | |]; try discriminate. cbn [bind]. intros H.
  apply mono_skip_until in H. rewrite nerr_bump_any, nerr_error in H. exact H.
Qed.
Lemma mono_started {A} p (f : nat -> pst -> res A) st : (forall m ps, mono ps (f m ps) st) -> mono p (let (m, q) := start p in f m q) st.
Proof. intros H. unfold start. eapply mono_weak; [|apply H]. rewrite nerr_push. cbn. lia. Qed.
Ltac mono_start := apply mono_started; let q := fresh "ps" in intros ? q.
Lemma mono_comma p : mono p (comma p) idp.
Proof.
  unfold comma. mono_start. eapply mono_bind; [apply mono_leading|]. unfold idp. intros q _. destruct (negb (at_ COMMA q)); [apply mono_panic|].
  destruct (eat COMMA q) as [b q2] eqn:E. eapply mono_weak; [rewrite <- (nerr_eat _ _ _ _ E); apply le_n|].
  eapply mono_bind; [apply mono_trailing|]. intros q3 _. apply mono_complete.
Qed.
Lemma mono_dangling p : mono p (dangling_comment_groups p) idp.
Proof.
  apply mono_loop. intros q. eapply mono_bind; [apply mono_while_eat|]. unfold idp. intros q1 _. apply mono_any. intros [len|]; [|mdone].
  mono_start. eapply mono_bind; [eapply mono_weak; [|apply mono_complete]; rewrite nerr_bump_times; apply le_n|]. intros q2 _. mdone.
Qed.
Lemma mono_synthetic k a b p : mono p (push_synthetic k a b p) idp.
Proof.
  unfold push_synthetic. mono_start. eapply mono_weak; [|apply mono_complete]. unfold nerr. cbn [p_events]. rewrite filter_app, app_length. lia.
Qed.
Lemma mono_float p : mono p (bump_float_key p) idp.
Proof.
  unfold bump_float_key. destruct (negb _); [apply mono_panic|]. destruct (text_slice _ _ _) as [text|]; [|apply mono_panic].
  destruct (negb _).
  - mono_start. eapply mono_weak; [|apply mono_complete]. rewrite nerr_bump_remap. apply le_n.
  - destruct (split_dot text) as [|u [|v [|]]]; try apply mono_panic. cbv zeta.
    eapply mono_bind; [apply mono_synthetic|]. unfold idp. intros q1 _. eapply mono_bind; [apply mono_synthetic|]. intros q2 _.
    eapply mono_bind; [apply mono_synthetic|]. unfold idp. intros q3 _. destruct (p_rest q3); [apply mono_panic|]. apply mono_done. cbn. unfold nerr. cbn. lia.
Qed.
Lemma mono_eat_key p : mono p (eat_key p) snd.
Proof.
  assert (H1 : forall k, mono p (let (m, p0) := start p in do p1 <- p_bump k p0; do p2 <- complete m k p1; Done (true, p2)) snd).
  { intros k. mono_start. eapply mono_bind with (st := idp); [intros a H; unfold idp; rewrite (nerr_p_bump _ _ _ H); apply le_n|]. unfold idp. intros q _.
    eapply mono_bind; [apply mono_complete|]. intros q2 _. mdone. }
  assert (H2 : mono p (let (m, p0) := start p in do p1 <- complete m BARE_KEY (bump_remap BARE_KEY p0); Done (true, p1)) snd).
  { mono_start. eapply mono_bind; [eapply mono_weak; [|apply mono_complete]; rewrite nerr_bump_remap; apply le_n|]. intros q2 _. mdone. }
  assert (H3 : mono p (let (m, p0) := start p in do r <- current_range p0; do p1 <- complete m INVALID_TOKEN (p_error ExpectedKey r p0); Done (false, p1)) snd).
  { mono_start. apply mono_any. intros r. eapply mono_bind; [eapply mono_weak; [|apply mono_complete]; rewrite nerr_error; lia|]. intros q2 _. mdone. }
  unfold eat_key. destruct (p_current p); try apply H3; try apply H2; try apply H1.
  eapply mono_bind; [apply mono_float|]. intros q _. mdone.
Qed.
Lemma mono_dotted fuel : forall he p, mono p (dotted_keys fuel he p) snd.
Proof.
  induction fuel as [|fuel IH]; intros he p; [apply mono_diverge|]. cbn [dotted_keys].
  eapply mono_bind; [apply mono_eat_key|]. intros [ok q] _. cbn [snd]. destruct (eat DOT q) as [dot q2] eqn:E. pose proof (nerr_eat _ _ _ _ E) as HN.
  eapply mono_weak; [rewrite <- HN; apply le_n|]. destruct (negb dot); [mdone|].
  destruct (negb (at_ts TS_KEY_FIRST q2)); [|apply IH]. apply mono_any. intros r. apply mono_done. cbn [snd]. rewrite nerr_error. lia.
Qed.
Lemma mono_eat_keys p : mono p (eat_keys p) snd.
Proof. unfold eat_keys. destruct (nth_at 1 DOT p); [apply mono_dotted|apply mono_eat_key]. Qed.
Lemma mono_keys p : mono p (keys p) idp.
Proof. unfold keys. mono_start. eapply mono_bind; [apply mono_eat_keys|]. intros [ok q] _. apply mono_complete. Qed.
Lemma mono_literal p : mono p (parse_literal_value p) idp.
Proof.
  unfold parse_literal_value. mono_start. eapply mono_bind; [apply mono_leading|]. unfold idp. intros q _.
  eapply mono_bind with (st := idp); [intros a H; unfold idp; rewrite (nerr_p_bump _ _ _ H); apply le_n|]. unfold idp. intros q1 _.
  eapply mono_bind; [apply mono_trailing|]. intros q2 _. apply mono_complete.
Qed.
Lemma mono_invalid_loop fuel : forall r p, mono p (invalid_value_loop fuel r p) snd.
Proof.
  induction fuel as [|fuel IH]; intros r p; [apply mono_diverge|]. cbn [invalid_value_loop]. destruct (at_ts _ p); [mdone|].
  apply mono_any. intros r'. eapply mono_weak; [|apply IH]. rewrite nerr_bump_any. lia.
Qed.
Lemma strict_invalid_value n p p' : parse_invalid_value n p = Done p' -> (nerr p < nerr p')%nat.
Proof.
  unfold parse_invalid_value. pose proof (nerr_start p) as HS. destruct (start p) as [m ps]. cbn [snd] in HS.
  assert (HM : mono ps (if Nat.ltb 1 n && nth_at n LINE_BREAK ps then leading_comments ps else Done ps) idp).
  { destruct (_ && _); [apply mono_leading|]. mdone. }
  destruct (if Nat.ltb 1 n && nth_at n LINE_BREAK ps then leading_comments ps else Done ps) as [q| | |]; try discriminate. specialize (HM q eq_refl). cbn [bind].
  destruct (current_range q) as [r| | |]; try discriminate. cbn [bind].
  pose proof (mono_invalid_loop (S (length (p_rest q))) r q) as HL. destruct (invalid_value_loop _ r q) as [[er q2]| | |]; try discriminate. specialize (HL _ eq_refl).
  cbn [bind snd] in *. set (pe := p_error _ _ q2). assert (HE : nerr pe = S (nerr q2)) by apply nerr_error.
  pose proof (mono_trailing pe) as HT. destruct (trailing_comment pe) as [q3| | |]; try discriminate. specialize (HT _ eq_refl). cbn [bind].
  intros H. apply nerr_complete in H. unfold idp in *. lia.
Qed.
Lemma mono_deep_loop fuel : forall r d p, mono p (skip_deep_loop fuel r d p) snd.
Proof.
  induction fuel as [|fuel IH]; intros r d p; [apply mono_diverge|]. cbn [skip_deep_loop].
  assert (H : forall d', mono p (do r0 <- current_range p; skip_deep_loop fuel r0 d' (bump_any p)) snd).
  { intros d'. apply mono_any. intros r'. eapply mono_weak; [|apply IH]. rewrite nerr_bump_any. lia. }
  destruct (p_current p); try apply H; try (mdone); apply mono_any; intros r'; destruct d as [|[|d]]; try apply mono_panic;
    try (apply mono_done; cbn [snd]; rewrite nerr_bump_any; lia); eapply mono_weak; [|apply IH| |apply IH]; rewrite nerr_bump_any; lia.
Qed.
Lemma strict_too_deep p p' : skip_too_deep_value p = Done p' -> (nerr p < nerr p')%nat.
Proof.
  unfold skip_too_deep_value. pose proof (nerr_start p) as HS. destruct (start p) as [m ps]. cbn [snd] in HS.
  pose proof (mono_leading ps) as HM. destruct (leading_comments ps) as [q| | |]; try discriminate. specialize (HM q eq_refl). cbn [bind].
  destruct (current_range q) as [r| | |]; try discriminate. cbn [bind].
  pose proof (mono_deep_loop (S (length (p_rest q))) r 0%nat q) as HL. destruct (skip_deep_loop _ r 0 q) as [[er q2]| | |]; try discriminate. specialize (HL _ eq_refl).
  cbn [bind snd] in *. set (pe := p_error _ _ q2). assert (HE : nerr pe = S (nerr q2)) by apply nerr_error.
  pose proof (mono_trailing pe) as HT. destruct (trailing_comment pe) as [q3| | |]; try discriminate. specialize (HT _ eq_refl). cbn [bind].
  intros H. apply nerr_complete in H. unfold idp in *. lia.
Qed.
Lemma strict_key_as_value n p p' : key_as_value n p = Done p' -> (nerr p < nerr p')%nat.
Proof.
  unfold key_as_value. set (pe := p_error _ _ p). assert (HE : nerr pe = S (nerr p)) by apply nerr_error. intros H.
  assert (HM : mono pe (let (m, p0) := start pe in do p1 <- leading_comments p0; do p2 <- keys_or_bomb p1; do p3 <- trailing_comment p2; complete m KEY_VALUE p3) idp).
  { mono_start. eapply mono_bind; [apply mono_leading|]. unfold idp. intros q _. eapply mono_bind with (st := idp).
    - unfold keys_or_bomb. mono_start. eapply mono_bind; [apply mono_eat_keys|]. intros [[] q2] _; [apply mono_complete|apply mono_panic].
    - unfold idp. intros q2 _. eapply mono_bind; [apply mono_trailing|]. intros q3 _. apply mono_complete. }
  specialize (HM _ H). unfold idp in HM. lia.
Qed.
Lemma nerr_enter p : nerr (enter_nested p) = nerr p.
Proof. reflexivity. Qed.
Lemma nerr_exit p p' : exit_nested p = Done p' -> nerr p' = nerr p.
Proof. unfold exit_nested. destruct (p_depth p); [discriminate|]. intros H. injection H as <-. reflexivity. Qed.

Section Monotone.
Context (v : pst -> res pst) (Hv : forall p, mono p (v p) idp).
Lemma mono_key_value p : mono p (key_value v p) idp.
Proof.
  unfold key_value. mono_start. eapply mono_bind; [apply mono_leading|]. unfold idp. intros q1 _. eapply mono_bind; [apply mono_keys|]. unfold idp. intros q2 _.
  destruct (eat EQUAL q2) as [eq q3] eqn:E. eapply mono_weak; [rewrite <- (nerr_eat _ _ _ _ E); apply le_n|].
  eapply mono_bind with (st := idp).
  { destruct (negb eq); [|mdone]. apply mono_any. intros r. apply mono_done. unfold idp. rewrite nerr_error. lia. }
  unfold idp. intros q4 _. eapply mono_bind with (st := idp).
  { assert (HI : mono q4 (invalid_token q4) idp) by (unfold invalid_token; mono_start; apply mono_complete).
    destruct (at_ts TS_LINE_END q4).
    { eapply mono_bind; [exact HI|]. unfold idp. intros q5 _. apply mono_any. intros r. apply mono_done. unfold idp. rewrite nerr_error. lia. }
    destruct (at_ COMMENT q4); [|apply Hv]. eapply mono_bind; [exact HI|]. unfold idp. intros q5 _. apply mono_done. unfold idp. rewrite nerr_error. lia. }
  unfold idp. intros q5 _. eapply mono_bind; [apply mono_trailing|]. intros q6 _. apply mono_complete.
Qed.
Lemma mono_commas (item : pst -> res pst) firsts ends p : (forall p, mono p (item p) idp) -> forall k,
  mono p (let (m, p) := start p in
  do p <- loop (fun p =>
    if is_group_separator p then break p else
    do p <- item p;
    do n <- peek_leading_comments p;
    let next p :=
      do n <- peek_leading_comments p;
      if negb (nth_at_ts n firsts p) then break p else again p in
    if nth_at n COMMA p then do p <- comma p; next p
    else if nth_at_ts n ends p then break p
    else next p) p;
  complete m k p) idp.
Proof.
  intros HI k. mono_start. eapply mono_bind; [apply mono_loop|]; [|intros q _; apply mono_complete].
  intros q. destruct (is_group_separator q); [mdone|]. eapply mono_bind; [apply HI|]. unfold idp. intros q1 _. apply mono_any. intros n. cbv zeta.
  assert (HN : forall q2, mono q2 (do n <- peek_leading_comments q2; if negb (nth_at_ts n firsts q2) then break q2 else again q2) snd).
  { intros q2. apply mono_any. intros n2. destruct (negb _); mdone. }
  destruct (nth_at n COMMA q1); [|destruct (nth_at_ts n ends q1); [mdone|apply HN]].
  eapply mono_bind; [apply mono_comma|]. intros q2 _. apply HN.
Qed.
Lemma mono_vwcg p : mono p (value_with_comma_group v p) idp.
Proof. apply (mono_commas v TS_VALUE_FIRST TS_ARRAY_END p Hv VALUE_WITH_COMMA_GROUP). Qed.
Lemma mono_kvwcg p : mono p (key_value_with_comma_group v p) idp.
Proof. apply (mono_commas (key_value v) TS_KEY_FIRST TS_INLINE_TABLE_END p mono_key_value KEY_VALUE_WITH_COMMA_GROUP). Qed.
Lemma mono_bracketed open close ends group e node p : (forall p, mono p (group p) idp) -> mono p (bracketed open close ends group e node p) idp.
Proof.
  intros HG. unfold bracketed. mono_start. eapply mono_bind; [apply mono_leading|]. unfold idp. intros q1 _. destruct (negb (at_ open q1)); [apply mono_panic|].
  destruct (eat open q1) as [b q2] eqn:E. eapply mono_weak; [rewrite <- (nerr_eat _ _ _ _ E); apply le_n|].
  eapply mono_bind; [apply mono_trailing|]. unfold idp. intros q3 _. eapply mono_bind; [apply mono_loop|].
  { intros q. eapply mono_bind; [apply mono_while_eat|]. unfold idp. intros q4 _. eapply mono_bind; [apply mono_dangling|]. unfold idp. intros q5 _. apply mono_any. intros n.
    destruct (nth_at_ts n ends q5); [mdone|]. eapply mono_bind; [apply HG|]. intros q6 _. mdone. }
  unfold idp. intros q4 _. destruct (eat close q4) as [closed q5] eqn:E2. eapply mono_weak; [rewrite <- (nerr_eat _ _ _ _ E2); apply le_n|].
  eapply mono_bind with (st := idp).
  { destruct (negb closed); [|mdone]. apply mono_any. intros r. apply mono_done. unfold idp. rewrite nerr_error. lia. }
  unfold idp. intros q6 _. eapply mono_bind; [apply mono_trailing|]. intros q7 _. apply mono_complete.
Qed.
Lemma mono_kvg p : mono p (key_value_group v p) idp.
Proof.
  unfold key_value_group. mono_start. eapply mono_bind; [apply mono_loop|]; [|intros q _; apply mono_complete].
  intros q. destruct (is_group_separator q); [mdone|]. eapply mono_bind; [apply mono_key_value|]. unfold idp. intros q1 _. apply mono_any. intros n.
  eapply mono_bind with (st := idp). { destruct (nth_at n COMMA q1); [apply mono_comma|mdone]. }
  unfold idp. intros q2 _. destruct (negb (at_ LINE_BREAK q2)); [mdone|]. apply mono_any. intros n2. destruct (negb _); mdone.
Qed.
Lemma mono_lines p : mono p (section_lines v p) idp.
Proof.
  apply mono_loop. intros q. eapply mono_bind; [apply mono_while_eat|]. unfold idp. intros q4 _. eapply mono_bind; [apply mono_dangling|]. unfold idp. intros q5 _. apply mono_any. intros n.
  destruct (nth_at_ts n TS_NEXT_SECTION q5); [mdone|]. eapply mono_bind; [apply mono_kvg|]. unfold idp. intros q6 _.
  eapply mono_bind with (st := idp). { destruct (negb _); [apply mono_invalid_line|mdone]. }
  intros q7 _. mdone.
Qed.
Lemma mono_section open close e node p : mono p (section open close e node v p) idp.
Proof.
  unfold section. mono_start. eapply mono_bind; [apply mono_leading|]. unfold idp. intros q1 _. destruct (negb (at_ open q1)); [apply mono_panic|].
  destruct (eat open q1) as [b q2] eqn:E. eapply mono_weak; [rewrite <- (nerr_eat _ _ _ _ E); apply le_n|].
  eapply mono_bind; [apply mono_keys|]. unfold idp. intros q3 _. destruct (eat close q3) as [closed q5] eqn:E2. eapply mono_weak; [rewrite <- (nerr_eat _ _ _ _ E2); apply le_n|].
  eapply mono_bind with (st := idp). { destruct (negb closed); [apply mono_invalid_line|mdone]. }
  unfold idp. intros q6 _. eapply mono_bind; [apply mono_trailing|]. unfold idp. intros q7 _.
  eapply mono_bind with (st := idp). { destruct (negb _); [apply mono_invalid_line|mdone]. }
  unfold idp. intros q8 _. eapply mono_bind; [apply mono_lines|]. intros q9 _. apply mono_complete.
Qed.
Lemma mono_root p : mono p (root v p) idp.
Proof.
  unfold root. mono_start. eapply mono_bind; [apply mono_lines|]. unfold idp. intros q1 _. eapply mono_bind; [apply mono_loop|]; [|intros q _; apply mono_complete].
  intros q. eapply mono_bind; [apply mono_while_eat|]. unfold idp. intros q4 _. apply mono_any. intros n.
  destruct (nth_at n EOF q4); [mdone|].
  destruct (nth_at n DOUBLE_BRACKET_START q4). { eapply mono_bind; [apply mono_section|]. intros q5 _. mdone. }
  destruct (nth_at n BRACKET_START q4). { eapply mono_bind; [apply mono_section|]. intros q5 _. mdone. }
  eapply mono_bind with (st := idp); [|intros q5 _; mdone].
  unfold unknown_line. mono_start. eapply mono_bind; [apply mono_leading|]. unfold idp. intros q5 _. eapply mono_bind; [apply mono_skip_until|]. unfold idp. intros q6 _.
  apply mono_any. intros r. cbv zeta. eapply mono_bind; [eapply mono_weak; [|apply mono_trailing]; rewrite nerr_error; lia|]. intros q7 _. apply mono_complete.
Qed.
End Monotone.
Lemma strict_unknown p p' : unknown_line p = Done p' -> (nerr p < nerr p')%nat.
Proof.
  unfold unknown_line. pose proof (nerr_start p) as HS. destruct (start p) as [m ps]. cbn [snd] in HS.
  pose proof (mono_leading ps) as HM. destruct (leading_comments ps) as [q| | |]; try discriminate. specialize (HM q eq_refl). cbn [bind].
  pose proof (mono_skip_until TS_LINE_END q) as HM2. destruct (skip_until TS_LINE_END q) as [q2| | |]; try discriminate. specialize (HM2 _ eq_refl). cbn [bind].
  destruct (current_range q2) as [r| | |]; try discriminate. cbn [bind].
  set (pe := p_error _ _ q2). assert (HE : nerr pe = S (nerr q2)) by apply nerr_error.
  pose proof (mono_trailing pe) as HT. destruct (trailing_comment pe) as [q3| | |]; try discriminate. specialize (HT _ eq_refl). cbn [bind].
  intros H. apply nerr_complete in H. unfold idp in *. lia.
Qed.
Lemma mono_value stack : forall p, mono p (value stack p) idp.
Proof.
  induction stack as [|stack IH]; intros p; [apply mono_deep|]. cbn [value]. apply mono_any. intros n.
  assert (HN : forall inner, (forall q, mono q (inner q) idp) -> mono p (parse_nested inner p) idp).
  { intros inner HI. unfold parse_nested. destruct (Nat.leb _ _).
    - intros a H. apply strict_too_deep in H. unfold idp. lia.
    - eapply mono_bind; [eapply mono_weak; [|apply HI]; rewrite nerr_enter; lia|]. unfold idp. intros q _ a H. rewrite <- (nerr_exit _ _ H). reflexivity. }
  destruct (nth_kind n p); try apply mono_literal; try (intros a H; apply strict_invalid_value in H; unfold idp; lia).
  all: try (apply HN; intros q; apply mono_bracketed; first [apply mono_vwcg | apply mono_kvwcg]; exact IH).
  intros a H. apply strict_key_as_value in H. unfold idp. lia.
Qed.
