From Coq Require Import String Ascii List NArith Bool Lia.
From Verif Require Import Base SyntaxKind TextModel Regex LexerModel LexerSpec.
Import ListNotations.
Open Scope N_scope.
Open Scope list_scope.

(** * Positions *)
Definition pos_step (p : position) (c : char) : position := pos_add p (rel_of_char c).
Definition pos_run (p : position) (w : str) : position := fold_left pos_step w p.

Lemma pos_run_app p a b : pos_run p (a ++ b) = pos_run (pos_run p a) b.
Proof. apply fold_left_app. Qed.

Lemma pos_step_eq p c :
  pos_step p c = if N.eqb c 10 then Pos (line p + 1) 0 else Pos (line p) (column p + 1).
Proof. unfold pos_step, rel_of_char, pos_add. destruct (N.eqb c 10); simpl; f_equal; lia. Qed.

Lemma count_nl_snoc s c : count_nl (s ++ [c]) = count_nl s + (if N.eqb c 10 then 1 else 0).
Proof.
  unfold count_nl. rewrite count_occ_app. cbn [count_occ].
  destruct (N.eq_dec c 10) as [H|H].
  - apply N.eqb_eq in H. rewrite H. lia.
  - apply N.eqb_neq in H. rewrite H. lia.
Qed.

Lemma after_last_nl_snoc s c :
  after_last_nl (s ++ [c]) = if N.eqb c 10 then [] else after_last_nl s ++ [c].
Proof.
  unfold after_last_nl. rewrite rev_app_distr. simpl.
  destruct (N.eqb c 10); simpl; reflexivity.
Qed.

Lemma position_after_snoc s c : position_after (s ++ [c]) = pos_step (position_after s) c.
Proof.
  rewrite pos_step_eq. unfold position_after. rewrite count_nl_snoc, after_last_nl_snoc.
  destruct (N.eqb c 10); simpl line; simpl column.
  - f_equal.
  - rewrite app_length. simpl. f_equal; lia.
Qed.

Lemma position_after_app a b : position_after (a ++ b) = pos_run (position_after a) b.
Proof.
  revert a; induction b as [|c b IH]; intros a.
  - rewrite app_nil_r. reflexivity.
  - change (a ++ c :: b) with (a ++ [c] ++ b). rewrite app_assoc, IH, position_after_snoc. reflexivity.
Qed.

Lemma pos_leb_refl p : pos_leb p p = true.
Proof. unfold pos_leb, pos_cmp. rewrite !N.compare_refl. reflexivity. Qed.

Lemma pos_leb_spec p q : pos_leb p q = true <-> line p < line q \/ (line p = line q /\ column p <= column q).
Proof.
  unfold pos_leb, pos_cmp.
  destruct (N.compare_spec (line p) (line q)) as [E|E|E]; [|split; auto; left; auto|].
  - destruct (N.compare_spec (column p) (column q)); split; intros; try lia; try discriminate; auto.
  - split; intros; [discriminate|lia].
Qed.

Lemma pos_leb_trans p q r : pos_leb p q = true -> pos_leb q r = true -> pos_leb p r = true.
Proof. rewrite !pos_leb_spec. lia. Qed.

Lemma pos_step_le p c : pos_leb p (pos_step p c) = true.
Proof. rewrite pos_step_eq, pos_leb_spec. destruct (N.eqb c 10); simpl; lia. Qed.

Lemma pos_run_le p w : pos_leb p (pos_run p w) = true.
Proof.
  revert p; induction w as [|c w IH]; intros p; [apply pos_leb_refl|].
  simpl. eapply pos_leb_trans; [apply (pos_step_le p c)|apply IH].
Qed.

Lemma range_new_run p w : range_new p (pos_run p w) = MkRange p (pos_run p w).
Proof. unfold range_new. rewrite pos_run_le. reflexivity. Qed.

(** * Cursor advance *)
Record adv (c : cursor) (w : str) (c' : cursor) : Prop := Adv {
  adv_rest : rest c = w ++ rest c';
  adv_off : coff c' = coff c + len_bytes w;
  adv_pos : cpos c' = pos_run (cpos c) w;
  adv_toff : toff c' = toff c;
  adv_tpos : tpos c' = tpos c
}.

Lemma adv_refl c : adv c [] c.
Proof. constructor; simpl; auto; lia. Qed.

Lemma adv_trans a u b v c : adv a u b -> adv b v c -> adv a (u ++ v) c.
Proof.
  intros [H1 H2 H3 H4 H5] [K1 K2 K3 K4 K5]. constructor; try congruence.
  - rewrite H1, K1, app_assoc. reflexivity.
  - rewrite K2, H2, len_bytes_app. lia.
  - rewrite pos_run_app, <- H3. exact K3.
Qed.

Lemma adv_bump_cons c x r : rest c = x :: r -> adv c [x] (bump c) /\ rest (bump c) = r /\ current (bump c) = x.
Proof.
  intros H. unfold bump. rewrite H. split; [constructor|]; simpl; auto; lia.
Qed.

Lemma adv_bump_nil c : rest c = [] -> adv c [] (bump c) /\ rest (bump c) = [].
Proof. intros H. unfold bump. rewrite H. split; [constructor|]; simpl; auto; lia. Qed.

Lemma adv_bump c : exists w, adv c w (bump c).
Proof.
  destruct (rest c) as [|x r] eqn:E.
  - exists []. apply adv_bump_nil; auto.
  - exists [x]. eapply adv_bump_cons; eauto.
Qed.

Lemma adv_eat_n_firstn n c : adv c (firstn n (rest c)) (eat_n n c).
Proof.
  revert c; induction n as [|n IH]; intros c.
  - apply adv_refl.
  - simpl eat_n. destruct (rest c) as [|x r] eqn:E.
    + rewrite firstn_nil. apply adv_bump_nil; auto.
    + destruct (adv_bump_cons c x r E) as (H1 & H2 & _).
      rewrite firstn_cons. change (x :: firstn n r) with ([x] ++ firstn n r).
      eapply adv_trans; [exact H1|]. rewrite <- H2. apply IH.
Qed.

Lemma adv_eat_while_ p c : adv c (take_while p (rest c)) (eat_while_ p (rest c) c).
Proof.
  remember (rest c) as r eqn:E. revert c E; induction r as [|x r IH]; intros c E; simpl.
  - apply adv_refl.
  - unfold peek, is_eof. rewrite <- E. simpl. rewrite andb_true_r.
    destruct (p x) eqn:Ep; [|apply adv_refl].
    symmetry in E. destruct (adv_bump_cons c x r E) as (H1 & H2 & _).
    change (x :: take_while p r) with ([x] ++ take_while p r).
    eapply adv_trans; [exact H1|]. apply IH. auto.
Qed.

Lemma adv_eat_while p c : adv c (take_while p (rest c)) (eat_while p c).
Proof. apply adv_eat_while_. Qed.

Lemma eat_while_rest p c : rest (eat_while p c) = drop_while p (rest c).
Proof.
  pose proof (adv_rest _ _ _ (adv_eat_while p c)) as H.
  rewrite <- (take_drop_while p (rest c)) in H at 1. apply app_inv_head in H. auto.
Qed.

Lemma eat_n_rest n c : rest (eat_n n c) = skipn n (rest c).
Proof.
  pose proof (adv_rest _ _ _ (adv_eat_n_firstn n c)) as H.
  rewrite <- (firstn_skipn n (rest c)) in H at 1. apply app_inv_head in H. auto.
Qed.

Lemma adv_set_ending l c : adv c [] (set_ending l c).
Proof. constructor; simpl; auto; lia. Qed.

Lemma adv_eat_match e c : exists w, adv c w (eat_match e c).
Proof.
  unfold eat_match. destruct (1 <? e).
  - eexists. apply adv_eat_n_firstn.
  - exists []. apply adv_refl.
Qed.

(** * Token results *)
Record lexes (c : cursor) (w : str) (res : lex_result * cursor) : Prop := Lexes {
  lx_rest : rest c = w ++ rest (snd res);
  lx_off : coff (snd res) = coff c + len_bytes w;
  lx_pos : cpos (snd res) = pos_run (cpos c) w;
  lx_toff : toff (snd res) = coff (snd res);
  lx_tpos : tpos (snd res) = cpos (snd res);
  lx_span : result_span (fst res) = MkSpan (toff c) (coff (snd res));
  lx_range : result_range (fst res) = range_new (tpos c) (cpos (snd res));
  lx_kind : match fst res with inl t => tkind t <> EOF /\ tkind t <> INVALID_TOKEN | inr _ => True end
}.

Lemma lexes_ok k c : k <> EOF -> k <> INVALID_TOKEN -> lexes c [] (ok k c).
Proof. intros. constructor; simpl; auto; lia. Qed.

Lemma lexes_err e c : lexes c [] (err e c).
Proof. constructor; simpl; auto; lia. Qed.

Lemma adv_lexes a u b v res : adv a u b -> lexes b v res -> lexes a (u ++ v) res.
Proof.
  intros [H1 H2 H3 H4 H5] [K1 K2 K3 K4 K5 K6 K7 K8]. constructor; auto; try congruence.
  - rewrite H1, K1, app_assoc. reflexivity.
  - rewrite K2, H2, len_bytes_app. lia.
  - rewrite pos_run_app, <- H3. exact K3.
Qed.

Definition lexes_some c res := exists w, lexes c w res.

Lemma adv_lexes_some a u b res : adv a u b -> lexes_some b res -> lexes_some a res.
Proof. intros H [v K]. exists (u ++ v). eapply adv_lexes; eauto. Qed.

Lemma lexes_some_ok k c : k <> EOF -> k <> INVALID_TOKEN -> lexes_some c (ok k c).
Proof. intros; exists []; apply lexes_ok; auto. Qed.
Lemma lexes_some_err e c : lexes_some c (err e c).
Proof. exists []; apply lexes_err; auto. Qed.

Ltac lx :=
  match goal with
  | |- lexes_some _ (ok _ ?c) =>
      first [ apply lexes_some_ok; discriminate
            | eapply adv_lexes_some; [|apply lexes_some_ok; discriminate] ]
  end.

Lemma lexes_some_eat_while p c res : lexes_some (eat_while p c) res -> lexes_some c res.
Proof. apply adv_lexes_some with (u := take_while p (rest c)). apply adv_eat_while. Qed.
Lemma lexes_some_eat_n n c res : lexes_some (eat_n n c) res -> lexes_some c res.
Proof. apply adv_lexes_some with (u := firstn n (rest c)). apply adv_eat_n_firstn. Qed.
Lemma lexes_some_eat_match e c res : lexes_some (eat_match e c) res -> lexes_some c res.
Proof. destruct (adv_eat_match e c) as [w H]. apply adv_lexes_some with (u := w). exact H. Qed.
Lemma lexes_some_bump c res : lexes_some (bump c) res -> lexes_some c res.
Proof. destruct (adv_bump c) as [w H]. apply adv_lexes_some with (u := w). exact H. Qed.
Lemma lexes_some_set_ending l c res : lexes_some (set_ending l c) res -> lexes_some c res.
Proof. apply adv_lexes_some with (u := []). apply adv_set_ending. Qed.

Ltac ok1 := apply lexes_some_ok; discriminate.
Ltac er1 := apply lexes_some_err.

Lemma whitespace_some c : lexes_some c (whitespace c).
Proof. unfold whitespace. eapply lexes_some_eat_while. ok1. Qed.
Lemma line_comment_some c : lexes_some c (line_comment c).
Proof. unfold line_comment. eapply lexes_some_eat_while. ok1. Qed.
Lemma line_break_some c : lexes_some c (line_break c).
Proof.
  unfold line_break. destruct (N.eqb (current c) c_cr); [|ok1].
  destruct (N.eqb (peek 1 c) c_nl); [|er1].
  eapply lexes_some_eat_n, lexes_some_set_ending. ok1.
Qed.
Lemma date_time_fail_some a b c : lexes_some c (date_time_fail a b c).
Proof.
  unfold date_time_fail. eapply lexes_some_eat_while.
  destruct a; [er1|destruct b; er1].
Qed.
Lemma date_time_some c : lexes_some c (date_time c).
Proof.
  unfold date_time.
  destruct (find_end REGEX_OFFSET_DATE_TIME _) as [e|].
  { apply lexes_some_eat_match with (e := e). destruct (is_token_separator_with_dot _); [ok1|apply date_time_fail_some]. }
  destruct (find_end REGEX_LOCAL_DATE_TIME _) as [e|].
  { apply lexes_some_eat_match with (e := e). destruct (is_token_separator_with_dot _); [ok1|apply date_time_fail_some]. }
  destruct (find_end REGEX_LOCAL_DATE _) as [e|].
  { apply lexes_some_eat_match with (e := e). destruct (is_token_separator_with_dot _); [ok1|apply date_time_fail_some]. }
  apply date_time_fail_some.
Qed.
Lemma time_some c : lexes_some c (time c).
Proof.
  unfold time. destruct (find_end _ _) as [e|].
  - eapply lexes_some_eat_match. ok1.
  - eapply lexes_some_eat_while. er1.
Qed.
Lemma number_fail_some c : lexes_some c (number_fail c).
Proof. unfold number_fail. eapply lexes_some_eat_while. er1. Qed.
Lemma number_branch_some k e c : k <> EOF -> k <> INVALID_TOKEN -> lexes_some c (number_branch k e c).
Proof.
  intros. unfold number_branch. apply lexes_some_eat_match with (e := e).
  destruct (is_token_separator_with_dot _); [apply lexes_some_ok; auto|apply number_fail_some].
Qed.
Lemma number_some c : lexes_some c (number c).
Proof.
  unfold number.
  repeat (destruct (find_end _ _) as [e|]; [apply number_branch_some; discriminate|]).
  apply number_fail_some.
Qed.
Lemma basic_string_loop_some : forall r c, lexes_some c (basic_string_loop r c).
Proof.
  fix IH 1. intros [|x r] c; simpl.
  - apply lexes_some_bump. er1.
  - apply lexes_some_bump.
    destruct (N.eqb x c_dquote); [ok1|].
    destruct (_ && _).
    + destruct r as [|y r]; [er1|]. apply lexes_some_bump. apply IH.
    + destruct (is_line_break _); [er1|apply IH].
Qed.
Lemma multi_line_basic_string_loop_some r q c : lexes_some c (multi_line_basic_string_loop r q c).
Proof.
  revert q c; induction r as [|x r IH]; intros q c; simpl.
  - apply lexes_some_bump. er1.
  - apply lexes_some_bump. destruct (_ && _ && _ && _).
    + eapply lexes_some_eat_while. destruct (4 <? _); [er1|ok1].
    + destruct (N.eqb x c_backslash); apply IH.
Qed.
Lemma literal_string_loop_some r c : lexes_some c (literal_string_loop r c).
Proof.
  revert c; induction r as [|x r IH]; intros c; simpl.
  - apply lexes_some_bump. er1.
  - apply lexes_some_bump. destruct (N.eqb x c_squote); [ok1|].
    destruct (is_line_break _); [er1|apply IH].
Qed.
Lemma multi_line_literal_string_loop_some r c : lexes_some c (multi_line_literal_string_loop r c).
Proof.
  revert c; induction r as [|x r IH]; intros c; simpl.
  - apply lexes_some_bump. er1.
  - apply lexes_some_bump. destruct (_ && _ && _).
    + eapply lexes_some_eat_while. destruct (4 <? _); [er1|ok1].
    + apply IH.
Qed.
Lemma key_some c : lexes_some c (key c).
Proof.
  unfold key. apply lexes_some_eat_while with (p := is_key_char).
  destruct (is_token_separator_with_dot _); [ok1|]. eapply lexes_some_eat_while. er1.
Qed.

(** Every token consumes at least the character that selected it. *)
Lemma advance_token_lexes c r c' :
  advance_token c = Some (r, c') -> exists x w, lexes c (x :: w) (r, c').
Proof.
  unfold advance_token. destruct (rest c) as [|x rs] eqn:E; [discriminate|].
  destruct (adv_bump_cons c x rs E) as (H1 & H2 & H3).
  intros H; injection H as H.
  enough (HS : lexes_some (bump c) (r, c')).
  { destruct HS as [w HS]. exists x, w. change (x :: w) with ([x] ++ w). eapply adv_lexes; eauto. }
  rewrite <- H. clear H.
  Local Ltac bif := match goal with |- lexes_some _ (if ?b then _ else _) => destruct b end.
  bif; [apply whitespace_some|].
  bif; [apply line_break_some|].
  bif; [apply line_comment_some|].
  bif.
  { bif.
    - apply (lexes_some_eat_n 2). apply multi_line_basic_string_loop_some.
    - apply basic_string_loop_some. }
  bif.
  { bif; [apply date_time_some|].
    bif; [apply time_some|].
    bif; [apply number_some|apply key_some]. }
  bif.
  { bif.
    - apply (lexes_some_eat_n 2). apply multi_line_literal_string_loop_some.
    - apply literal_string_loop_some. }
  bif.
  { apply lexes_some_bump. cbv zeta. bif.
    - first [apply (lexes_some_eat_n 2); ok1 | apply (lexes_some_eat_n 3); ok1 | apply (lexes_some_eat_n 4); ok1].
    - bif; [apply number_some|]. eapply lexes_some_eat_while; er1. }
  bif.
  { bif.
    - first [apply (lexes_some_eat_n 2); ok1 | apply (lexes_some_eat_n 3); ok1 | apply (lexes_some_eat_n 4); ok1].
    - bif; [|apply key_some].
      apply lexes_some_bump. cbv zeta. bif; [apply number_some|apply key_some]. }
  do 7 (bif; [ok1|]).
  bif.
  { bif; [first [apply (lexes_some_eat_n 2); ok1 | apply (lexes_some_eat_n 3); ok1 | apply (lexes_some_eat_n 4); ok1]|].
    bif; [first [apply (lexes_some_eat_n 2); ok1 | apply (lexes_some_eat_n 3); ok1 | apply (lexes_some_eat_n 4); ok1]|].
    bif; [first [apply (lexes_some_eat_n 2); ok1 | apply (lexes_some_eat_n 3); ok1 | apply (lexes_some_eat_n 4); ok1]|]. apply key_some. }
  eapply lexes_some_eat_while; er1.
Qed.

Lemma advance_token_none c : advance_token c = None <-> rest c = [].
Proof. unfold advance_token. destruct (rest c); split; intros H; auto; discriminate. Qed.

(** * The token stream *)
Definition result_token (r : lex_result) : token :=
  match r with inl t => t | inr e => Tok INVALID_TOKEN (espan e) (erange e) end.
Fixpoint result_errors (rs : list lex_result) : list lex_error :=
  match rs with [] => [] | inl _ :: rs => result_errors rs | inr e :: rs => e :: result_errors rs end.

Lemma result_token_span r : tspan (result_token r) = result_span r.
Proof. destruct r; reflexivity. Qed.
Lemma result_token_range r : trange (result_token r) = result_range r.
Proof. destruct r; reflexivity. Qed.

Definition at_pos (b : str) (c : cursor) : Prop :=
  coff c = len_bytes b /\ cpos c = position_after b /\ toff c = coff c /\ tpos c = cpos c.

Lemma tokenize_total fuel c : (length (rest c) < fuel)%nat -> tokenize fuel c <> None.
Proof.
  revert c; induction fuel as [|fuel IH]; intros c H; [lia|]. simpl.
  destruct (advance_token c) as [[r c']|] eqn:E; [|discriminate].
  destruct (advance_token_lexes _ _ _ E) as (x & w & HL).
  destruct (tokenize fuel c') as [[rs c'']|] eqn:E2; [discriminate|].
  exfalso. apply (IH c'); auto.
  pose proof (lx_rest _ _ _ HL) as HR. simpl in HR. rewrite HR in H. simpl in H.
  rewrite app_length in H. lia.
Qed.

Lemma tokenize_covers fuel : forall b c rs c',
  tokenize fuel c = Some (rs, c') -> at_pos b c ->
  exists ws, rest c = concat ws /\ rest c' = [] /\
    Forall2 (fun w r => w <> [] /\ tkind (result_token r) <> EOF
                        /\ (tkind (result_token r) = INVALID_TOKEN <-> exists e, r = inr e)) ws rs /\
    covers b (rest c) (map result_token rs) /\
    fold_left (fun _ r => send (result_span r)) rs (coff c) = len_bytes (b ++ rest c) /\
    fold_left (fun _ r => rend (result_range r)) rs (cpos c) = position_after (b ++ rest c).
Proof.
  induction fuel as [|fuel IH]; intros b c rs c' H HA; [discriminate|]. simpl in H.
  destruct (advance_token c) as [[r c1]|] eqn:E.
  - destruct (tokenize fuel c1) as [[rs1 c2]|] eqn:E2; [|discriminate].
    inversion H; subst; clear H.
    destruct (advance_token_lexes _ _ _ E) as (x & w & [L1 L2 L3 L4 L5 L6 L7 L8]). simpl in L1, L2, L3, L4, L5, L6, L7, L8.
    destruct HA as (A1 & A2 & A3 & A4).
    assert (HA1 : at_pos (b ++ x :: w) c1).
    { repeat split; auto.
      - rewrite L2, A1, len_bytes_app. reflexivity.
      - rewrite L3, A2, position_after_app. reflexivity. }
    destruct (IH _ _ _ _ E2 HA1) as (ws & W1 & W2 & W3 & W4 & W5 & W6).
    exists ((x :: w) :: ws). repeat split.
    + rewrite L1, W1. reflexivity.
    + exact W2.
    + constructor; auto. split; [discriminate|]. destruct r as [t|e]; simpl; split; try tauto; try congruence.
      * destruct L8. split; [contradiction|intros [e He]; discriminate].
      * split; [eauto|auto].
    + rewrite L1. rewrite app_comm_cons. simpl map. constructor.
      * rewrite result_token_span, L6. destruct HA1 as (B1 & _). rewrite B1, A3, A1. reflexivity.
      * rewrite result_token_range, L7. destruct HA1 as (_ & B2 & _). rewrite B2, A4, A2, position_after_app.
        apply range_new_run.
      * intros _. discriminate.
      * exact W4.
    + simpl. rewrite L6. simpl send. rewrite W5, L1, <- app_assoc. reflexivity.
    + simpl. rewrite L7. destruct HA1 as (_ & B2 & _).
      assert (rend (range_new (tpos c) (cpos c1)) = cpos c1) as ->.
      { rewrite B2, A4, A2, position_after_app, range_new_run. reflexivity. }
      rewrite W6, L1, <- app_assoc. reflexivity.
  - inversion H; subst. apply advance_token_none in E. exists [].
    destruct HA as (A1 & A2 & A3 & A4). rewrite E, app_nil_r. simpl. repeat split; auto; constructor.
Qed.

Lemma push_fold rs l :
  tokens (fold_left push_result_token rs l) = tokens l ++ map result_token rs /\
  errors (fold_left push_result_token rs l) = errors l ++ result_errors rs.
Proof.
  revert l; induction rs as [|r rs IH]; intros l; simpl.
  - rewrite !app_nil_r. auto.
  - destruct (IH (push_result_token l r)) as [H1 H2]. rewrite H1, H2.
    destruct r as [t|e]; simpl; rewrite <- ?app_assoc; auto.
Qed.

Lemma drop_bytes_len_app a s : drop_bytes (len_bytes a) (a ++ s) = Some s.
Proof.
  induction a as [|c a IH]; cbn [len_bytes].
  - destruct s; reflexivity.
  - simpl app. cbn [drop_bytes]. pose proof (len_utf8_pos c).
    destruct (N.eqb_spec (len_utf8 c + len_bytes a) 0); [lia|].
    destruct (N.ltb_spec (len_utf8 c + len_bytes a) (len_utf8 c)); [lia|].
    replace (len_utf8 c + len_bytes a - len_utf8 c) with (len_bytes a) by lia. exact IH.
Qed.

Lemma drop_bytes_all a : drop_bytes (len_bytes a) a = Some [].
Proof. pose proof (drop_bytes_len_app a []) as H. rewrite app_nil_r in H. exact H. Qed.

Lemma take_bytes_len_app a s : take_bytes (len_bytes a) (a ++ s) = Some a.
Proof.
  induction a as [|c a IH]; cbn [len_bytes].
  - destruct s; reflexivity.
  - simpl app. cbn [take_bytes]. pose proof (len_utf8_pos c).
    destruct (N.eqb_spec (len_utf8 c + len_bytes a) 0); [lia|].
    destruct (N.ltb_spec (len_utf8 c + len_bytes a) (len_utf8 c)); [lia|].
    replace (len_utf8 c + len_bytes a - len_utf8 c) with (len_bytes a) by lia. rewrite IH. reflexivity.
Qed.

Lemma slice_app a w s : slice (a ++ w ++ s) (MkSpan (len_bytes a) (len_bytes (a ++ w))) = Some w.
Proof.
  unfold slice. simpl. rewrite drop_bytes_len_app, len_bytes_app.
  replace (len_bytes a + len_bytes w - len_bytes a) with (len_bytes w) by lia.
  apply take_bytes_len_app.
Qed.

Lemma covers_snoc b s ts eof :
  covers b s ts ->
  tspan eof = MkSpan (len_bytes (b ++ s)) (len_bytes (b ++ s)) ->
  trange eof = MkRange (position_after (b ++ s)) (position_after (b ++ s)) ->
  tkind eof = EOF ->
  covers b s (ts ++ [eof]).
Proof.
  intros H; revert eof; induction H; intros eof H1' H2' H3'; simpl.
  - rewrite app_nil_r in *. change (@nil char) with (@nil char ++ []).
    apply covers_cons; rewrite ?app_nil_r; auto; try (intros; contradiction); constructor.
  - rewrite app_assoc in H1', H2'. constructor; auto.
Qed.

Lemma pos_add_zero p : pos_add p (Rel 0 0) = p.
Proof. unfold pos_add. simpl. destruct p; simpl. f_equal; lia. Qed.

Definition lex_facts (source : str) (l : lexed) : Prop :=
  exists ts eof,
    tokens l = ts ++ [eof] /\ tkind eof = EOF /\ Forall (fun t => tkind t <> EOF) ts /\
    covers [] source (tokens l) /\
    Forall2 same_place (filter is_invalid (tokens l)) (errors l).

Lemma lex_correct seg source :
  seg [] = [] -> exists l, lex seg source = Some l /\ lex_facts source l.
Proof.
  intros Hseg. unfold lex.
  destruct (tokenize (S (length source)) (cursor_new source)) as [[rs c]|] eqn:E.
  2: { exfalso. eapply tokenize_total; [|exact E]. simpl. lia. }
  assert (HA : at_pos [] (cursor_new source)) by (repeat split; reflexivity).
  destruct (tokenize_covers _ _ _ _ _ E HA) as (ws & W1 & W2 & W3 & W4 & W5 & W6).
  simpl in W1, W4, W5, W6. rewrite W5, W6, drop_bytes_all, Hseg.
  eexists. split; [reflexivity|].
  destruct (push_fold rs (MkLexed [] [] Lf)) as [P1 P2]. simpl in P1, P2. rewrite P1, P2.
  unfold lex_facts. simpl tokens. simpl errors.
  eexists _, _. split; [reflexivity|]. split; [reflexivity|].
  split; [|split].
  - clear - W3. induction W3 as [|w r ws rs [H1 [H2 H3]] HF IH]; simpl; constructor; auto.
  - apply covers_snoc; auto. simpl. unfold rel_of_clusters. simpl. rewrite pos_add_zero.
    unfold range_new. rewrite pos_leb_refl. reflexivity.
  - rewrite filter_app. simpl. rewrite app_nil_r.
    clear - W3. induction W3 as [|w r ws rs [H1 [H2 H3]] HF IH]; simpl; [constructor|].
    destruct r as [t|e]; simpl in *.
    + unfold is_invalid at 1. destruct (kind_eqb (tkind t) INVALID_TOKEN) eqn:Ek; auto.
      apply kind_eqb_eq in Ek. apply H3 in Ek as [e He]. discriminate.
    + constructor; [split; reflexivity|exact IH].
Qed.

(** The end-of-file token is empty. *)
Lemma lex_eof_span seg source l : lex seg source = Some l ->
  exists ts eof, tokens l = ts ++ [eof] /\ tspan eof = MkSpan (len_bytes source) (len_bytes source).
Proof.
  unfold lex. destruct (tokenize (S (length source)) (cursor_new source)) as [[rs c]|] eqn:E; [|discriminate].
  assert (HA : at_pos [] (cursor_new source)) by (repeat split; reflexivity).
  destruct (tokenize_covers _ _ _ _ _ E HA) as (ws & W1 & W2 & W3 & W4 & W5 & W6).
  simpl in W1, W4, W5, W6. rewrite W5. destruct (drop_bytes (len_bytes source) source); [|discriminate].
  intros H. inversion H; subst. eexists _, _. split; reflexivity.
Qed.
