(** An error-free parse: the tree it returns, with its white space, against the shapes of ParserShape. *)
From Coq Require Import String Ascii List NArith Bool Arith Lia.
From Verif Require Import Base SyntaxKind TextModel LexerModel LexerSpec LexerProofs LexSound LexNumbers ParserModel ParserInv ParserPrims ParserGrammar
  ParserBuild ParserProps AstModel FormatterModel FormatterLayout ParserYield ParserShape.
Import ListNotations.
Open Scope N_scope.
Open Scope list_scope.
Local Notation ltoken := LexerModel.token.

(** * Neighbouring tokens *)
Lemma drop_while_head {A} (f : A -> bool) l x r : drop_while f l = x :: r -> f x = false.
Proof.
  induction l as [|a l IH]; cbn [drop_while]; [discriminate|]. destruct (f a) eqn:E; [exact IH|]. intros H. inversion H; subst. exact E.
Qed.
Lemma text_head c t c' : advance_token c = Some (inl t, c') -> exists x r, rest c = x :: r /\ match tkind t with
  | WHITESPACE => is_whitespace x = true | COMMENT => x = 35 | _ => True end.
Proof.
  intros H. destruct (advance_sound _ _ H t eq_refl) as (w & E & HT). cbn [snd] in E.
  destruct (rest c) as [|x r] eqn:ER; [exfalso; apply (proj2 (advance_token_none c)) in ER; congruence|].
  exists x, r. split; [reflexivity|]. destruct (tkind t); auto; cbn [text_ok] in HT.
  - destruct HT as [HN HF]. destruct w as [|y w]; [contradiction|]. injection E as -> _. cbn [forallb] in HF. apply andb_true_iff in HF. tauto.
  - destruct HT as (u & -> & _). injection E as -> _. reflexivity.
Qed.
Lemma after_white c t c' x r : advance_token c = Some (inl t, c') -> tkind t = WHITESPACE -> rest c' = x :: r -> is_whitespace x = false.
Proof.
  intros H HK HR. destruct (text_head _ _ _ H) as (y & s & E & HX). rewrite HK in HX. unfold advance_token in H. rewrite E in H.
  destruct (adv_bump_cons c y s E) as (_ & HB1 & HB2). rewrite HB2, HX in H. unfold whitespace, ok in H. injection H as _ H.
  rewrite <- H in HR. cbn [rest] in HR. change (rest (eat_while is_whitespace (bump c)) = x :: r) in HR. rewrite eat_while_rest in HR. eapply drop_while_head; eauto.
Qed.
Lemma after_comment c t c' x r : advance_token c = Some (inl t, c') -> tkind t = COMMENT -> rest c' = x :: r -> is_line_break x = true.
Proof.
  intros H HK HR. destruct (text_head _ _ _ H) as (y & s & E & HX). rewrite HK in HX. subst y. unfold advance_token in H. rewrite E in H.
  destruct (adv_bump_cons c 35 s E) as (_ & HB1 & HB2). rewrite HB2 in H. change (is_whitespace 35) with false in H. change (is_line_break 35) with false in H.
  change (N.eqb 35 c_hash) with true in H. cbn iota in H. unfold line_comment, ok in H. injection H as _ H. rewrite <- H in HR. cbn [rest] in HR.
  change (rest (eat_while (fun x => negb (N.eqb x c_nl || N.eqb x c_cr)) (bump c)) = x :: r) in HR. rewrite eat_while_rest in HR.
  apply drop_while_head in HR. unfold is_line_break. apply negb_false_iff in HR. rewrite orb_comm. exact HR.
Qed.
Lemma line_break_next c x r t c' : rest c = x :: r -> is_line_break x = true -> advance_token c = Some (inl t, c') -> tkind t = LINE_BREAK.
Proof.
  intros E HX H. unfold advance_token in H. rewrite E in H. destruct (adv_bump_cons c x r E) as (_ & HB1 & HB2). rewrite HB2 in H.
  assert (is_whitespace x = false) as HW.
  { unfold is_line_break in HX. unfold is_whitespace. apply orb_true_iff in HX as [HX|HX]; apply N.eqb_eq in HX; subst x; reflexivity. }
  rewrite HW, HX in H. unfold line_break in H. destruct (N.eqb (current (bump c)) c_cr).
  - destruct (N.eqb (peek 1 (bump c)) c_nl); unfold ok, err in H; inversion H; reflexivity.
  - unfold ok in H. inversion H. reflexivity.
Qed.
Lemma tokenize_pairs fuel : forall c rs c', tokenize fuel c = Some (rs, c') -> forall a r1 r2 b, rs = a ++ r1 :: r2 :: b ->
  exists c1 c2 c3, advance_token c1 = Some (r1, c2) /\ advance_token c2 = Some (r2, c3).
Proof.
  induction fuel as [|fuel IH]; intros c rs c' H a r1 r2 b E; [discriminate|]. cbn [tokenize] in H.
  destruct (advance_token c) as [[r0 c1]|] eqn:EA; [|inversion H; subst; destruct a; discriminate].
  destruct (tokenize fuel c1) as [[rs1 c2]|] eqn:ET; [|discriminate]. injection H as <- <-.
  destruct a as [|x a]; cbn [app] in E.
  - injection E as -> ->. destruct fuel as [|fuel]; [discriminate|]. cbn [tokenize] in ET. destruct (advance_token c1) as [[r3 c3]|] eqn:EB; [|inversion ET].
    destruct (tokenize fuel c3) as [[rs3 c4]|]; [|discriminate]. injection ET as -> _ _. eauto 6.
  - injection E as _ E. eapply IH; eauto.
Qed.
Lemma tokenize_last fuel : forall c rs c', tokenize fuel c = Some (rs, c') -> forall r, In r rs -> forall e, errors (fold_left push_result_token rs (MkLexed [] [] Lf)) = [] -> r <> inr e.
Proof.
  intros c rs c' _ r HI e HE. rewrite (proj2 (push_fold rs (MkLexed [] [] Lf))) in HE. cbn [errors app] in HE. intros ->.
  induction rs as [|r0 rs IH]; [contradiction|]. cbn [result_errors] in HE. destruct r0; [|discriminate]. destruct HI as [HI|HI]; [discriminate|auto].
Qed.

(** What the parser's proof asks of the tokens of an error-free text; no two white spaces are neighbours. *)
Definition spaced (ts : list ltoken) : Prop := forall a t u b, ts = a ++ t :: u :: b -> triv t = true -> triv u = true -> False.
Lemma lex_tame seg source l : seg [] = [] -> lex seg source = Some l -> errors l = [] -> tame (tokens l) /\ spaced (tokens l) /\ ends_eof (tokens l).
Proof.
  intros Hs HL HE. destruct (lex_correct seg source Hs) as (l' & HL' & ts & eof & H1 & H2 & H3 & H4 & H5).
  assert (l' = l) by congruence. subst l'.
  assert (HN : Forall (fun t => tkind t <> EOF /\ plain_kind (tkind t) = true) ts).
  { apply Forall_forall. intros t Ht. rewrite Forall_forall in H3. specialize (H3 t Ht). split; [exact H3|].
    destruct (kind_eqb (tkind t) INVALID_TOKEN) eqn:EI; [apply kind_eqb_eq in EI; rewrite EI; reflexivity|].
    apply kind_eqb_neq in EI. destruct (lex_token_text seg source l t HL) as (w & _ & HT); auto.
    + rewrite H1. apply in_or_app. auto.
    + destruct (tkind t); try reflexivity; contradiction HT. }
  assert (HP : forall a t u b, tokens l = a ++ t :: u :: b ->
            (triv t = true -> triv u = true -> False) /\ (tkind t = COMMENT -> tkind u = LINE_BREAK \/ tkind u = EOF)).
  { unfold lex in HL. destruct (tokenize _ _) as [[rs c]|] eqn:ET; [|discriminate].
    destruct (drop_bytes _ source) as [tl|]; [|discriminate]. injection HL as <-. cbn [tokens errors] in *.
    rewrite (proj1 (push_fold rs (MkLexed [] [] Lf))) in *. cbn [tokens app] in *. intros a t u b E.
    destruct (destruct_list b) as [(b0 & y & Eb)|Eb].
    2: { subst b. change (a ++ [t; u]) with (a ++ [t] ++ [u]) in E. rewrite app_assoc in E. apply app_inj_tail in E as [_ <-]. split; [discriminate|]. auto. }
    assert (b <> []) as Hb by (subst b; discriminate). destruct (exists_last Hb) as (b1 & z & ->). 
    change (a ++ t :: u :: b1 ++ [z]) with (a ++ (t :: u :: b1) ++ [z]) in E. rewrite app_assoc in E. apply app_inj_tail in E as [E _].
    apply map_eq_app in E as (a1 & r1 & -> & E1 & E2). destruct r1 as [|ra [|rb r1]]; try discriminate. injection E2 as Ea Eb2 Ec.
    assert (exists t1, ra = inl t1) as (t1 & ->). { destruct ra as [t1|e]; [eauto|]. exfalso. eapply (tokenize_last _ _ _ _ ET (inr e)); [|exact HE|reflexivity]. apply in_or_app. right. left. reflexivity. }
    assert (exists t2, rb = inl t2) as (t2 & ->). { destruct rb as [t2|e]; [eauto|]. exfalso. eapply (tokenize_last _ _ _ _ ET (inr e)); [|exact HE|reflexivity]. apply in_or_app. right. right. left. reflexivity. }
    cbn [result_token] in Ea, Eb2. subst t u.
    destruct (tokenize_pairs _ _ _ _ ET a1 _ _ r1 eq_refl) as (c1 & c2 & c3 & A1 & A2). 
    destruct (text_head _ _ _ A2) as (x & s & ER & HX). split.
    - intros T1 T2. apply kind_eqb_eq in T1, T2. rewrite T2 in HX. pose proof (after_white _ _ _ _ _ A1 T1 ER). congruence.
    - intros T1. left. eapply line_break_next; [exact ER| |exact A2]. exact (after_comment _ _ _ _ _ A1 T1 ER). }
  split; [|split].
  - split.
    + intros a t b E. rewrite H1 in E. assert (In t (ts ++ [eof])) as HI by (rewrite E; apply in_or_app; right; left; reflexivity).
      apply in_app_or in HI as [HI|[<-|[]]]; [|rewrite H2; reflexivity]. rewrite Forall_forall in HN. apply HN; auto.
    + intros a t b E HK. rewrite H1 in E. destruct (destruct_list b) as [(b0 & y & Eb)|Eb]; [|exact Eb]. exfalso.
      assert (b <> []) as Hb by (subst b; discriminate). destruct (exists_last Hb) as (b1 & z & ->). change (a ++ t :: b1 ++ [z]) with (a ++ (t :: b1) ++ [z]) in E. rewrite app_assoc in E. apply app_inj_tail in E as [E _].
      rewrite Forall_forall in HN. apply (proj1 (HN t ltac:(rewrite E; apply in_or_app; right; left; reflexivity))). exact HK.
    + intros a t u b E. apply (HP a t u b E).
  - intros a t u b E. apply (HP a t u b E).
  - exists ts, eof. auto.
Qed.

(** * The tokens passed and the tokens put out cover the same text *)
Lemma reads_tiles src c new : reads src c new -> forall b s e, src = b ++ s ++ e -> tiles b s c -> tiles b s new.
Proof.
  induction 1 as [|t c n H IH|t u v x y z c n HK HS HU HV [K1 S1] [K2 S2] [K3 S3] H IH]; intros b s e HE HT; auto.
  - inversion HT as [|b0 w s0 t0 ts0 H1 H2]; subst. constructor; auto. apply (IH (b ++ w) s0 e); auto. rewrite <- !app_assoc. reflexivity.
  - inversion HT as [|b0 w s0 t0 ts0 H1 H2]; subst. rewrite H1 in HS, S1, S2, S3. cbn [sstart send] in HS, S1, S2, S3.
    rewrite <- app_assoc, text_slice_app in HS. assert (w = u ++ [46] ++ v) as -> by congruence. clear HS.
    replace ((u ++ [46] ++ v) ++ s0) with (u ++ [46] ++ v ++ s0) by (rewrite <- !app_assoc; reflexivity).
    constructor; [rewrite S1, len_bytes_app; reflexivity|].
    constructor; [rewrite S2, !len_bytes_app; cbn; f_equal; lia|]. constructor; [rewrite S3, !len_bytes_app; cbn; f_equal; lia|].
    replace (((b ++ u) ++ [46]) ++ v) with (b ++ u ++ [46] ++ v) by (rewrite <- !app_assoc; reflexivity).
    apply (IH _ s0 e); auto. rewrite <- !app_assoc. reflexivity.
Qed.

(** * Spacing *)
Fixpoint apart (ts : list ltoken) : Prop :=
  match ts with
  | t :: r => match r with u :: _ => triv t = true -> triv u = true -> False | [] => True end /\ apart r
  | [] => True
  end.
Lemma spaced_apart ts : spaced ts -> apart ts.
Proof.
  induction ts as [|t ts IH]; intros H; [exact I|]. split.
  - destruct ts as [|u ts]; [exact I|]. apply (H [] t u ts eq_refl).
  - apply IH. intros a x y b E. apply (H (t :: a) x y b). rewrite E. reflexivity.
Qed.
Lemma apart_app a b : apart (a ++ b) -> apart a /\ apart b.
Proof.
  induction a as [|t a IH]; cbn [app]; [cbn; auto|]. intros [H1 H2]. destruct (IH H2) as [HA HB]. split; [|exact HB]. split; [|exact HA].
  destruct a; [exact I|exact H1].
Qed.
Lemma reads_apart src c new r : reads src c new -> apart (c ++ r) -> apart (new ++ r).
Proof.
  intros H. assert (HD : forall c new, reads src c new -> match new ++ r with u :: _ => match c ++ r with v :: _ => triv u = true -> triv v = true | [] => False end | [] => True end).
  { intros c1 n1 H1. destruct H1 as [|t c1 n1 H1|t u v x y z c1 n1 HK HS HU HV [K1 S1] [K2 S2] [K3 S3] H1]; cbn [app]; [destruct r; auto|auto|].
    unfold triv. rewrite K1. discriminate. }
  induction H as [|t c n H IH|t u v x y z c n HK HS HU HV [K1 S1] [K2 S2] [K3 S3] H IH]; cbn [app]; auto.
  - intros [H1 H2]. split; [|auto]. specialize (HD _ _ H). destruct (n ++ r) as [|u l]; [exact I|]. destruct (c ++ r) as [|v m]; [contradiction|]. auto.
  - intros [H1 H2]. cbn [apart]. split; [unfold triv; rewrite K1; discriminate|]. split; [unfold triv; rewrite K2; discriminate|].
    split; [|auto]. destruct (n ++ r); [exact I|]. unfold triv. rewrite K3. discriminate.
Qed.

(** * White space in a tree: at most one token of it before each child, none at the end *)
Definition gap (ws : list tree) : Prop := ws = [] \/ exists w, ws = [TToken WHITESPACE w].
Inductive combed : list tree -> Prop :=
| cb_nil : combed []
| cb_token ws k w cs : gap ws -> is_trivia k = false -> combed cs -> combed (ws ++ TToken k w :: cs)
| cb_node ws k c1 cs : gap ws -> combed c1 -> combed cs -> combed (ws ++ TNode k c1 :: cs).
Fixpoint strip (t : tree) : list tree :=
  match t with TToken k w => if is_trivia k then [] else [TToken k w] | TNode k cs => [TNode k (flat_map strip cs)] end.
Definition strips (cs : list tree) : list tree := flat_map strip cs.
Fixpoint leafy (t : ptree) : bool := match t with PTk k _ => negb (is_trivia k) | PEr _ => true | PNd _ cs => forallb leafy cs end.

Lemma shaped_leafy src tr ts cs : shaped src tr ts cs -> forallb leafy tr = true.
Proof.
  induction 1 as [|t tr ts cs HT H IH|k n grp tr ts cs HF HL HK H IH|k tr1 ts1 cs1 tr ts cs HT H1 IH1 H IH]; cbn [forallb leafy]; auto.
  - rewrite IH, andb_true_r. destruct HK as [t|t E|t u E1 E2|t u E1 E2]; try reflexivity. inversion HF; subst. unfold triv in *. apply negb_true_iff. assumption.
  - rewrite IH1. exact IH.
Qed.
Lemma gap_tokens src ws : apart ws -> forallb triv ws = true -> gap (trivia_tokens src ws).
Proof.
  destruct ws as [|t [|u ws]]; cbn [forallb]; intros HA HT; [left; reflexivity| |].
  - right. apply andb_true_iff in HT as [HT _]. apply kind_eqb_eq in HT. cbn. rewrite HT. eauto.
  - exfalso. apply andb_true_iff in HT as [H1 HT]. apply andb_true_iff in HT as [H2 _]. apply (proj1 HA); auto.
Qed.
Lemma grown_combed src tr x cs : grown_over src tr x cs -> apart x -> forallb leafy tr = true -> combed cs.
Proof.
  induction 1 as [|ws k n grp tr x cs HW HG HN H IH|e tr x cs H IH|ws k c1 x1 c2 tr x cs HW H1 IH1 H IH]; cbn [forallb leafy]; intros HA HL.
  - constructor.
  - apply andb_true_iff in HL as [HK HL]. apply negb_true_iff in HK. apply apart_app in HA as [A1 A2]. apply apart_app in A2 as [_ A2].
    apply cb_token; auto. apply gap_tokens; auto.
  - auto.
  - apply andb_true_iff in HL as [HK HL]. apply apart_app in HA as [A1 A2]. apply apart_app in A2 as [A3 A2]. apply cb_node; auto. apply gap_tokens; auto.
Qed.
Definition significant (ts : list ltoken) : list ltoken := filter (fun t => negb (triv t)) ts.
Lemma significant_app a b : significant (a ++ b) = significant a ++ significant b.
Proof. apply filter_app. Qed.
Lemma significant_triv ws : forallb triv ws = true -> significant ws = [].
Proof. induction ws as [|t ws IH]; intros H; [reflexivity|]. cbn [forallb] in H. apply andb_true_iff in H as [H1 H2]. cbn. rewrite H1. apply IH. exact H2. Qed.
Lemma significant_all g : Forall (fun t => triv t = false) g -> significant g = g.
Proof. induction 1 as [|t g H _ IH]; [reflexivity|]. cbn. rewrite H. cbn. f_equal. exact IH. Qed.
Lemma strips_trivia src ws : forallb triv ws = true -> strips (trivia_tokens src ws) = [].
Proof.
  induction ws as [|t ws IH]; intros H; [reflexivity|]. cbn [forallb] in H. apply andb_true_iff in H as [H1 H2]. apply kind_eqb_eq in H1.
  cbn. rewrite H1. cbn. apply IH. exact H2.
Qed.
Lemma strips_app a b : strips (a ++ b) = strips a ++ strips b.
Proof. apply flat_map_app. Qed.
Lemma app_len_inj {A} (a b c d : list A) : length a = length c -> a ++ b = c ++ d -> a = c /\ b = d.
Proof. revert c. induction a as [|x a IH]; intros [|y c] HL E; cbn in *; try discriminate; auto. injection E as -> E. injection HL as HL. destruct (IH _ HL E) as [-> ->]. auto. Qed.
Lemma same_trees src tr ts cs : shaped src tr ts cs -> forall x cs' m1 m2, grown_over src tr x cs' ->
  significant ts ++ m1 = significant x ++ m2 -> strips cs' = cs /\ m1 = m2.
Proof.
  induction 1 as [|t tr ts cs HT H IH|k n grp tr ts cs HF HL HK H IH|k tr1 ts1 cs1 tr ts cs HT H1 IH1 H IH]; intros x cs' m1 m2 HG HE.
  - inversion HG; subst. cbn in HE. auto.
  - apply (IH x cs' m1 m2 HG). cbn [significant filter] in HE. rewrite HT in HE. exact HE.
  - inversion HG as [|ws k0 n0 grp0 tr0 x0 cs0 HW HG0 HN HX|e0 tr0 x0 cs0 HX|ws k0 c1 x1 c2 tr0 x0 cs0 HW H1 HX]; subst. 
    rewrite !significant_app, (significant_triv ws HW), (significant_all grp HF), (significant_all grp0 HG0), <- !app_assoc in HE.
    cbn [app] in HE. apply (app_len_inj grp _ grp0 _ (eq_sym HN)) in HE as [-> HE].
    destruct (IH x0 cs0 m1 m2 HX HE) as [<- ->]. split; [|reflexivity]. rewrite strips_app, strips_trivia by exact HW. cbn [app strips flat_map strip].
    assert (is_trivia k = false) as ->; [|reflexivity]. destruct HK as [t|t E|t u E1 E2|t u E1 E2]; try reflexivity. inversion HF; subst. unfold triv in *. assumption.
  - inversion HG as [|ws k0 n0 grp0 tr0 x0 cs0 HW HG0 HN HX|e0 tr0 x0 cs0 HX|ws k0 c1 x1 c2 tr0 x0 cs0 HW H2 HX]; subst.
    rewrite !significant_app, (significant_triv ws HW), <- !app_assoc in HE. cbn [app] in HE.
    destruct (IH1 _ _ _ _ H2 HE) as [<- HE2]. destruct (IH _ _ _ _ HX HE2) as [<- ->]. split; [|reflexivity].
    rewrite strips_app, strips_trivia by exact HW. reflexivity.
Qed.

(** * The errors of the green tree are those of the events *)
Definition serrs (ss : list step) : list perror := flat_map (fun s => match s with SError e => [e] | _ => [] end) ss.
Definition kerrs (ss : list sink_step) : list perror := flat_map (fun s => match s with SinkError e => [e] | _ => [] end) ss.
Lemma kerrs_app a b : kerrs (a ++ b) = kerrs a ++ kerrs b.
Proof. apply flat_map_app. Qed.
Lemma do_token_errs k n b b' : do_token k n b = Done b' -> kerrs (b_out b') = kerrs (b_out b).
Proof.
  unfold do_token. destruct (nth_error _ 0) as [t0|]; [|discriminate]. destruct (nth_error _ n) as [tn|]; [|discriminate].
  destruct (text_slice _ _ _); [|discriminate]. intros H. injection H as <-. cbn [b_out]. rewrite kerrs_app. apply app_nil_r.
Qed.
Lemma eat_trivias_errs b b' : eat_trivias b = Done b' -> kerrs (b_out b') = kerrs (b_out b).
Proof.
  unfold eat_trivias. generalize (S (length (b_rest b))). intros n. revert b. induction n as [|n IH]; intros b; [discriminate|]. cbn [eat_trivias_].
  destruct (b_rest b) as [|t r]; [intros H; injection H as <-; reflexivity|]. destruct (negb (triv t)); [intros H; injection H as <-; reflexivity|].
  destruct (do_token (tkind t) 1 b) as [b1| | |] eqn:E; cbn [bind]; try discriminate. intros H. rewrite (IH _ H). eapply do_token_errs; eauto.
Qed.
Lemma send_errs s b : kerrs (b_out (send_step s b)) = kerrs (b_out b) ++ kerrs [s].
Proof. cbn [send_step b_out]. apply kerrs_app. Qed.
Lemma b_steps_errs ss : forall b b', b_steps ss b = Done b' -> kerrs (b_out b') = kerrs (b_out b) ++ serrs ss.
Proof.
  induction ss as [|s ss IH]; intros b b'; cbn [b_steps]; [intros H; injection H as <-; symmetry; apply app_nil_r|].
  match goal with |- (do b <- ?m; _) = _ -> _ => destruct m as [b1| | |] eqn:E end; cbn [bind]; try discriminate. intros H. rewrite (IH _ _ H).
  assert (kerrs (b_out b1) = kerrs (b_out b) ++ serrs [s]) as ->; [|rewrite <- app_assoc; f_equal; symmetry; apply (flat_map_app _ [s] ss)].
  assert (HF : forall st, kerrs (b_out (send_step FinishNode (set_state st b))) = kerrs (b_out b)) by (intros st; rewrite send_errs; apply app_nil_r).
  destruct s as [k n|k| |e]; cbn [serrs flat_map app]; rewrite ?app_nil_r.
  - unfold b_token in E. destruct (b_state b); try discriminate.
    + destruct (eat_trivias b) as [b2| | |] eqn:E2; cbn [bind] in E; try discriminate. rewrite (do_token_errs _ _ _ _ E). eapply eat_trivias_errs; eauto.
    + destruct (eat_trivias _) as [b2| | |] eqn:E2; cbn [bind] in E; try discriminate. rewrite (do_token_errs _ _ _ _ E), (eat_trivias_errs _ _ E2). apply HF.
  - unfold b_enter in E. destruct (b_state b).
    + injection E as <-. rewrite send_errs. apply app_nil_r.
    + destruct (eat_trivias b) as [b2| | |] eqn:E2; cbn [bind] in E; try discriminate. injection E as <-. rewrite send_errs, (eat_trivias_errs _ _ E2). apply app_nil_r.
    + destruct (eat_trivias _) as [b2| | |] eqn:E2; cbn [bind] in E; try discriminate. injection E as <-. rewrite send_errs, (eat_trivias_errs _ _ E2), HF. apply app_nil_r.
  - unfold b_exit in E. destruct (b_state b); try discriminate; injection E as <-; [reflexivity|apply HF].
  - injection E as <-. apply send_errs.
Qed.
Lemma g_steps_errs ks : forall g g', g_steps ks g = Done g' -> g_errors g' = g_errors g ++ kerrs ks.
Proof.
  induction ks as [|s ks IH]; intros g g'; cbn [g_steps]; [intros H; injection H as <-; symmetry; apply app_nil_r|].
  destruct (g_step s g) as [g1| | |] eqn:E; cbn [bind]; try discriminate. intros H. rewrite (IH _ _ H).
  assert (g_errors g1 = g_errors g ++ kerrs [s]) as ->; [|rewrite <- app_assoc; f_equal; symmetry; apply (flat_map_app _ [s] ks)].
  destruct s; cbn [g_step] in E; cbn [kerrs flat_map app]; rewrite ?app_nil_r; try (injection E as <-; reflexivity).
  destruct (g_parents g) as [|[k n] ps]; [discriminate|]. injection E as <-. reflexivity.
Qed.
Lemma build_errs source ts ss t es : build_green_tree source ts ss = Done (t, es) -> es = serrs ss.
Proof.
  unfold build_green_tree, intersperse_trivia. destruct (b_steps ss _) as [b| | |] eqn:E; cbn [bind]; try discriminate.
  destruct (b_state b); try discriminate. destruct (eat_trivias _) as [b1| | |] eqn:E1; cbn [bind]; try discriminate.
  destruct (g_steps _ _) as [g| | |] eqn:E2; cbn [bind]; try discriminate. unfold g_finish. destruct (g_children g) as [|[k cs|] [|]]; try discriminate.
  intros H. injection H as _ <-. apply g_steps_errs in E2. rewrite E2. cbn [g_errors app].
  rewrite send_errs, (eat_trivias_errs _ _ E1). apply b_steps_errs in E. cbn [set_state b_out] in *. rewrite E. cbn. apply app_nil_r.
Qed.
Lemma process_errs es : serrs (process es) = [] -> filter is_err es = [].
Proof.
  unfold process. induction es as [|e es IH]; [reflexivity|]. cbn [flat_map]. unfold serrs. rewrite flat_map_app. intros H. apply app_eq_nil in H as [H1 H2].
  cbn [filter]. destruct e; cbn [is_err]; try (apply IH; exact H2). discriminate H1.
Qed.

(** * The tree of an error-free parse *)
Lemma shaped_one src tr ts k cs : shaped src tr ts [TNode k cs] ->
  exists tr1 ts1, tr = [PNd k tr1] /\ shaped src tr1 ts1 cs /\ significant ts = significant ts1.
Proof.
  remember [TNode k cs] as u eqn:E. intros H. revert k cs E.
  induction H as [|t tr ts cs HT H IH|k n grp tr ts cs HF HL HK H IH|k tr1 ts1 cs1 tr ts cs HT H1 IH1 H IH]; intros k' cs' E; try discriminate.
  - destruct (IH _ _ E) as (tr1 & ts1 & E1 & E2 & E3). exists tr1, ts1. cbn. rewrite HT. auto.
  - injection E as -> -> ->. exists tr1, ts1.
    assert (tr = [] /\ significant ts = []) as [-> HS].
    { clear - H. remember [] as u eqn:E. induction H; try discriminate; auto. destruct (IHshaped E) as [-> IH2]. cbn. rewrite H. auto. }
    rewrite significant_app, HS, app_nil_r. auto.
Qed.

(** The tree of an error-free parse is that of a document, with white space. *)
Theorem parse_shape seg stack source t : seg [] = [] -> parse seg stack source = Done (t, []) ->
  exists l c ws d, lex seg source = Some l /\ errors l = [] /\ t = TNode ROOT (c ++ ws) /\ gap ws /\ combed c /\
    sh_doc (TNode ROOT (strips c)) d /\ lined (strips c) /\ Forall line_tree (strips c) /\ ttext t = source /\
    exists x ws eof new tr ts, tokens l = x ++ ws ++ [eof] /\ forallb triv ws = true /\ tkind eof = EOF /\ reads source x new /\
      shaped source tr ts (strips c) /\ significant ts = significant new.
Proof.
  intros Hs HP. unfold parse in HP. destruct (lex seg source) as [l|] eqn:HL; [|discriminate].
  destruct (root (value stack) _) as [p| | |] eqn:ER; cbn [bind] in HP; try discriminate. cbn [finish] in HP.
  destruct (build_green_tree _ _ _) as [[t' es]| | |] eqn:EB; cbn [bind] in HP; try discriminate. injection HP as -> HE. apply app_eq_nil in HE as [HE1 HE2]. subst es.
  assert (HE : errors l = []) by (destruct (errors l); [reflexivity|discriminate]). clear HE1.
  destruct (lex_tame seg source l Hs HL HE) as (HT & HA & HEOF). apply spaced_apart in HA.
  pose proof (build_errs _ _ _ _ _ EB) as HB. symmetry in HB. apply process_errs in HB.
  assert (HN : nerr p = nerr (parser_new source (tokens l))) by (unfold nerr; rewrite HB; reflexivity).
  destruct (root_yields stack (parser_new source (tokens l)) p HT ER HN) as (cs0 & d & [Y0 (tr & c & new & Y1 & Y2 & Y3 & Y4 & Y5 & Y6)] & HD & [ST1 ST2] & HEF & HLN & HLT).
  cbn [parser_new p_events p_rest p_tokens p_src app] in *. inversion HD as [es0 gs0 n0 ts0 tb0 HB1 HB2 HCS HDD]; subst cs0 d.
  destruct (shaped_one _ _ _ _ _ Y4) as (tr1 & ts1 & -> & HSH & HSG).
  rewrite Y2 in HEOF. pose proof (ends_eof_suffix _ _ HEOF Y6) as HR. rewrite <- Y2 in HEOF.
  destruct (chain_to_eof (K0 p) (sig_ends _ HR) ST1 ST2 HEF) as (j & HK).
  destruct HR as (ws & eof & HR1 & HR2 & HR3).
  assert (HW : forallb triv ws = true).
  { rewrite HR1 in HK. clear - HK HR3. induction HR3 as [|u r [Hu _] _ IH]; [reflexivity|]. cbn [sig app forallb] in *. destruct (triv u); [apply IH; exact HK|]. inversion HK. contradiction. }
  destruct (lex_correct seg source Hs) as (l' & HL' & ts & eof' & H1 & H2 & H3 & H4 & H5). assert (l' = l) by congruence. subst l'.
  assert (eof' = eof) as -> by (rewrite H1, HR1, app_assoc in Y2; apply app_inj_tail in Y2 as [_ Y2]; exact Y2).
  pose proof (covers_tiles _ _ _ H4) as HTI. rewrite Y2, HR1 in HTI. apply tiles_split in HTI as (s1 & s2 & HS & T1 & T2).
  assert (triv eof = false) as He by (unfold triv; rewrite H2; reflexivity).
  assert (tspan eof = MkSpan (len_bytes source) (len_bytes source)) as Hsp.
  { destruct (lex_eof_span seg source l HL) as (ts2 & eof2 & G1 & G2). rewrite H1 in G1. apply app_inj_tail in G1 as [_ ->]. exact G2. }
  pose proof (reads_tiles _ _ _ Y5 [] s1 s2 HS T1) as T3.
  assert (tiles [] source ((new ++ ws) ++ [eof])) as T4 by (rewrite HS, <- app_assoc; apply tiles_join; auto).
  assert (cov (new ++ ws) (flat_map leaves tr1)) as C4.
  { pose proof (shaped_cov _ _ _ _ Y4) as C. cbn [flat_map leaves] in C. rewrite app_nil_r in C. rewrite <- (app_nil_r (flat_map leaves tr1)).
    apply cov_app; [exact C|]. apply cov_nil. exact HW. }
  destruct (build_ok source (new ++ ws) eof tr1 T4 He Hsp C4) as (cs & E1 & E2 & E3 & x & ws' & c' & X1 & X2 & X3 & X4).
  assert (t = TNode ROOT cs /\ ttexts cs = source) as [-> HTX].
  { rewrite Y3, HR1, Y1, app_assoc in EB. unfold flats in EB. cbn [flat_map] in EB. rewrite app_nil_r in EB.
    rewrite process_flat in EB by (pose proof (shaped_kinds _ _ _ _ Y4) as K; cbn [forallb] in K; rewrite andb_true_r in K; exact K).
    rewrite E1 in EB. injection EB as <- _. auto. }
  assert (HA2 : apart ((new ++ ws) ++ [eof])).
  { rewrite Y2, HR1 in HA. rewrite <- app_assoc. eapply reads_apart; eauto. }
  rewrite X1, <- app_assoc in HA2. apply apart_app in HA2 as [A1 A2]. apply apart_app in A2 as [A2 _].
  assert (HSX : strips c' = es0 ++ ts0).
  { apply (same_trees _ _ _ _ HSH x c' [] [] X3). rewrite !app_nil_r, <- HSG.
    apply (f_equal significant) in X1. rewrite !significant_app, (significant_triv ws HW), (significant_triv ws' X2), !app_nil_r in X1. exact X1. }
  exists l, c', (trivia_tokens source ws'), (FDoc gs0 tb0). split; [reflexivity|]. split; [exact HE|]. split; [rewrite X4; reflexivity|].
  split; [apply gap_tokens; auto|]. split; [eapply grown_combed; eauto; eapply shaped_leafy; eauto|].
  rewrite HSX. split; [econstructor; eauto|]. split; [exact HLN|]. split; [exact HLT|]. split; [exact HTX|].
  exists c, ws, eof, new, tr1, ts1. rewrite <- HR1. auto 7.
Qed.
