(** The other direction of the parser: token sequences that it takes without an error.  A grammar over the kinds of the
    tokens, and the proof that every run over such a sequence that ends has reported nothing. *)
From Coq Require Import String Ascii List NArith Bool Arith Lia.
From Verif Require Import Base SyntaxKind TextModel LexerModel LexerSpec LexerProofs ParserModel ParserInv ParserPrims ParserBuild
  ParserYield AstModel FormatPieces FormatterModel FormatterLayout ParserShape.
Import ListNotations.
Open Scope N_scope.
Open Scope list_scope.

(** * The grammar *)
(** Line breaks, and comments that end their lines *)
Inductive gaps : sks -> Prop :=
| gp_nil : gaps []
| gp_break j G : gaps G -> gaps ((LINE_BREAK, j) :: G)
| gp_comment j j' G : gaps G -> gaps ((COMMENT, j) :: (LINE_BREAK, j') :: G).
(** The same, where no blank line follows a comment *)
Inductive soft : sks -> Prop :=
| sf_nil : soft []
| sf_break j G : soft G -> soft ((LINE_BREAK, j) :: G)
| sf_comment j j' G : soft G -> khd G <> LINE_BREAK -> soft ((COMMENT, j) :: (LINE_BREAK, j') :: G).
Inductive atail : sks -> Prop :=
| at_none : atail []
| at_some j : atail [(COMMENT, j)].
Inductive acomma : sks -> Prop :=
| cm_none : acomma []
| cm_some S j T : soft S -> atail T -> acomma (S ++ (COMMA, j) :: T).
Definition key_first (k : kind) : bool := ts_contains TS_KEY_FIRST k.
Inductive akeys : sks -> Prop :=
| ak_one k j : key_first k = true -> akeys [(k, j)]
| ak_cons k j d K : key_first k = true -> akeys K -> akeys ((k, j) :: (DOT, d) :: K).
Inductive acore : nat -> sks -> Prop :=
| ac_lit n k j : literal_kind k = true -> acore n [(k, j)]
| ac_box n table j T B j' : atail T -> khd B <> COMMENT -> abody n table B ->
    acore (S n) ((open_kind table, j) :: T ++ B ++ [(close_kind table, j')])
with aitem : nat -> bool -> sks -> Prop :=
| ai_value n K : acore n K -> aitem n false K
| ai_key n Ks j K : akeys Ks -> acore n K -> aitem n true (Ks ++ (EQUAL, j) :: K)
with abody : nat -> bool -> sks -> Prop :=
| ab_gaps n table G : gaps G -> abody n table G
| ab_item n table G I T C B : gaps G -> aitem n table I -> atail T -> acomma C -> khd (C ++ B) <> COMMENT -> khd B <> COMMENT ->
    abody n table B -> abody n table (G ++ I ++ T ++ C ++ B).
(** The lines of a section: a line break follows each key/value, and each comment, but for the last line of the text. *)
Inductive alines_to (last : bool) : sks -> Prop :=
| al_gaps G : gaps G -> alines_to last G
| al_comment G j : last = true -> gaps G -> alines_to last (G ++ [(COMMENT, j)])
| al_item G I T C B : gaps G -> aitem MAX_RECURSION_DEPTH true I -> atail T -> acomma C -> khd (C ++ B) <> COMMENT -> khd B = LINE_BREAK \/ last = true /\ B = [] ->
    alines_to last B -> alines_to last (G ++ I ++ T ++ C ++ B).
Notation alines := (alines_to false).
Definition aopen (array : bool) (j : bool) : sks := if array then [(BRACKET_START, true); (BRACKET_START, j)] else [(BRACKET_START, j)].
Definition aclose (array : bool) (j : bool) : sks := if array then [(BRACKET_END, true); (BRACKET_END, j)] else [(BRACKET_END, j)].
Inductive asections : sks -> Prop :=
| as_nil : asections []
| as_cons array j Ks j' T B S : akeys Ks -> atail T -> khd B = LINE_BREAK -> alines B -> asections S ->
    asections (aopen array j ++ Ks ++ aclose array j' ++ T ++ B ++ S)
| as_last array j Ks j' T B : akeys Ks -> atail T -> khd B = LINE_BREAK \/ B = [] -> alines_to true B ->
    asections (aopen array j ++ Ks ++ aclose array j' ++ T ++ B).

(** * Facts about the grammar *)
Lemma khd_app_ne (a b : sks) : a <> [] -> khd (a ++ b) = khd a.
Proof. destruct a; [contradiction|reflexivity]. Qed.
Lemma lc_cases k : is_lc k = true -> k = COMMENT \/ k = LINE_BREAK.
Proof. destruct k; try discriminate; auto. Qed.
Lemma gaps_lc G : gaps G -> Forall (fun x => is_lc (fst x) = true) G.
Proof. induction 1; repeat constructor; auto. Qed.
Lemma soft_gaps G : soft G -> gaps G.
Proof. induction 1; constructor; auto. Qed.
Lemma gaps_app G H : gaps G -> gaps H -> gaps (G ++ H).
Proof. induction 1; cbn [app]; intros; auto; constructor; auto. Qed.
Lemma gaps_suffix L : forall G, gaps (L ++ G) -> gaps G.
Proof.
  remember (length L) as n eqn:E. assert (HL : (length L <= n)%nat) by lia. clear E. revert L HL. induction n as [|n IH]; intros L HL G H.
  - destruct L; [exact H|cbn in HL; lia].
  - destruct L as [|x L]; [exact H|]. cbn [app] in H. cbn in HL. inversion H as [|j G0 H0|j j' G0 H0]; subst.
    + apply (IH L); auto. lia.
    + destruct L as [|y L].
      * cbn [app] in *. subst G. constructor. exact H0.
      * cbn [app] in H2. injection H2 as <- ->. apply (IH L); auto. cbn in HL. lia.
Qed.
Lemma drop_gaps G x R : Forall (fun x => is_lc (fst x) = true) G -> is_lc (fst x) = false -> dropk is_lc (G ++ x :: R) = x :: R.
Proof.
  destruct x as [k j]. cbn [fst]. induction 1 as [|[k0 j0] G Hk H IH]; intros HX; cbn [app]; rewrite dropk_cons.
  - rewrite HX. reflexivity.
  - cbn [fst] in Hk. rewrite Hk. apply IH. exact HX.
Qed.
(** Where the look-ahead over gaps stops *)
Lemma peek_gaps G : gaps G -> forall x R, is_lc (fst x) = false -> peekK (G ++ x :: R) = length G \/ knth (peekK (G ++ x :: R)) (G ++ x :: R) = COMMENT.
Proof.
  induction 1 as [|j G H IH|j j' G H IH]; intros x R HX; cbn [app].
  - left. destruct x as [k j]. cbn [fst] in HX. apply peekK_zero; rewrite khd_cons; intros ->; discriminate.
  - cbn [peekK length]. destruct (IH x R HX) as [-> |E]; [left; reflexivity|right; exact E].
  - cbn [peekK length]. destruct (kind_eqb (khd (G ++ x :: R)) LINE_BREAK); [right; reflexivity|]. destruct (IH x R HX) as [-> |E]; [left; reflexivity|right; exact E].
Qed.
Lemma knth_length G x R : knth (length G) (G ++ x :: R) = fst x.
Proof. unfold knth. rewrite app_nth2, Nat.sub_diag by lia. reflexivity. Qed.
Lemma peek_kind G x R : gaps G -> is_lc (fst x) = false -> knth (peekK (G ++ x :: R)) (G ++ x :: R) = fst x \/ knth (peekK (G ++ x :: R)) (G ++ x :: R) = COMMENT.
Proof. intros HG HX. destruct (peek_gaps G HG x R HX) as [-> |E]; [left; apply knth_length|right; exact E]. Qed.
Lemma peek_soft S : soft S -> forall x R, is_lc (fst x) = false -> peekK (S ++ x :: R) = length S.
Proof.
  induction 1 as [|j G H IH|j j' G H IH HN]; intros x R HX; cbn [app].
  - destruct x as [k j]. cbn [fst] in HX. apply peekK_zero; rewrite khd_cons; intros ->; discriminate.
  - cbn [peekK length]. rewrite IH; auto.
  - cbn [peekK length]. assert (E : kind_eqb (khd (G ++ x :: R)) LINE_BREAK = false).
    { apply kind_eqb_neq. destruct G as [|y G]; [|exact HN]. destruct x as [k0 j0]. cbn [app]. rewrite khd_cons. cbn [fst] in HX. intros ->. discriminate. }
    rewrite E, IH; auto.
Qed.
(** After the loop of dangling comments *)
Lemma settled_gaps G : gaps G -> forall x R, is_lc (fst x) = false -> settled (G ++ x :: R) -> peekK (G ++ x :: R) = length G /\ (ts_contains TS_DANGLING_COMMENT_GROUP_END (fst x) = true -> G = []).
Proof.
  induction 1 as [|j G H IH|j j' G H IH]; intros x R HX [S1 S2]; cbn [app] in *.
  - split; [|reflexivity]. destruct x as [k j]. cbn [fst] in HX. apply peekK_zero; rewrite khd_cons; intros ->; discriminate.
  - contradiction S1. reflexivity.
  - specialize (S2 eq_refl). rewrite dlenK_eq in S2. cbn [tl] in S2. change (knth 1 ((COMMENT, j) :: (LINE_BREAK, j') :: G ++ x :: R)) with LINE_BREAK in S2.
    change (knth 2 ((COMMENT, j) :: (LINE_BREAK, j') :: G ++ x :: R)) with (khd (G ++ x :: R)) in S2. change (negb (ts_contains TS_LINE_END LINE_BREAK)) with false in S2. cbv iota in S2.
    destruct (ts_contains TS_DANGLING_COMMENT_GROUP_END (khd (G ++ x :: R))) eqn:E1; [discriminate|].
    assert (NL : khd (G ++ x :: R) <> LINE_BREAK) by (intros E; rewrite E in E1; discriminate).
    cbn [peekK length]. rewrite (proj2 (kind_eqb_neq _ _) NL).
    destruct (kind_eqb (khd (G ++ x :: R)) COMMENT) eqn:E2; cbn [negb] in S2.
    + destruct (dlenK (G ++ x :: R)) eqn:E3; [discriminate|]. destruct (IH x R HX) as [-> H2]; [split; auto|]. split; [reflexivity|].
      intros HE. specialize (H2 HE). subst G. cbn [app] in E2. destruct x as [k0 j0]. rewrite khd_cons in E2. apply kind_eqb_eq in E2. subst k0. discriminate.
    + assert (G = []) as ->.
      { destruct H; [reflexivity|contradiction NL; reflexivity|discriminate E2]. }
      cbn [app] in *. destruct x as [k0 j0]. rewrite khd_cons in *. cbn [fst] in *. rewrite peekK_zero; [|rewrite khd_cons; exact NL|rewrite khd_cons; apply kind_eqb_neq; exact E2]. split; [reflexivity|]. intros HE. congruence.
Qed.
Lemma acore_head n V : acore n V -> exists x R, V = x :: R /\ ts_contains TS_VALUE_FIRST (fst x) = true /\ fst x <> BARE_KEY /\ is_lc (fst x) = false.
Proof.
  destruct 1 as [n k j HK|n table j T B j' HT HB H].
  - exists (k, j), []. split; [reflexivity|]. destruct k; try discriminate; repeat split; discriminate.
  - exists (open_kind table, j), (T ++ B ++ [(close_kind table, j')]). split; [reflexivity|]. destruct table; repeat split; discriminate.
Qed.
Lemma akeys_head K : akeys K -> exists x R, K = x :: R /\ key_first (fst x) = true /\ is_lc (fst x) = false.
Proof.
  assert (HX : forall k, key_first k = true -> is_lc k = false) by (intros []; try discriminate; reflexivity).
  destruct 1 as [k j HK|k j d K HK H]; [exists (k, j), []|exists (k, j), ((DOT, d) :: K)]; auto.
Qed.
Definition firsts (table : bool) : token_set := if table then TS_KEY_FIRST else TS_VALUE_FIRST.
Definition ends (table : bool) : token_set := if table then TS_INLINE_TABLE_END else TS_ARRAY_END.
Lemma aitem_head n table I : aitem n table I -> exists x R, I = x :: R /\ ts_contains (firsts table) (fst x) = true /\ is_lc (fst x) = false.
Proof.
  destruct 1 as [n K H|n Ks j K HK H].
  - destruct (acore_head _ _ H) as (x & R & -> & H1 & _ & H2). exists x, R. auto.
  - destruct (akeys_head _ HK) as (x & R & -> & H1 & H2). exists x, (R ++ (EQUAL, j) :: K). auto.
Qed.
Lemma firsts_ends table k : ts_contains (firsts table) k = true -> ts_contains (ends table) k = false /\ k <> COMMA /\ k <> EOF /\ k <> COMMENT /\ k <> LINE_BREAK /\ k <> close_kind table /\ ts_contains TS_NEXT_SECTION k = negb table && kind_eqb k BRACKET_START.
Proof. destruct table, k; try discriminate; intros _; repeat split; discriminate. Qed.
Lemma lc_prefix L G (x : kind * bool) K R : Forall (fun x => is_lc (fst x) = true) L -> is_lc (fst x) = false -> L ++ K = G ++ x :: R -> exists G', G = L ++ G' /\ K = G' ++ x :: R.
Proof.
  intros HL HX. revert G. induction HL as [|y L Hy HL IH]; intros G E; [exists G; auto|]. destruct G as [|z G]; cbn [app] in E.
  - injection E as -> _. congruence.
  - injection E as -> E. destruct (IH G E) as (G' & -> & ->). exists G'. auto.
Qed.
Lemma abody_suffix n table B L K c R : abody n table B -> Forall (fun x => is_lc (fst x) = true) L -> is_lc (fst c) = false -> L ++ K = B ++ c :: R ->
  exists B', K = B' ++ c :: R /\ abody n table B'.
Proof.
  intros HB HL HC E. destruct HB as [n table G HG|n table G I T C B HG HI HT HCm N1 N2 HB].
  - destruct (lc_prefix L G c K R HL HC E) as (G' & -> & ->). exists G'. split; [reflexivity|]. constructor. eapply gaps_suffix; eauto.
  - destruct (aitem_head _ _ _ HI) as (x & X & -> & _ & HX). rewrite <- !app_assoc in E. cbn [app] in E. destruct (lc_prefix L G x K _ HL HX E) as (G' & -> & ->).
    exists (G' ++ (x :: X) ++ T ++ C ++ B). rewrite <- !app_assoc. cbn [app]. split; [reflexivity|]. rewrite app_comm_cons. apply ab_item; auto. eapply gaps_suffix; eauto.
Qed.

(** * Quiet runs *)
Definition ran (p p' : pst) (K : sks) : Prop := nerr p' = nerr p /\ K0 p' = K /\ p_depth p' = p_depth p.
(** No blanks stand before the next token, or it is not a float with a point. *)
Definition clean (p : pst) : Prop := match p_rest p with [] => True | t :: _ => triv t = false end \/
  (forall w, nth_kind 0 p = FLOAT -> text_slice (p_src p) (sstart (tspan (nth_token 0 p))) (send (tspan (nth_token 0 p))) = Some w -> existsb (N.eqb 46) w = false).
Lemma ran_trans p q r K K' : ran p q K -> ran q r K' -> ran p r K'.
Proof. intros (A1 & A2 & A3) (B1 & B2 & B3). repeat split; congruence. Qed.
Lemma ran_refl p : ran p p (K0 p).
Proof. repeat split. Qed.
Lemma bump_ran k n p : ran p (do_bump k n p) (skipn n (K0 p)) /\ clean (do_bump k n p).
Proof.
  split.
  - split; [apply nerr_bump|]. rewrite <- nth_split_sig. unfold do_bump. destruct (nth_split n (p_rest p)) as [a b]. split; reflexivity.
  - unfold clean. pose proof (nth_split_head n (p_rest p)) as H. left. unfold do_bump. destruct (nth_split n (p_rest p)) as [a b]. exact H.
Qed.
Lemma start_ran p : ran p (push_event (EStart TOMBSTONE) p) (K0 p) /\ (clean p -> clean (push_event (EStart TOMBSTONE) p)).
Proof. split; [|trivial]. split; [rewrite nerr_push; cbn; lia|split; reflexivity]. Qed.
Lemma complete_ran m k p p' : complete m k p = Done p' -> ran p p' (K0 p) /\ (clean p -> clean p').
Proof.
  intros H. pose proof (complete_rest _ _ _ _ H) as HR. split; [split; [eapply nerr_complete; eauto|split; [rewrite HR; reflexivity|]]|].
  2:{ unfold clean, nth_kind, nth_token. rewrite HR. unfold complete in H. destruct (nth_error (p_events p) m) as [[]|]; try discriminate. injection H as <-. exact (fun x => x). }
  unfold complete in H. destruct (nth_error (p_events p) m) as [[]|]; try discriminate. injection H as <-. reflexivity.
Qed.
Lemma eat_ran k j r p b q : plain_kind k = true -> K0 p = (k, j) :: r -> eat k p = (b, q) -> b = true /\ ran p q r /\ clean q.
Proof.
  intros HP HK HE. unfold eat in HE. unfold at_ in HE. rewrite nth_at_sig, HK in HE by exact HP. change (knth 0 ((k, j) :: r)) with k in HE. rewrite kind_eqb_refl in HE. cbn [negb] in HE.
  injection HE as <- <-. split; [reflexivity|]. rewrite do_bump_kind_plain by exact HP. destruct (bump_ran k 1 p) as [H1 H2]. rewrite HK in H1. split; [exact H1|exact H2].
Qed.
Lemma eat_stays k p b q : plain_kind k = true -> khd (K0 p) <> k -> eat k p = (b, q) -> b = false /\ q = p.
Proof.
  intros HP HK HE. unfold eat in HE. unfold at_ in HE. rewrite nth_at_sig in HE by exact HP. fold (khd (K0 p)) in HE. rewrite (proj2 (kind_eqb_neq _ _) HK) in HE. cbn [negb] in HE.
  injection HE as <- <-. auto.
Qed.
Definition double (k : kind) : kind := match k with BRACKET_START => DOUBLE_BRACKET_START | BRACKET_END => DOUBLE_BRACKET_END | _ => k end.
Lemma eat_pair_ran k j r p b q : k = BRACKET_START \/ k = BRACKET_END -> K0 p = (k, true) :: (k, j) :: r -> eat (double k) p = (b, q) -> b = true /\ ran p q r /\ clean q.
Proof.
  intros HP HK HE. assert (HA : at_ (double k) p = true).
  { destruct HP as [-> | ->]; unfold at_, nth_at, double; rewrite composite_sig, HK; reflexivity. }
  unfold eat in HE. rewrite HA in HE. cbn [negb] in HE. injection HE as <- <-. split; [reflexivity|].
  assert (E : do_bump_kind (double k) p = do_bump (double k) 2 p) by (destruct HP as [-> | ->]; reflexivity). rewrite E.
  destruct (bump_ran (double k) 2 p) as [H1 H2]. rewrite HK in H1. split; [exact H1|exact H2].
Qed.
Lemma while_eat_ran k p p' : plain_kind k = true -> clean p -> while_eat k p = Done p' -> ran p p' (dropk (fun x => kind_eqb x k) (K0 p)) /\ clean p'.
Proof.
  intros HP. unfold while_eat, loop. generalize (S (length (p_rest p))). intros fuel. revert p. induction fuel as [|fuel IH]; intros p HC H; [discriminate|]. cbn [loop_] in H.
  destruct (eat k p) as [b q] eqn:E. destruct (K0 p) as [|[k0 j] r] eqn:EK.
  - unfold eat, at_ in E. rewrite nth_at_sig, EK in E by exact HP. cbn in E. destruct k; cbn in E; try (injection E as <- <-; injection H as <-; split; [rewrite <- EK; cbn; rewrite ?EK; repeat split; auto|exact HC]).
    injection E as <- <-. destruct (bump_ran EOF 1 p) as [H1 H2]. rewrite EK in H1. destruct (IH _ H2 H) as [I1 I2]. split; [|exact I2]. eapply ran_trans; [exact H1|]. destruct H1 as (_ & HK & _). cbn in HK. 
    change (sig (p_rest (do_bump EOF 1 p))) with (K0 (do_bump EOF 1 p)) in I1. change (do_bump_kind EOF p) with (do_bump EOF 1 p) in I1. rewrite HK in I1. exact I1.
  - rewrite dropk_cons. destruct (kind_eqb k0 k) eqn:EQ.
    + apply kind_eqb_eq in EQ. subst k0. destruct (eat_ran k j r p b q HP EK E) as (-> & R1 & C1). destruct (IH q C1 H) as [I1 I2]. split; [|exact I2]. eapply ran_trans; [exact R1|].
      destruct R1 as (_ & HK & _). rewrite HK in I1. exact I1.
    + destruct (eat_stays k p b q HP) as [-> ->]; auto; [rewrite EK, khd_cons; apply kind_eqb_neq; exact EQ|]. injection H as <-. split; [rewrite <- EK; apply ran_refl|exact HC].
Qed.
Lemma leading_ran p p' : clean p -> leading_comments p = Done p' -> ran p p' (dropk is_lc (K0 p)) /\ clean p'.
Proof.
  unfold leading_comments, loop. generalize (S (length (p_rest p))). intros fuel. revert p. induction fuel as [|fuel IH]; intros p HC H; [discriminate|]. cbn [loop_] in H.
  destruct (eat_ts TS_LEADING_COMMENTS_KINDS p) as [b q] eqn:E. unfold eat_ts, p_current in E. rewrite nth_kind_sig in E. fold (khd (K0 p)) in E. fold (is_lc (khd (K0 p))) in E.
  destruct (is_lc (khd (K0 p))) eqn:EL; cbn [negb] in E; injection E as <- <-.
  - assert (EB : do_bump_kind (khd (K0 p)) p = do_bump (khd (K0 p)) 1 p) by (destruct (lc_cases _ EL) as [-> | ->]; reflexivity).
    rewrite EB in H. destruct (bump_ran (khd (K0 p)) 1 p) as [H1 H2]. destruct (IH _ H2 H) as [I1 I2]. split; [|exact I2]. eapply ran_trans; [exact H1|].
    destruct H1 as (_ & HK & _). rewrite HK in I1. assert (NE : K0 p <> []) by (intros E; rewrite E in EL; discriminate). rewrite (dropk_go _ _ NE EL).
    destruct (K0 p) as [|x r]; [contradiction|]. exact I1.
  - injection H as <-. rewrite (dropk_stop _ _ EL). split; [apply ran_refl|exact HC].
Qed.
Lemma trailing_ran T R p p' : clean p -> atail T -> khd R <> COMMENT -> K0 p = T ++ R -> trailing_comment p = Done p' -> ran p p' R /\ clean p'.
Proof.
  intros HC HT HR HK H. destruct (while_eat_ran COMMENT p p' eq_refl HC H) as [H1 H2]. split; [|exact H2]. rewrite HK in H1.
  assert (E : dropk (fun x => kind_eqb x COMMENT) (T ++ R) = R); [|rewrite E in H1; exact H1].
  apply kind_eqb_neq in HR. destruct HT; cbn [app]; rewrite ?dropk_cons; [|change (kind_eqb COMMENT COMMENT) with true; cbv iota]; apply (dropk_stop (fun x => kind_eqb x COMMENT)); exact HR.
Qed.
Lemma comma_ran S j T R p p' : clean p -> soft S -> atail T -> khd R <> COMMENT -> K0 p = S ++ (COMMA, j) :: T ++ R -> comma p = Done p' -> ran p p' R /\ clean p'.
Proof.
  intros HC HS HT HR HK H. unfold comma in H. cbn [start] in H. destruct (start_ran p) as [R0 C0]. specialize (C0 HC). set (ps := push_event _ p) in *.
  binds H. destruct (leading_ran _ _ C0 E) as [R1 C1]. destruct R0 as (A1 & A2 & A3). rewrite A2, HK in R1. rewrite (drop_gaps S (COMMA, j)) in R1; [|apply gaps_lc, soft_gaps; exact HS|reflexivity].
  destruct (at_ COMMA q); cbn [negb] in H; [|discriminate]. destruct (eat COMMA q) as [b q2] eqn:EE. destruct (eat_ran COMMA j (T ++ R) q b q2 eq_refl (proj1 (proj2 R1)) EE) as (_ & R2 & C2).
  binds H. destruct (trailing_ran T R _ _ C2 HT HR (proj1 (proj2 R2)) E0) as [R3 C3]. destruct (complete_ran _ _ _ _ H) as [R4 C4]. specialize (C4 C3). split; [|exact C4].
  destruct R3 as (B1 & B2 & B3). rewrite B2 in R4. eapply ran_trans; [split; [exact A1|split; [exact A2|exact A3]]|]. eapply ran_trans; [exact R1|]. eapply ran_trans; [exact R2|]. eapply ran_trans; [split; [exact B1|split; [exact B2|exact B3]]|exact R4].
Qed.

(** * Keys *)
Lemma synthetic_ran k a b p p' : push_synthetic k a b p = Done p' -> nerr p' = nerr p /\ p_rest p' = p_rest p /\ p_depth p' = p_depth p.
Proof.
  unfold push_synthetic, start. cbn [push_event p_src p_seen p_rest p_depth p_tokens p_events]. intros H. pose proof (complete_rest _ _ _ _ H) as H1. pose proof (nerr_complete _ _ _ _ H) as H2.
  split; [|split; [exact H1|]].
  - rewrite H2. unfold nerr. cbn [p_events]. rewrite !filter_app, !app_length. cbn. lia.
  - unfold complete in H. match type of H with match ?x with _ => _ end = _ => destruct x as [[]|] end; try discriminate. injection H as <-. reflexivity.
Qed.
Lemma remap_ran k k0 j r p : k0 <> EOF -> K0 p = (k0, j) :: r -> ran p (bump_remap k p) r /\ clean (bump_remap k p).
Proof.
  intros HN HK. unfold bump_remap. rewrite nth_kind_sig, HK. change (knth 0 ((k0, j) :: r)) with k0. rewrite (proj2 (kind_eqb_neq _ _) HN).
  destruct (bump_ran k 1 p) as [H1 H2]. rewrite HK in H1. split; [exact H1|exact H2].
Qed.
Lemma node_ran p q p' m k K : ran (push_event (EStart TOMBSTONE) p) q K -> complete m k q = Done p' -> ran p p' K.
Proof.
  intros (A1 & A2 & A3) HC. destruct (complete_ran _ _ _ _ HC) as [(B1 & B2 & B3) _]. destruct (start_ran p) as [(C1 & C2 & C3) _]. repeat split; congruence.
Qed.
Lemma float_ran j r p p' : clean p -> K0 p = (FLOAT, j) :: r -> bump_float_key p = Done p' -> ran p p' r.
Proof.
  intros HC HK H. unfold bump_float_key in H. rewrite nth_kind_sig, HK in H. change (kind_eqb (knth 0 ((FLOAT, j) :: r)) FLOAT) with true in H. cbn [negb] in H.
  destruct (text_slice _ _ _) as [text|] eqn:ET; [|discriminate]. destruct (negb _) eqn:EN.
  - cbn [start] in H. apply (node_ran _ _ _ _ _ _ (proj1 (remap_ran BARE_KEY FLOAT j r (push_event (EStart TOMBSTONE) p) ltac:(discriminate) HK)) H).
  - destruct (split_dot text) as [|u [|v [|]]]; try discriminate. cbv zeta in H. binds H. binds H. binds H.
    apply synthetic_ran in E as (A1 & A2 & A3). apply synthetic_ran in E0 as (B1 & B2 & B3). apply synthetic_ran in E1 as (C1 & C2 & C3).
    rewrite C2, B2, A2 in H. destruct HC as [HC|HC]; [|rewrite (HC _ ltac:(rewrite nth_kind_sig, HK; reflexivity) ET) in EN; discriminate]. destruct (p_rest p) as [|t ts] eqn:ER; [discriminate|]. injection H as <-.
    assert (HS : sig ts = r). { cbn [sig] in HK. rewrite HC in HK. injection HK as _ _ HK. exact HK. }
    split; [change (nerr q1 = nerr p); congruence|split; [exact HS|cbn [p_depth]; congruence]].
Qed.
Lemma eat_key_ran k j r p b q : clean p -> key_first k = true -> K0 p = (k, j) :: r -> eat_key p = Done (b, q) -> b = true /\ ran p q r.
Proof.
  intros HC HF HK H.
  assert (H1 : forall k0, k = k0 -> plain_kind k0 = true -> (let (m, p0) := start p in do p1 <- p_bump k0 p0; do p2 <- complete m k0 p1; Done (true, p2)) = Done (b, q) -> b = true /\ ran p q r).
  { intros k0 <- HP HB. cbn [start] in HB. binds HB. binds HB. injection HB as <- <-. split; [reflexivity|]. unfold p_bump in E. destruct (eat k _) as [b1 q1'] eqn:EE.
    destruct (eat_ran k j r (push_event (EStart TOMBSTONE) p) b1 q1' HP HK EE) as (-> & R1 & _). injection E as <-. exact (node_ran _ _ _ _ _ _ R1 E0). }
  assert (H2 : k <> EOF -> (let (m, p0) := start p in do p1 <- complete m BARE_KEY (bump_remap BARE_KEY p0); Done (true, p1)) = Done (b, q) -> b = true /\ ran p q r).
  { intros NE HB. cbn [start] in HB. binds HB. injection HB as <- <-. split; [reflexivity|]. exact (node_ran _ _ _ _ _ _ (proj1 (remap_ran BARE_KEY k j r (push_event (EStart TOMBSTONE) p) NE HK)) E). }
  unfold eat_key, p_current in H. rewrite nth_kind_sig, HK in H. change (knth 0 ((k, j) :: r)) with k in H.
  destruct k; try discriminate HF; try (apply H2; [discriminate|exact H]); try (apply (H1 _ eq_refl eq_refl H)).
  binds H. injection H as <- <-. split; [reflexivity|]. exact (float_ran j r p _ HC HK E).
Qed.
Lemma dotted_ran fuel : forall Ks x R p b q, clean p -> akeys Ks -> fst x <> DOT -> K0 p = Ks ++ x :: R -> dotted_keys fuel false p = Done (b, q) -> b = true /\ ran p q (x :: R).
Proof.
  induction fuel as [|fuel IH]; intros Ks x R p b q HC HA HX HK H; [discriminate|]. cbn [dotted_keys] in H. binds H. destruct q0 as [ok q1]. destruct (eat DOT q1) as [dot q2] eqn:ED.
  destruct HA as [k j HF|k j d K HF HA]; cbn [app] in HK.
  - destruct (eat_key_ran k j _ p ok q1 HC HF HK E) as [-> R1]. destruct x as [kx jx]. cbn [fst] in HX.
    destruct (eat_stays DOT q1 dot q2 eq_refl) as [-> ->]; auto; [rewrite (proj1 (proj2 R1)); exact HX|]. cbn in H. injection H as <- <-. auto.
  - destruct (eat_key_ran k j _ p ok q1 HC HF HK E) as [-> R1]. destruct (eat_ran DOT d (K ++ x :: R) q1 dot q2 eq_refl (proj1 (proj2 R1)) ED) as (-> & R2 & C2). cbn [negb orb] in H.
    assert (EA : at_ts TS_KEY_FIRST q2 = true).
    { rewrite at_ts_sig, (proj1 (proj2 R2)). destruct (akeys_head _ HA) as (y & Y & -> & HY & _). exact HY. }
    rewrite EA in H. cbn [negb] in H. destruct (IH K x R q2 b q C2 HA HX (proj1 (proj2 R2)) H) as [-> R3]. split; [reflexivity|]. eapply ran_trans; [exact R1|]. eapply ran_trans; [exact R2|exact R3].
Qed.
Lemma keys_ran Ks x R p p' : clean p -> akeys Ks -> fst x <> DOT -> K0 p = Ks ++ x :: R -> keys p = Done p' -> ran p p' (x :: R).
Proof.
  intros HC HA HX HK H. unfold keys in H. cbn [start] in H. destruct (start_ran p) as [_ C0]. specialize (C0 HC). binds H. destruct q as [ok q].
  assert (HR : ran (push_event (EStart TOMBSTONE) p) q (x :: R)).
  { unfold eat_keys in E. rewrite nth_at_sig in E by reflexivity. change (K0 (push_event (EStart TOMBSTONE) p)) with (K0 p) in E. rewrite HK in E.
    destruct (kind_eqb (knth 1 (Ks ++ x :: R)) DOT) eqn:ED.
    - apply (dotted_ran _ Ks x R _ ok q C0 HA HX HK E).
    - destruct HA as [k j HF|k j d K HF HA]; [|discriminate ED]. apply (eat_key_ran k j _ _ ok q C0 HF HK E). }
  exact (node_ran _ _ _ _ _ _ HR H).
Qed.

(** * Dangling comments *)
Lemma bump_times_ran n : forall p, Forall (fun x => is_lc (fst x) = true) (firstn n (K0 p)) -> (n <= length (K0 p))%nat -> clean p -> ran p (bump_any_times n p) (skipn n (K0 p)) /\ clean (bump_any_times n p).
Proof.
  induction n as [|n IH]; intros p HF HL HC; [split; [apply ran_refl|exact HC]|]. cbn [bump_any_times]. destruct (K0 p) as [|[k j] r] eqn:EK; [cbn in HL; lia|]. cbn [firstn skipn length] in *. inversion HF as [|? ? Hk HF']; subst.
  unfold bump_any. rewrite nth_kind_sig, EK. change (knth 0 ((k, j) :: r)) with k. cbn [fst] in Hk. assert (NE : kind_eqb k EOF = false) by (destruct (lc_cases _ Hk) as [-> | ->]; reflexivity). rewrite NE.
  destruct (bump_ran k 1 p) as [R1 C1]. rewrite EK in R1. cbn [skipn] in R1. destruct (IH (do_bump k 1 p)) as [R2 C2]; rewrite ?(proj1 (proj2 R1)); auto; [lia|]. rewrite (proj1 (proj2 R1)) in R2. split; [eapply ran_trans; eauto|exact C2].
Qed.
Lemma dlen_gaps G : gaps G -> forall x R n, is_lc (fst x) = false -> dlenK (G ++ x :: R) = Some n -> khd (G ++ x :: R) = COMMENT -> (n <= length G)%nat.
Proof.
  induction 1 as [|j G H IH|j j' G H IH]; intros x R n HX HD HK; cbn [app] in *.
  - destruct x as [k j]. rewrite khd_cons in HK. subst k. discriminate.
  - discriminate.
  - rewrite dlenK_eq in HD. change (knth 1 ((COMMENT, j) :: (LINE_BREAK, j') :: G ++ x :: R)) with LINE_BREAK in HD. change (negb (ts_contains TS_LINE_END LINE_BREAK)) with false in HD. cbv iota in HD.
    change (knth 2 ((COMMENT, j) :: (LINE_BREAK, j') :: G ++ x :: R)) with (khd (G ++ x :: R)) in HD. cbn [tl] in HD. destruct (ts_contains _ _); [injection HD as <-; cbn; lia|].
    destruct (kind_eqb (khd (G ++ x :: R)) COMMENT) eqn:E; [|discriminate]. cbn [negb] in HD. destruct (dlenK (G ++ x :: R)) as [m|] eqn:ED; [|discriminate]. injection HD as <-.
    apply kind_eqb_eq in E. specialize (IH x R m HX ED E). cbn [length Nat.add]. lia.
Qed.
Lemma drop_breaks0 G : gaps G -> forall x R, is_lc (fst x) = false -> exists L G', G = L ++ G' /\ dropk (fun k => kind_eqb k LINE_BREAK) (G ++ x :: R) = G' ++ x :: R /\ khd (G' ++ x :: R) <> LINE_BREAK.
Proof.
  induction 1 as [|j G H IH|j j' G H IH]; intros x R HX; cbn [app].
  - exists [], []. destruct x as [k j]. cbn [fst] in HX. assert (k <> LINE_BREAK) by (intros ->; discriminate). split; [reflexivity|]. split; [|exact H]. apply (dropk_stop (fun k => kind_eqb k LINE_BREAK)). apply kind_eqb_neq. exact H.
  - destruct (IH x R HX) as (L & G' & -> & E & HN). exists ((LINE_BREAK, j) :: L), G'. split; [reflexivity|]. rewrite dropk_cons. split; [exact E|exact HN].
  - exists [], ((COMMENT, j) :: (LINE_BREAK, j') :: G). split; [reflexivity|]. rewrite dropk_cons. split; [reflexivity|discriminate].
Qed.
(** The same for gaps with a comment that ends the text *)
Definition gap (x : kind * bool) (R G : sks) : Prop := gaps G \/ fst x = EOF /\ R = [] /\ exists G0 j, gaps G0 /\ G = G0 ++ [(COMMENT, j)].
Lemma snoc_suffix {A} (L G : list A) G0 a : L ++ G = G0 ++ [a] -> G = [] \/ exists G1, G = G1 ++ [a] /\ G0 = L ++ G1.
Proof.
  intros E. destruct (rev G) as [|b r] eqn:ER; [left; rewrite <- (rev_involutive G), ER; reflexivity|right]. assert (EG : G = rev r ++ [b]) by (rewrite <- (rev_involutive G), ER; reflexivity).
  rewrite EG, app_assoc in E. apply app_inj_tail in E as [<- ->]. exists (rev r). auto.
Qed.
Lemma gap_suffix x R L G : gap x R (L ++ G) -> gap x R G.
Proof.
  intros [H|(HX & HR & G0 & j & H & E)]; [left; eapply gaps_suffix; eauto|]. destruct (snoc_suffix _ _ _ _ E) as [-> |(G1 & -> & ->)]; [left; constructor|]. right. split; [exact HX|]. split; [exact HR|]. exists G1, j. split; [eapply gaps_suffix; eauto|reflexivity].
Qed.
Lemma gap_lc x R G : gap x R G -> Forall (fun x => is_lc (fst x) = true) G.
Proof. intros [H|(_ & _ & G0 & j & H & ->)]; [apply gaps_lc; exact H|]. apply Forall_app. split; [apply gaps_lc; exact H|repeat constructor]. Qed.
Lemma drop_breaks G : forall x R, gap x R G -> is_lc (fst x) = false -> exists L G', G = L ++ G' /\ dropk (fun k => kind_eqb k LINE_BREAK) (G ++ x :: R) = G' ++ x :: R /\ khd (G' ++ x :: R) <> LINE_BREAK.
Proof.
  intros x R [H|(_ & _ & G0 & j & H & ->)] HX; [apply drop_breaks0; auto|]. clear HX. induction H as [|j0 G H IH|j0 j' G H IH].
  - exists [], [(COMMENT, j)]. cbn [app]. rewrite dropk_cons. split; [reflexivity|]. split; [reflexivity|discriminate].
  - destruct IH as (L & G' & E & ED & HN). exists ((LINE_BREAK, j0) :: L), G'. cbn [app]. rewrite E, dropk_cons. split; [reflexivity|]. rewrite <- E. split; [exact ED|exact HN].
  - exists [], ((COMMENT, j0) :: (LINE_BREAK, j') :: G ++ [(COMMENT, j)]). cbn [app]. rewrite dropk_cons. split; [reflexivity|]. split; [reflexivity|discriminate].
Qed.
Lemma dlen_last G j x : gaps G -> fst x = EOF -> khd (G ++ [(COMMENT, j)]) = COMMENT -> exists n, dlenK (G ++ (COMMENT, j) :: [x]) = Some n /\ (n <= length (G ++ [(COMMENT, j)]))%nat.
Proof.
  intros H HX. destruct x as [kx jx]. cbn [fst] in HX. subst kx. induction H as [|j0 G H IH|j0 j' G H IH]; intros HK.
  - exists 1%nat. split; [reflexivity|]. cbn. lia.
  - discriminate HK.
  - cbn [app]. rewrite dlenK_eq. change (knth 1 ((COMMENT, j0) :: (LINE_BREAK, j') :: G ++ [(COMMENT, j); (EOF, jx)])) with LINE_BREAK. change (negb (ts_contains TS_LINE_END LINE_BREAK)) with false. cbv iota.
    change (knth 2 ((COMMENT, j0) :: (LINE_BREAK, j') :: G ++ [(COMMENT, j); (EOF, jx)])) with (khd (G ++ [(COMMENT, j); (EOF, jx)])). cbn [tl]. destruct (ts_contains TS_DANGLING_COMMENT_GROUP_END (khd (G ++ [(COMMENT, j); (EOF, jx)]))) eqn:E1.
    + exists 1%nat. split; [reflexivity|]. cbn. lia.
    + assert (HG : khd (G ++ [(COMMENT, j); (EOF, jx)]) = COMMENT /\ khd (G ++ [(COMMENT, j)]) = COMMENT) by (destruct H; [split; reflexivity|discriminate E1|split; reflexivity]). destruct HG as [HG HG'].
      rewrite HG. change (kind_eqb COMMENT COMMENT) with true. cbn [negb]. destruct (IH HG') as (n & -> & HN). exists (2 + n)%nat. split; [reflexivity|]. cbn [length]. lia.
Qed.
Lemma dlen_gap G : forall x R n, gap x R G -> is_lc (fst x) = false -> dlenK (G ++ x :: R) = Some n -> khd (G ++ x :: R) = COMMENT -> (n <= length G)%nat.
Proof.
  intros x R n [H|(HX & -> & G0 & j & H & ->)] HL HD HK; [eapply dlen_gaps; eauto|]. rewrite <- app_assoc in HD, HK. cbn [app] in HD, HK.
  assert (HK' : khd (G0 ++ [(COMMENT, j)]) = COMMENT) by (destruct H; [reflexivity|discriminate HK|reflexivity]). destruct (dlen_last G0 j x H HX HK') as (m & EM & HM). congruence.
Qed.
(** and such a comment is taken as a group of its own *)
Lemma settled_last G j x : gaps G -> fst x = EOF -> ~ settled ((G ++ [(COMMENT, j)]) ++ [x]).
Proof.
  intros H HX [S1 S2]. rewrite <- app_assoc in S1, S2. cbn [app] in S1, S2. assert (HK : khd (G ++ [(COMMENT, j)]) = COMMENT /\ khd (G ++ [(COMMENT, j); x]) = COMMENT) by (destruct H; [split; reflexivity|contradiction S1; reflexivity|split; reflexivity]).
  destruct HK as [HK HK']. destruct (dlen_last G j x H HX HK) as (n & EN & _). rewrite (S2 HK') in EN. discriminate.
Qed.
Lemma peek_last G j x : gaps G -> fst x = EOF -> knth (peekK ((G ++ [(COMMENT, j)]) ++ [x])) ((G ++ [(COMMENT, j)]) ++ [x]) = COMMENT.
Proof.
  intros H HX. destruct x as [kx jx]. cbn [fst] in HX. subst kx. rewrite <- app_assoc. cbn [app]. induction H as [|j0 G H IH|j0 j' G H IH]; cbn [app].
  - reflexivity.
  - cbn [peekK]. exact IH.
  - cbn [peekK]. destruct (kind_eqb _ _); [reflexivity|exact IH].
Qed.
Lemma dangling_ran G x R p p' : gap x R G -> is_lc (fst x) = false -> K0 p = G ++ x :: R -> clean p -> dangling_comment_groups p = Done p' ->
  exists L G', G = L ++ G' /\ ran p p' (G' ++ x :: R) /\ settled (G' ++ x :: R) /\ clean p'.
Proof.
  intros HG HX HK HC. unfold dangling_comment_groups, loop. generalize (S (length (p_rest p))). intros fuel. revert G HG p HK HC. induction fuel as [|fuel IH]; intros G HG p HK HC H; [discriminate|]. cbn [loop_] in H.
  destruct (while_eat LINE_BREAK p) as [q1| | |] eqn:E1; cbn [bind] in H; try discriminate. destruct (while_eat_ran LINE_BREAK p q1 eq_refl HC E1) as [R1 C1]. rewrite HK in R1.
  destruct (drop_breaks G x R HG HX) as (L & G' & -> & ED & HN). rewrite ED in R1. pose proof (gap_suffix _ _ _ _ HG) as HG'.
  rewrite dangling_ok in H. cbn [bind] in H. rewrite (proj1 (proj2 R1)) in H. destruct (kind_eqb (khd (G' ++ x :: R)) COMMENT) eqn:EC; [apply kind_eqb_eq in EC; destruct (dlenK (G' ++ x :: R)) as [n|] eqn:EN|].
  - cbn [start bind] in H. pose proof (dlen_gap G' x R n HG' HX EN EC) as HL. set (qs := push_event (EStart TOMBSTONE) q1) in *. assert (KS : K0 qs = G' ++ x :: R) by exact (proj1 (proj2 R1)).
    destruct (bump_times_ran n qs) as [R2 C2]; [| |exact C1|].
    { rewrite KS. rewrite firstn_app. replace (n - length G')%nat with 0%nat by lia. cbn [firstn]. rewrite app_nil_r. pose proof (gap_lc _ _ _ HG') as HF. rewrite <- (firstn_skipn n G') in HF. apply Forall_app in HF. apply HF. }
    { rewrite KS, app_length. lia. }
    rewrite KS, skipn_app in R2. replace (n - length G')%nat with 0%nat in R2 by lia. cbn [skipn] in R2.
    destruct (complete _ DANGLING_COMMENT_GROUP _) as [q2| | |] eqn:EM; cbn [bind again] in H; try discriminate.
    pose proof (node_ran _ _ _ _ _ _ R2 EM) as R3. destruct (complete_ran _ _ _ _ EM) as [_ C3]. specialize (C3 C2).
    assert (HG2 : gap x R (skipn n G')). { apply (gap_suffix x R (firstn n G')). rewrite firstn_skipn. exact HG'. }
    destruct (IH _ HG2 q2 (proj1 (proj2 R3)) C3 H) as (L2 & G2 & EL & R4 & S4 & C4). exists (L ++ firstn n G' ++ L2), G2. split; [|split; [|split; [exact S4|exact C4]]].
    + rewrite <- (firstn_skipn n G') at 1. rewrite EL. rewrite <- !app_assoc. reflexivity.
    + eapply ran_trans; [exact R1|]. eapply ran_trans; [exact R3|exact R4].
  - cbn [break] in H. injection H as <-. exists L, G'. split; [reflexivity|]. split; [exact R1|]. split; [|exact C1]. split; [exact HN|]. intros _. exact EN.
  - cbn [break] in H. injection H as <-. exists L, G'. split; [reflexivity|]. split; [exact R1|]. split; [|exact C1]. split; [exact HN|]. intros E. rewrite E in EC. discriminate.
Qed.

(** * Values *)
Definition takes (n : nat) (X : sks -> Prop) (f : pst -> res pst) : Prop := forall V, X V -> forall p p' G T R, gaps G -> atail T -> khd R <> COMMENT ->
  K0 p = G ++ V ++ T ++ R -> knth (peekK (K0 p)) (K0 p) = khd V -> (p_depth p + n <= MAX_RECURSION_DEPTH)%nat -> clean p -> f p = Done p' -> ran p p' R /\ clean p'.
Lemma literal_ran k j G T R p p' : literal_kind k = true -> gaps G -> atail T -> khd R <> COMMENT -> K0 p = G ++ (k, j) :: T ++ R -> clean p -> parse_literal_value p = Done p' -> ran p p' R /\ clean p'.
Proof.
  intros HL HG HT HR HK HC H. destruct (literal_plain _ HL) as (HP & _ & _ & HI & _). unfold parse_literal_value in H. cbn [start] in H. destruct (start_ran p) as [_ C0]. specialize (C0 HC). binds H.
  destruct (leading_ran _ _ C0 E) as [R1 C1]. change (K0 (push_event (EStart TOMBSTONE) p)) with (K0 p) in R1. rewrite HK in R1. rewrite (drop_gaps G (k, j)) in R1; [|apply gaps_lc; exact HG|exact HI].
  unfold p_current in H. rewrite nth_kind_sig, (proj1 (proj2 R1)) in H. change (knth 0 ((k, j) :: T ++ R)) with k in H. binds H. unfold p_bump in E0. destruct (eat k q) as [b q'] eqn:EE.
  destruct (eat_ran k j (T ++ R) q b q' HP (proj1 (proj2 R1)) EE) as (-> & R2 & C2). injection E0 as <-. binds H. destruct (trailing_ran T R _ _ C2 HT HR (proj1 (proj2 R2)) E0) as [R3 C3].
  destruct (complete_ran _ _ _ _ H) as [_ C4]. split; [|exact (C4 C3)]. apply (node_ran p _ _ _ _ R (ran_trans _ _ _ _ _ R1 (ran_trans _ _ _ _ _ R2 R3)) H).
Qed.
Lemma value_takes n v : takes n (acore n) v -> takes n (aitem n false) v.
Proof. intros H V HV. inversion HV; subst. apply H. assumption. Qed.
Lemma key_value_takes n v : takes n (acore n) v -> takes n (aitem n true) (key_value v).
Proof.
  intros Hv V HV p p' G T R HG HT HR HK HP HD HC H. inversion HV as [|? Ks j K HKs HA]; subst. rewrite <- !app_assoc in HK. cbn [app] in HK.
  unfold key_value in H. cbn [start] in H. destruct (start_ran p) as [_ C0]. specialize (C0 HC). binds H. destruct (leading_ran _ _ C0 E) as [R1 C1]. change (K0 (push_event (EStart TOMBSTONE) p)) with (K0 p) in R1. rewrite HK in R1.
  assert (ED : dropk is_lc (G ++ Ks ++ (EQUAL, j) :: K ++ T ++ R) = Ks ++ (EQUAL, j) :: K ++ T ++ R).
  { destruct (akeys_head _ HKs) as (x & X & -> & _ & HX). cbn [app]. apply drop_gaps; [apply gaps_lc; exact HG|exact HX]. }
  rewrite ED in R1. binds H. pose proof (keys_ran Ks (EQUAL, j) (K ++ T ++ R) q q0 C1 HKs ltac:(discriminate) (proj1 (proj2 R1)) E0) as R2.
  destruct (eat EQUAL q0) as [eq q2] eqn:EE. destruct (eat_ran EQUAL j (K ++ T ++ R) q0 eq q2 eq_refl (proj1 (proj2 R2)) EE) as (-> & R3 & C3). cbn [negb bind] in H.
  destruct (acore_head _ _ HA) as (x & X & EX & X1 & X2 & X3). assert (HH : khd (K0 q2) = fst x) by (rewrite (proj1 (proj2 R3)), EX; destruct x; reflexivity).
  rewrite at_ts_sig, HH in H. assert (L1 : ts_contains TS_LINE_END (fst x) = false) by (destruct (fst x); try discriminate X1; reflexivity). rewrite L1 in H.
  unfold at_ in H. rewrite nth_at_sig in H by reflexivity. fold (khd (K0 q2)) in H. rewrite HH in H. assert (L2 : kind_eqb (fst x) COMMENT = false) by (destruct (fst x); try discriminate X1; reflexivity). rewrite L2 in H.
  binds H. destruct (Hv K HA q2 q1 [] T R) as [R4 C4]; auto.
  - constructor.
  - exact (proj1 (proj2 R3)).
  - rewrite (proj1 (proj2 R3)), EX. cbn [app]. rewrite peekK_zero; [destruct x; reflexivity| |]; destruct x as [kx jx]; cbn [fst] in *; rewrite khd_cons; intros ->; discriminate.
  - destruct R3 as (_ & _ & ->), R2 as (_ & _ & ->), R1 as (_ & _ & ->). exact HD.
  - binds H. destruct (trailing_ran [] R _ _ C4 at_none HR (proj1 (proj2 R4)) E2) as [R5 C5]. destruct (complete_ran _ _ _ _ H) as [_ C6]. split; [|exact (C6 C5)].
    apply (node_ran p _ _ _ _ R (ran_trans _ _ _ _ _ R1 (ran_trans _ _ _ _ _ R2 (ran_trans _ _ _ _ _ R3 (ran_trans _ _ _ _ _ R4 R5)))) H).
Qed.
(** What the look-ahead finds at the head of a body *)
Lemma body_peek n table B c R : abody n table B -> fst c = close_kind table ->
  let k := knth (peekK (B ++ c :: R)) (B ++ c :: R) in
  k <> COMMA /\ (ts_contains (firsts table) k = true -> exists G I T C B', B = G ++ I ++ T ++ C ++ B' /\ gaps G /\ aitem n table I /\ atail T /\ acomma C /\ khd (C ++ B') <> COMMENT /\ khd B' <> COMMENT /\ abody n table B' /\ k = khd I).
Proof.
  intros HB HC k. assert (LC : is_lc (fst c) = false) by (rewrite HC; destruct table; reflexivity). destruct HB as [n table G HG|n table G I T C B HG HI HT HCm N1 N2 HB].
  - destruct (peek_kind G c R HG LC) as [E|E]; unfold k; rewrite E; [rewrite HC|]; split; try (destruct table; discriminate); destruct table; discriminate.
  - destruct (aitem_head _ _ _ HI) as (x & X & EX & X1 & X2).
    assert (EK : (G ++ I ++ T ++ C ++ B) ++ c :: R = G ++ x :: X ++ T ++ C ++ B ++ c :: R) by (rewrite EX, <- !app_assoc; reflexivity).
    unfold k. rewrite EK. destruct (peek_kind G x (X ++ T ++ C ++ B ++ c :: R) HG X2) as [E|E]; rewrite E.
    + destruct (firsts_ends _ _ X1) as (_ & F1 & _). split; [exact F1|]. intros _. exists G, I, T, C, B. repeat (split; [first [reflexivity|assumption]|]). rewrite EX. destruct x. reflexivity.
    + split; [discriminate|]. destruct table; discriminate.
Qed.
Lemma group_loop_ok n table item : takes n (aitem n table) item -> forall fuel B c R p p', abody n table B -> fst c = close_kind table -> K0 p = B ++ c :: R ->
  ts_contains (firsts table) (knth (peekK (K0 p)) (K0 p)) = true -> (p_depth p + n <= MAX_RECURSION_DEPTH)%nat -> clean p ->
  loop_ fuel (fun p =>
    if is_group_separator p then break p else
    do p <- item p;
    do n <- peek_leading_comments p;
    let next p :=
      do n <- peek_leading_comments p;
      if negb (nth_at_ts n (firsts table) p) then break p else again p in
    if nth_at n COMMA p then do p <- comma p; next p
    else if nth_at_ts n (ends table) p then break p
    else next p) p = Done p' -> exists B', ran p p' (B' ++ c :: R) /\ abody n table B' /\ clean p'.
Proof.
  intros HI. induction fuel as [|fuel IH]; intros B c R p p' HB HC HK HP HD HCl H; [discriminate|]. cbn [loop_] in H. destruct (is_group_separator p).
  { cbn [break] in H. injection H as <-. exists B. split; [rewrite <- HK; apply ran_refl|auto]. }
  assert (NC : fst c <> COMMENT) by (rewrite HC; destruct table; discriminate).
  rewrite HK in HP. destruct (body_peek n table B c R HB HC) as [_ HX]. destruct (HX HP) as (G & I & T & C & B' & -> & HG & HIt & HT & HCm & N1 & N2 & HB' & EK).
  destruct (item p) as [q| | |] eqn:EI; cbn [bind] in H; try discriminate. rewrite <- !app_assoc in HK, EK.
  assert (NB : khd (B' ++ c :: R) <> COMMENT). { destruct B'; [destruct c; exact NC|exact N2]. }
  assert (NCB : khd (C ++ B' ++ c :: R) <> COMMENT). { destruct C; [exact NB|exact N1]. }
  destruct (HI I HIt p q G T (C ++ B' ++ c :: R) HG HT NCB HK ltac:(rewrite HK; exact EK) HD HCl EI) as [R1 C1]. rewrite peek_ok in H. cbn [bind] in H. rewrite (proj1 (proj2 R1)) in H.
  assert (NEXT : forall q2, ran p q2 (B' ++ c :: R) -> clean q2 ->
    match (do n0 <- peek_leading_comments q2; if negb (nth_at_ts n0 (firsts table) q2) then break q2 else again q2) with Done (true, p'0) => loop_ fuel (fun p => if is_group_separator p then break p else do p0 <- item p; do n0 <- peek_leading_comments p0; let next p1 := do n1 <- peek_leading_comments p1; if negb (nth_at_ts n1 (firsts table) p1) then break p1 else again p1 in
      if nth_at n0 COMMA p0 then do p1 <- comma p0; next p1 else if nth_at_ts n0 (ends table) p0 then break p0 else next p0) p'0 | Done (false, p'0) => Done p'0 | Panic => Panic | Diverge => Diverge | Deep => Deep end = Done p' ->
    exists B', ran p p' (B' ++ c :: R) /\ abody n table B' /\ clean p').
  { intros q2 R2 C2 HN. rewrite peek_ok in HN. cbn [bind] in HN. rewrite nth_at_ts_sig in HN. destruct (ts_contains (firsts table) (knth (peekK (K0 q2)) (K0 q2))) eqn:EF; cbn [negb again break] in HN.
    - destruct (IH B' c R q2 p' HB' HC (proj1 (proj2 R2)) EF) as (B2 & R3 & A3 & C3); auto; [destruct R2 as (_ & _ & ->); exact HD|]. exists B2. split; [eapply ran_trans; eauto|auto].
    - injection HN as <-. exists B'. auto. }
  rewrite nth_at_sig in H by reflexivity. rewrite (proj1 (proj2 R1)) in H. destruct HCm as [|S j T2 HS HT2].
  - cbn [app] in *. destruct (body_peek n table B' c R HB' HC) as [NX _]. rewrite (proj2 (kind_eqb_neq _ _) NX) in H. destruct (nth_at_ts _ (ends table) q).
    + cbn [break] in H. injection H as <-. exists B'. auto.
    + apply (NEXT q R1 C1). rewrite peek_ok. cbn [bind]. rewrite (proj1 (proj2 R1)). exact H.
  - rewrite <- !app_assoc in H, R1. cbn [app] in H, R1. rewrite (peek_soft S HS (COMMA, j)) in H by reflexivity. rewrite knth_length in H. change (kind_eqb (fst (COMMA, j)) COMMA) with true in H. cbv iota in H.
    destruct (comma q) as [q2| | |] eqn:EC; cbn [bind] in H; try discriminate. destruct (comma_ran S j T2 (B' ++ c :: R) q q2 C1 HS HT2 NB (proj1 (proj2 R1)) EC) as [R2 C2].
    apply (NEXT q2 (ran_trans _ _ _ _ _ R1 R2) C2 H).
Qed.
Definition group_of (table : bool) (v : pst -> res pst) : pst -> res pst := if table then key_value_with_comma_group v else value_with_comma_group v.
Lemma group_ok n table v : takes n (acore n) v -> forall B c R p p', abody n table B -> fst c = close_kind table -> K0 p = B ++ c :: R ->
  ts_contains (firsts table) (knth (peekK (K0 p)) (K0 p)) = true -> (p_depth p + n <= MAX_RECURSION_DEPTH)%nat -> clean p -> group_of table v p = Done p' ->
  exists B', ran p p' (B' ++ c :: R) /\ abody n table B' /\ clean p'.
Proof.
  intros Hv B c R p p' HB HC HK HP HD HCl H.
  assert (HX : exists q m k, loop_ (S (length (p_rest p))) (fun p =>
    if is_group_separator p then break p else
    do p <- (if table then key_value v else v) p;
    do n <- peek_leading_comments p;
    let next p :=
      do n <- peek_leading_comments p;
      if negb (nth_at_ts n (firsts table) p) then break p else again p in
    if nth_at n COMMA p then do p <- comma p; next p
    else if nth_at_ts n (ends table) p then break p
    else next p) (push_event (EStart TOMBSTONE) p) = Done q /\ complete m k q = Done p').
  { destruct table; cbn [group_of] in H; [unfold key_value_with_comma_group in H|unfold value_with_comma_group in H]; cbn [start] in H; binds H; exists q; eexists _, _; (split; [exact E|exact H]). }
  destruct HX as (q & m & k & E & HM).
  assert (HI : takes n (aitem n table) (if table then key_value v else v)) by (destruct table; [apply key_value_takes|apply value_takes]; exact Hv).
  assert (C0 : clean (push_event (EStart TOMBSTONE) p)) by exact HCl.
  destruct (group_loop_ok n table _ HI _ B c R (push_event (EStart TOMBSTONE) p) _ HB HC HK HP HD C0 E) as (B' & R1 & A1 & C1).
  exists B'. split; [exact (node_ran _ _ _ _ _ _ R1 HM)|]. split; [exact A1|]. destruct (complete_ran _ _ _ _ HM) as [_ C2]. exact (C2 C1).
Qed.
Lemma body_settled n table B c R : abody n table B -> fst c = close_kind table -> settled (B ++ c :: R) ->
  (B = [] /\ peekK (B ++ c :: R) = 0%nat) \/ ts_contains (firsts table) (knth (peekK (B ++ c :: R)) (B ++ c :: R)) = true.
Proof.
  intros HB HC HS. destruct HB as [n table G HG|n table G I T C B HG HI HT HCm N1 N2 HB].
  - assert (LC : is_lc (fst c) = false) by (rewrite HC; destruct table; reflexivity). destruct (settled_gaps G HG c R LC HS) as [EP HE]. rewrite HC in HE. left. assert (G = []) as -> by (apply HE; destruct table; reflexivity). auto.
  - destruct (aitem_head _ _ _ HI) as (x & X & -> & X1 & X2). rewrite <- !app_assoc in *. cbn [app] in *. destruct (settled_gaps G HG x _ X2 HS) as [EP _]. right. rewrite EP, knth_length. exact X1.
Qed.
Lemma body_split n table B c R : abody n table B -> fst c = close_kind table -> exists G x R', B ++ c :: R = G ++ x :: R' /\ gaps G /\ is_lc (fst x) = false.
Proof.
  intros HB HC. destruct HB as [n table G HG|n table G I T C B HG HI HT HCm N1 N2 HB].
  - exists G, c, R. split; [reflexivity|]. split; [exact HG|]. rewrite HC. destruct table; reflexivity.
  - destruct (aitem_head _ _ _ HI) as (x & X & -> & X1 & X2). exists G, x, (X ++ T ++ C ++ B ++ c :: R). rewrite <- !app_assoc. auto.
Qed.
(** Line breaks and dangling comments at the head of a body *)
Lemma dangle_ran (G : sks) x R p q1 q2 : gap x R G -> is_lc (fst x) = false -> K0 p = G ++ x :: R -> clean p -> while_eat LINE_BREAK p = Done q1 -> dangling_comment_groups q1 = Done q2 ->
  exists L G', G = L ++ G' /\ ran p q2 (G' ++ x :: R) /\ settled (G' ++ x :: R) /\ clean q2.
Proof.
  intros HG HX HK HC E1 E2. destruct (while_eat_ran LINE_BREAK p q1 eq_refl HC E1) as [R1 C1]. rewrite HK in R1. destruct (drop_breaks G x R HG HX) as (L & G' & -> & ED & HN). rewrite ED in R1.
  destruct (dangling_ran G' x R q1 q2 (gap_suffix _ _ _ _ HG) HX (proj1 (proj2 R1)) C1 E2) as (L2 & G2 & -> & R2 & S2 & C2). exists (L ++ L2), G2. rewrite <- app_assoc. split; [reflexivity|]. split; [eapply ran_trans; eauto|auto].
Qed.
Lemma body_loop_ok n table v : takes n (acore n) v -> forall fuel B c R p p', abody n table B -> fst c = close_kind table -> K0 p = B ++ c :: R -> (p_depth p + n <= MAX_RECURSION_DEPTH)%nat -> clean p ->
  loop_ fuel (fun p =>
    do p <- while_eat LINE_BREAK p;
    do p <- dangling_comment_groups p;
    do n <- peek_leading_comments p;
    if nth_at_ts n (ends table) p then break p
    else do p <- group_of table v p; again p) p = Done p' -> ran p p' (c :: R) /\ clean p'.
Proof.
  intros Hv. induction fuel as [|fuel IH]; intros B c R p p' HB HC HK HD HCl H; [discriminate|]. cbn [loop_] in H.
  destruct (while_eat LINE_BREAK p) as [q1| | |] eqn:E1; cbn [bind] in H; try discriminate. destruct (dangling_comment_groups q1) as [q2| | |] eqn:E2; cbn [bind] in H; try discriminate.
  destruct (body_split n table B c R HB HC) as (G & x & R' & EB & HG & HX). rewrite EB in HK. destruct (dangle_ran G x R' p q1 q2 (or_introl HG) HX HK HCl E1 E2) as (L & G' & EG & R1 & S1 & C1).
  assert (LL : Forall (fun x => is_lc (fst x) = true) L). { pose proof (gaps_lc _ HG) as HF. rewrite EG in HF. apply Forall_app in HF. apply HF. }
  assert (LC : is_lc (fst c) = false) by (rewrite HC; destruct table; reflexivity).
  destruct (abody_suffix n table B L (G' ++ x :: R') c R HB LL LC) as (B' & EB' & HB'); [rewrite EB, EG, app_assoc; reflexivity|]. rewrite EB' in R1, S1.
  rewrite peek_ok in H. cbn [bind] in H. rewrite nth_at_ts_sig in H. rewrite (proj1 (proj2 R1)) in H. destruct (body_settled n table B' c R HB' HC S1) as [[-> EP]|EP].
  - cbn [app] in *. rewrite EP in H. destruct c as [kc jc]. cbn [fst] in HC. change (knth 0 ((kc, jc) :: R)) with kc in H. rewrite HC in H. assert (EE : ts_contains (ends table) (close_kind table) = true) by (destruct table; reflexivity).
    rewrite EE in H. cbn [break] in H. injection H as <-. auto.
  - destruct (firsts_ends _ _ EP) as (EE & _). rewrite EE in H. destruct (group_of table v q2) as [q3| | |] eqn:E3; cbn [bind again] in H; try discriminate.
    assert (HD2 : (p_depth q2 + n <= MAX_RECURSION_DEPTH)%nat) by (destruct R1 as (_ & _ & ->); exact HD).
    destruct (group_ok n table v Hv B' c R q2 q3 HB' HC (proj1 (proj2 R1))) as (B2 & R2 & HB2 & C2); auto; [rewrite (proj1 (proj2 R1)); exact EP|].
    destruct (IH B2 c R q3 p' HB2 HC (proj1 (proj2 R2))) as [R3 C3]; auto; [destruct R2 as (_ & _ & ->); exact HD2|]. split; [|exact C3]. eapply ran_trans; [exact R1|]. eapply ran_trans; [exact R2|exact R3].
Qed.
Lemma bracketed_ok n table v : takes n (acore n) v -> forall e G j T0 B j' T R p p', gaps G -> atail T0 -> khd B <> COMMENT -> abody n table B -> atail T -> khd R <> COMMENT ->
  K0 p = G ++ (open_kind table, j) :: T0 ++ B ++ (close_kind table, j') :: T ++ R -> (p_depth p + n <= MAX_RECURSION_DEPTH)%nat -> clean p ->
  bracketed (open_kind table) (close_kind table) (ends table) (group_of table v) e (box_kind table) p = Done p' -> ran p p' R /\ clean p'.
Proof.
  intros Hv e G j T0 B j' T R p p' HG HT0 NB HB HT HR HK HD HC H. unfold bracketed in H. cbn [start] in H. destruct (start_ran p) as [_ C0]. specialize (C0 HC). binds H.
  destruct (leading_ran _ _ C0 E) as [R1 C1]. change (K0 (push_event (EStart TOMBSTONE) p)) with (K0 p) in R1. rewrite HK in R1. rewrite (drop_gaps G (open_kind table, j)) in R1; [|apply gaps_lc; exact HG|destruct table; reflexivity].
  destruct (at_ (open_kind table) q); cbn [negb] in H; [|discriminate]. destruct (eat (open_kind table) q) as [b q2] eqn:EE.
  destruct (eat_ran (open_kind table) j _ q b q2 ltac:(destruct table; reflexivity) (proj1 (proj2 R1)) EE) as (_ & R2 & C2). binds H. rename q0 into q3.
  assert (NB2 : khd (B ++ (close_kind table, j') :: T ++ R) <> COMMENT). { destruct B; [cbn [app]; rewrite khd_cons; destruct table; discriminate|exact NB]. }
  destruct (trailing_ran T0 _ _ _ C2 HT0 NB2 (proj1 (proj2 R2)) E0) as [R3 C3]. binds H. rename q0 into q4.
  assert (D3 : p_depth q3 = p_depth p). { destruct R3 as (_ & _ & ->), R2 as (_ & _ & ->), R1 as (_ & _ & ->). reflexivity. }
  unfold loop in E1. destruct (body_loop_ok n table v Hv _ B (close_kind table, j') (T ++ R) q3 q4 HB eq_refl (proj1 (proj2 R3)) ltac:(rewrite D3; exact HD) C3 E1) as [R4 C4].
  destruct (eat (close_kind table) q4) as [closed q5] eqn:EE2. destruct (eat_ran (close_kind table) j' (T ++ R) q4 closed q5 ltac:(destruct table; reflexivity) (proj1 (proj2 R4)) EE2) as (-> & R5 & C5). cbn [negb bind] in H.
  binds H. destruct (trailing_ran T R _ _ C5 HT HR (proj1 (proj2 R5)) E2) as [R6 C6]. destruct (complete_ran _ _ _ _ H) as [_ C7]. split; [|exact (C7 C6)].
  apply (node_ran p _ _ _ _ R (ran_trans _ _ _ _ _ R1 (ran_trans _ _ _ _ _ R2 (ran_trans _ _ _ _ _ R3 (ran_trans _ _ _ _ _ R4 (ran_trans _ _ _ _ _ R5 R6))))) H).
Qed.
Lemma nested_ok n inner p p' R : (p_depth p + S n <= MAX_RECURSION_DEPTH)%nat -> (forall q q', q = enter_nested p -> inner q = Done q' -> ran q q' R /\ clean q') -> parse_nested inner p = Done p' -> ran p p' R /\ clean p'.
Proof.
  intros HD HI H. unfold parse_nested in H. assert (E : Nat.leb MAX_RECURSION_DEPTH (p_depth p) = false) by (apply Nat.leb_gt; lia). rewrite E in H.
  destruct (inner (enter_nested p)) as [q| | |] eqn:EI; cbn [bind] in H; try discriminate. destruct (HI _ _ eq_refl EI) as [(A1 & A2 & A3) C]. unfold exit_nested in H. destruct (p_depth q) as [|d] eqn:ED; [discriminate|]. injection H as <-.
  split; [|exact C]. split; [exact A1|]. split; [exact A2|]. cbn [p_depth]. cbn in A3. lia.
Qed.
Lemma value_ok : forall n stack, takes n (acore n) (value stack).
Proof.
  induction n as [|n IH]; intros stack V HV p p' G T R HG HT HR HK HP HD HC H; (destruct stack as [|stack]; [discriminate|]); cbn [value] in H; rewrite peek_ok in H; cbn [bind] in H; rewrite nth_kind_sig, HP in H.
  - inversion HV as [? k j HL|]; subst. change (khd [(k, j)]) with k in H. assert (HX : parse_literal_value p = Done p') by (destruct k; try discriminate HL; exact H). exact (literal_ran k j G T R p p' HL HG HT HR HK HC HX).
  - inversion HV as [? k j HL|? table j T0 B j' HT0 NB HB]; subst.
    + change (khd [(k, j)]) with k in H. assert (HX : parse_literal_value p = Done p') by (destruct k; try discriminate HL; exact H). exact (literal_ran k j G T R p p' HL HG HT HR HK HC HX).
    + rewrite khd_cons in H. cbn [app] in HK. rewrite <- !app_assoc in HK. cbn [app] in HK.
      destruct table; cbn [open_kind] in H; (eapply (nested_ok n); [exact HD| |exact H]); intros q q' -> EI.
      * eapply (bracketed_ok n true (value stack) (IH stack)) with (G := G) (T0 := T0) (B := B) (T := T) (R := R); eauto; try (exact HK); cbn [p_depth enter_nested]; lia.
      * eapply (bracketed_ok n false (value stack) (IH stack)) with (G := G) (T0 := T0) (B := B) (T := T) (R := R); eauto; try (exact HK); cbn [p_depth enter_nested]; lia.
Qed.

(** * The lines of a section *)
Definition header_or_end (c : kind * bool) : Prop := fst c = BRACKET_START \/ fst c = EOF.
Lemma header_lc c : header_or_end c -> is_lc (fst c) = false.
Proof. intros [-> | ->]; reflexivity. Qed.
(** Open lines stand at the end of the text. *)
Definition ends_text (last : bool) (c : kind * bool) (R : sks) : Prop := last = true -> fst c = EOF /\ R = [].
Lemma alines_suffix last B L K c R : alines_to last B -> Forall (fun x => is_lc (fst x) = true) L -> is_lc (fst c) = false -> L ++ K = B ++ c :: R ->
  exists B', K = B' ++ c :: R /\ alines_to last B'.
Proof.
  intros HB HL HC E. destruct HB as [G HG|G j EL HG|G I T C B HG HI HT HCm N1 N2 HB].
  - destruct (lc_prefix L G c K R HL HC E) as (G' & -> & ->). exists G'. split; [reflexivity|]. constructor. eapply gaps_suffix; eauto.
  - destruct (lc_prefix L (G ++ [(COMMENT, j)]) c K R HL HC E) as (G' & EG & ->). exists G'. split; [reflexivity|]. symmetry in EG. destruct (snoc_suffix _ _ _ _ EG) as [-> |(G1 & -> & ->)]; [constructor; constructor|].
    apply al_comment; [exact EL|]. eapply gaps_suffix; eauto.
  - destruct (aitem_head _ _ _ HI) as (x & X & -> & _ & HX). rewrite <- !app_assoc in E. cbn [app] in E. destruct (lc_prefix L G x K _ HL HX E) as (G' & -> & ->).
    exists (G' ++ (x :: X) ++ T ++ C ++ B). rewrite <- !app_assoc. cbn [app]. split; [reflexivity|]. rewrite app_comm_cons. apply al_item; auto. eapply gaps_suffix; eauto.
Qed.
Lemma lines_peek last B c R : alines_to last B -> header_or_end c -> ends_text last c R ->
  let k := knth (peekK (B ++ c :: R)) (B ++ c :: R) in
  k <> COMMA /\ (ts_contains TS_KEY_FIRST k = true -> exists G I T C B', B = G ++ I ++ T ++ C ++ B' /\ gaps G /\ aitem MAX_RECURSION_DEPTH true I /\ atail T /\ acomma C /\ khd (C ++ B') <> COMMENT /\ (khd B' = LINE_BREAK \/ last = true /\ B' = []) /\ alines_to last B' /\ k = khd I).
Proof.
  intros HB HC HE k. pose proof (header_lc c HC) as LC. destruct HB as [G HG|G j EL HG|G I T C B HG HI HT HCm N1 N2 HB].
  - destruct (peek_kind G c R HG LC) as [E|E]; unfold k; rewrite E; [destruct HC as [-> | ->]|]; split; discriminate.
  - destruct (HE EL) as [EC ->]. unfold k. rewrite (peek_last G j c HG EC). split; discriminate.
  - destruct (aitem_head _ _ _ HI) as (x & X & EX & X1 & X2).
    assert (EK : (G ++ I ++ T ++ C ++ B) ++ c :: R = G ++ x :: X ++ T ++ C ++ B ++ c :: R) by (rewrite EX, <- !app_assoc; reflexivity).
    unfold k. rewrite EK. destruct (peek_kind G x (X ++ T ++ C ++ B ++ c :: R) HG X2) as [E|E]; rewrite E.
    + destruct (firsts_ends true _ X1) as (_ & F1 & _). split; [exact F1|]. intros _. exists G, I, T, C, B. repeat (split; [first [reflexivity|assumption]|]). rewrite EX. destruct x. reflexivity.
    + split; discriminate.
Qed.
Lemma khd_ne (B : sks) k : khd B = k -> k <> EOF -> B <> [].
Proof. intros E N ->. apply N. symmetry. exact E. Qed.
Lemma kvg_loop_ok last v : takes MAX_RECURSION_DEPTH (acore MAX_RECURSION_DEPTH) v -> forall fuel B c R p p', alines_to last B -> header_or_end c -> ends_text last c R -> K0 p = B ++ c :: R ->
  ts_contains TS_KEY_FIRST (knth (peekK (K0 p)) (K0 p)) = true -> khd (K0 p) = LINE_BREAK \/ ts_contains TS_LINE_END (khd (K0 p)) = false -> p_depth p = 0%nat -> clean p ->
  loop_ fuel (fun p =>
    if is_group_separator p then break p else
    do p <- key_value v p;
    do n <- peek_leading_comments p;
    do p <- (if nth_at n COMMA p then comma p else Done p);
    if negb (at_ LINE_BREAK p) then break p else
    do n <- peek_leading_comments p;
    if negb (nth_at_ts n TS_KEY_FIRST p) then break p else again p) p = Done p' -> exists B', ran p p' (B' ++ c :: R) /\ alines_to last B' /\ (khd B' = LINE_BREAK \/ last = true /\ B' = []) /\ clean p'.
Proof.
  intros Hv. induction fuel as [|fuel IH]; intros B c R p p' HB HC HE HK HP HN HD HCl H; [discriminate|]. cbn [loop_] in H.
  assert (NC : fst c <> COMMENT) by (destruct HC as [-> | ->]; discriminate).
  destruct (is_group_separator p) eqn:ES.
  { cbn [break] in H. injection H as <-. exists B. split; [rewrite <- HK; apply ran_refl|]. split; [exact HB|]. split; [|exact HCl].
    unfold is_group_separator in ES. rewrite at_ts_sig in ES. apply andb_prop in ES. destruct ES as [ES _]. destruct HN as [HN|HN]; [|congruence].
    rewrite HK in HN. destruct B as [|x B]; [|left; exact HN]. exfalso. cbn [app] in HN. destruct c as [kc jc]. rewrite khd_cons in HN. unfold header_or_end in HC. cbn [fst] in HC. destruct HC; congruence. }
  rewrite HK in HP. destruct (lines_peek last B c R HB HC HE) as [_ HX]. destruct (HX HP) as (G & I & T & C & B' & -> & HG & HIt & HT & HCm & N1 & N2 & HB' & EK).
  destruct (key_value v p) as [q| | |] eqn:EI; cbn [bind] in H; try discriminate. rewrite <- !app_assoc in HK, EK.
  assert (KB : khd (B' ++ c :: R) = LINE_BREAK \/ last = true /\ B' = [] /\ khd (B' ++ c :: R) = EOF).
  { destruct N2 as [N2|[EL ->]]; [left; rewrite khd_app_ne; [exact N2|eapply khd_ne; [exact N2|discriminate]]|right]. split; [exact EL|]. split; [reflexivity|]. destruct c as [kc jc]. cbn [app]. rewrite khd_cons. apply (HE EL). }
  assert (NB : khd (B' ++ c :: R) <> COMMENT) by (destruct KB as [-> |(_ & _ & ->)]; discriminate).
  assert (NCB : khd (C ++ B' ++ c :: R) <> COMMENT). { destruct C; [exact NB|exact N1]. }
  destruct (key_value_takes _ v Hv I HIt p q G T (C ++ B' ++ c :: R) HG HT NCB HK ltac:(rewrite HK; exact EK) ltac:(rewrite HD; apply le_n) HCl EI) as [R1 C1].
  rewrite peek_ok in H. cbn [bind] in H. rewrite nth_at_sig in H by reflexivity. rewrite (proj1 (proj2 R1)) in H.
  assert (HQ : exists q2, (if kind_eqb (knth (peekK (C ++ B' ++ c :: R)) (C ++ B' ++ c :: R)) COMMA then comma q else Done q) = Done q2 /\ ran p q2 (B' ++ c :: R) /\ clean q2 /\
    (match (if negb (at_ LINE_BREAK q2) then break q2 else do n <- peek_leading_comments q2; if negb (nth_at_ts n TS_KEY_FIRST q2) then break q2 else again q2) with
     | Done (true, p'0) => loop_ fuel (fun p => if is_group_separator p then break p else do p0 <- key_value v p; do n <- peek_leading_comments p0; do p1 <- (if nth_at n COMMA p0 then comma p0 else Done p0);
         if negb (at_ LINE_BREAK p1) then break p1 else do n0 <- peek_leading_comments p1; if negb (nth_at_ts n0 TS_KEY_FIRST p1) then break p1 else again p1) p'0
     | Done (false, p'0) => Done p'0 | Panic => Panic | Diverge => Diverge | Deep => Deep end) = Done p').
  { destruct HCm as [|S j T2 HS HT2].
    - cbn [app] in *. destruct (lines_peek last B' c R HB' HC HE) as [NX _]. rewrite (proj2 (kind_eqb_neq _ _) NX) in *. exists q. cbn [bind] in H. auto.
    - rewrite <- !app_assoc in *. cbn [app] in *. rewrite (peek_soft S HS (COMMA, j)) in * by reflexivity. rewrite knth_length in *. change (kind_eqb (fst (COMMA, j)) COMMA) with true in *. cbv iota in *.
      destruct (comma q) as [q2| | |] eqn:EC; cbn [bind] in H; try discriminate. destruct (comma_ran S j T2 (B' ++ c :: R) q q2 C1 HS HT2 NB (proj1 (proj2 R1)) EC) as [R2 C2].
      exists q2. split; [reflexivity|]. split; [eapply ran_trans; eauto|auto]. }
  destruct HQ as (q2 & _ & R2 & C2 & H2). clear H. unfold at_ in H2. rewrite nth_at_sig in H2 by reflexivity. fold (khd (K0 q2)) in H2. rewrite peek_ok in H2. rewrite (proj1 (proj2 R2)) in H2.
  destruct KB as [KB|(EL & -> & KB)]; rewrite KB in H2; [|change (kind_eqb EOF LINE_BREAK) with false in H2; cbn [negb break] in H2; injection H2 as <-; exists []; auto].
  change (kind_eqb LINE_BREAK LINE_BREAK) with true in H2. cbn [negb bind] in H2. rewrite nth_at_ts_sig, (proj1 (proj2 R2)) in H2.
  destruct (ts_contains TS_KEY_FIRST (knth (peekK (B' ++ c :: R)) (B' ++ c :: R))) eqn:EF; cbn [negb again break] in H2.
  - destruct (IH B' c R q2 p' HB' HC HE (proj1 (proj2 R2))) as (B2 & R3 & A3 & A4 & C3); auto.
    + rewrite (proj1 (proj2 R2)). exact EF.
    + left. rewrite (proj1 (proj2 R2)). exact KB.
    + destruct R2 as (_ & _ & ->). exact HD.
    + exists B2. split; [eapply ran_trans; eauto|auto].
  - injection H2 as <-. exists B'. auto.
Qed.
Lemma lines_settled last B c R : alines_to last B -> header_or_end c -> ends_text last c R -> settled (B ++ c :: R) ->
  (gaps B /\ peekK (B ++ c :: R) = length B /\ (fst c = EOF -> B = [])) \/ (ts_contains TS_KEY_FIRST (knth (peekK (B ++ c :: R)) (B ++ c :: R)) = true /\ ts_contains TS_LINE_END (khd (B ++ c :: R)) = false).
Proof.
  intros HB HC HT0 HS. destruct HB as [G HG|G j EL HG|G I T C B HG HI HT HCm N1 N2 HB].
  - destruct (settled_gaps G HG c R (header_lc c HC) HS) as [EP HE]. left. split; [exact HG|]. split; [exact EP|]. intros E. apply HE. rewrite E. reflexivity.
  - exfalso. destruct (HT0 EL) as [EC ->]. exact (settled_last G j c HG EC HS).
  - destruct (aitem_head _ _ _ HI) as (x & X & -> & X1 & X2). rewrite <- !app_assoc in *. cbn [app] in *. destruct (settled_gaps G HG x _ X2 HS) as [EP _]. right. rewrite EP, knth_length. split; [exact X1|].
    destruct HS as [HS _]. destruct HG as [|j G HG|j j' G HG]; [|contradiction HS; reflexivity|reflexivity]. cbn [app]. destruct x as [k j]. rewrite khd_cons. cbn [fst] in *. destruct k; try discriminate X1; reflexivity.
Qed.
Lemma lines_split last B c R : alines_to last B -> header_or_end c -> ends_text last c R -> exists G x R', B ++ c :: R = G ++ x :: R' /\ gap x R' G /\ is_lc (fst x) = false.
Proof.
  intros HB HC HE. destruct HB as [G HG|G j EL HG|G I T C B HG HI HT HCm N1 N2 HB].
  - exists G, c, R. split; [reflexivity|]. split; [left; exact HG|]. apply header_lc. exact HC.
  - destruct (HE EL) as [EC ->]. exists (G ++ [(COMMENT, j)]), c, []. split; [reflexivity|]. split; [|apply header_lc; exact HC]. right. split; [exact EC|]. split; [reflexivity|]. exists G, j. auto.
  - destruct (aitem_head _ _ _ HI) as (x & X & -> & X1 & X2). exists G, x, (X ++ T ++ C ++ B ++ c :: R). rewrite <- !app_assoc. split; [reflexivity|]. split; [left; exact HG|exact X2].
Qed.
Lemma lines_loop_ok last v : takes MAX_RECURSION_DEPTH (acore MAX_RECURSION_DEPTH) v -> forall fuel B c R p p', alines_to last B -> header_or_end c -> ends_text last c R -> K0 p = B ++ c :: R -> p_depth p = 0%nat -> clean p ->
  loop_ fuel (fun p =>
    do p <- while_eat LINE_BREAK p;
    do p <- dangling_comment_groups p;
    do n <- peek_leading_comments p;
    if nth_at_ts n TS_NEXT_SECTION p then break p else
    do p <- key_value_group v p;
    do p <- (if negb (at_ts TS_LINE_END p) then invalid_line ExpectedLineBreak p else Done p);
    again p) p = Done p' -> exists G, gaps G /\ ran p p' (G ++ c :: R) /\ settled (G ++ c :: R) /\ (fst c = EOF -> G = []) /\ clean p'.
Proof.
  intros Hv. induction fuel as [|fuel IH]; intros B c R p p' HB HC HT0 HK HD HCl H; [discriminate|]. cbn [loop_] in H.
  destruct (while_eat LINE_BREAK p) as [q1| | |] eqn:E1; cbn [bind] in H; try discriminate. destruct (dangling_comment_groups q1) as [q2| | |] eqn:E2; cbn [bind] in H; try discriminate.
  destruct (lines_split last B c R HB HC HT0) as (G & x & R' & EB & HG & HX). rewrite EB in HK. destruct (dangle_ran G x R' p q1 q2 HG HX HK HCl E1 E2) as (L & G' & EG & R1 & S1 & C1).
  assert (LL : Forall (fun x => is_lc (fst x) = true) L). { pose proof (gap_lc _ _ _ HG) as HF. rewrite EG in HF. apply Forall_app in HF. apply HF. }
  destruct (alines_suffix last B L (G' ++ x :: R') c R HB LL (header_lc c HC)) as (B' & EB' & HB'); [rewrite EB, EG, app_assoc; reflexivity|]. rewrite EB' in R1, S1.
  rewrite peek_ok in H. cbn [bind] in H. rewrite nth_at_ts_sig in H. rewrite (proj1 (proj2 R1)) in H. destruct (lines_settled last B' c R HB' HC HT0 S1) as [(HG' & EP & HE)|[EP EL]].
  - rewrite EP, knth_length in H. assert (EE : ts_contains TS_NEXT_SECTION (fst c) = true) by (destruct HC as [-> | ->]; reflexivity). rewrite EE in H. cbn [break] in H. injection H as <-. exists B'. auto.
  - destruct (firsts_ends true _ EP) as (_ & _ & _ & _ & _ & _ & EE). rewrite EE in H. change (negb true && kind_eqb (knth (peekK (B' ++ c :: R)) (B' ++ c :: R)) BRACKET_START) with false in H. cbv iota in H.
    destruct (key_value_group v q2) as [q3| | |] eqn:E3; cbn [bind again] in H; try discriminate.
    assert (HD2 : p_depth q2 = 0%nat) by (destruct R1 as (_ & _ & ->); exact HD).
    assert (HQ : exists B2, ran q2 q3 (B2 ++ c :: R) /\ alines_to last B2 /\ (khd B2 = LINE_BREAK \/ last = true /\ B2 = []) /\ clean q3).
    { unfold key_value_group in E3. cbn [start] in E3. binds E3. unfold loop in E. set (q2' := push_event (EStart TOMBSTONE) q2) in *.
      assert (EK : K0 q2' = B' ++ c :: R) by exact (proj1 (proj2 R1)).
      destruct (kvg_loop_ok last v Hv _ B' c R q2' q HB' HC HT0 EK ltac:(rewrite EK; exact EP) ltac:(right; rewrite EK; exact EL) HD2 C1 E) as (B2 & R2 & A2 & A3 & C2).
      exists B2. split; [exact (node_ran _ _ _ _ _ _ R2 E3)|]. destruct (complete_ran _ _ _ _ E3) as [_ C3]. auto. }
    destruct HQ as (B2 & R2 & A2 & A3 & C2). rewrite at_ts_sig, (proj1 (proj2 R2)) in H. 
    assert (KE : negb (ts_contains TS_LINE_END (khd (B2 ++ c :: R))) = false).
    { destruct A3 as [A3|[ELa ->]]; [rewrite khd_app_ne by (eapply khd_ne; [exact A3|discriminate]); rewrite A3; reflexivity|]. destruct c as [kc jc]. cbn [app]. rewrite khd_cons. pose proof (proj1 (HT0 ELa)) as EF; cbn [fst] in EF; rewrite EF; reflexivity. }
    rewrite KE in H. cbn [bind] in H.
    destruct (IH B2 c R q3 p' A2 HC HT0 (proj1 (proj2 R2))) as (G2 & B1 & R3 & B3 & B4 & C3); auto; [destruct R2 as (_ & _ & ->); exact HD2|]. exists G2. split; [exact B1|]. split; [|auto]. eapply ran_trans; [exact R1|]. eapply ran_trans; [exact R2|exact R3].
Qed.
Lemma section_lines_ok last stack B c R p p' : alines_to last B -> header_or_end c -> ends_text last c R -> K0 p = B ++ c :: R -> p_depth p = 0%nat -> clean p -> section_lines (value stack) p = Done p' ->
  exists G, gaps G /\ ran p p' (G ++ c :: R) /\ settled (G ++ c :: R) /\ (fst c = EOF -> G = []) /\ clean p'.
Proof. intros HB HC HT0 HK HD HCl H. unfold section_lines, loop in H. eapply lines_loop_ok; eauto. apply value_ok. Qed.
(** * Sections *)
Lemma aclose_head array j R : exists x X, aclose array j ++ R = x :: X /\ fst x <> DOT.
Proof. destruct array; eexists _, _; (split; [reflexivity|discriminate]). Qed.
Definition op (array : bool) : kind := if array then DOUBLE_BRACKET_START else BRACKET_START.
Definition cl (array : bool) : kind := if array then DOUBLE_BRACKET_END else BRACKET_END.
Lemma eat_op array j R p b q : K0 p = aopen array j ++ R -> eat (op array) p = (b, q) -> b = true /\ ran p q R /\ clean q.
Proof. destruct array; cbn [aopen op app]; intros HK H; [apply (eat_pair_ran BRACKET_START j R p b q); auto|apply (eat_ran BRACKET_START j R p b q); auto]. Qed.
Lemma eat_cl array j R p b q : K0 p = aclose array j ++ R -> eat (cl array) p = (b, q) -> b = true /\ ran p q R /\ clean q.
Proof. destruct array; cbn [aclose cl app]; intros HK H; [apply (eat_pair_ran BRACKET_END j R p b q); auto|apply (eat_ran BRACKET_END j R p b q); auto]. Qed.
Lemma section_ok last stack array e node G j Ks j' T B c R p p' : gaps G -> akeys Ks -> atail T -> khd B = LINE_BREAK \/ last = true /\ B = [] -> alines_to last B -> header_or_end c -> ends_text last c R ->
  K0 p = G ++ aopen array j ++ Ks ++ aclose array j' ++ T ++ B ++ c :: R -> p_depth p = 0%nat -> clean p -> section (op array) (cl array) e node (value stack) p = Done p' ->
  exists G', gaps G' /\ ran p p' (G' ++ c :: R) /\ settled (G' ++ c :: R) /\ (fst c = EOF -> G' = []) /\ clean p'.
Proof.
  intros HG HKs HT HB1 HB HC HT0 HK HD HCl H. unfold section in H. cbn [start] in H. destruct (start_ran p) as [_ C0]. specialize (C0 HCl). binds H.
  destruct (leading_ran _ _ C0 E) as [R1 C1]. change (K0 (push_event (EStart TOMBSTONE) p)) with (K0 p) in R1. rewrite HK in R1.
  assert (ED : dropk is_lc (G ++ aopen array j ++ Ks ++ aclose array j' ++ T ++ B ++ c :: R) = aopen array j ++ Ks ++ aclose array j' ++ T ++ B ++ c :: R).
  { destruct array; cbn [aopen app]; (apply drop_gaps; [apply gaps_lc; exact HG|reflexivity]). }
  rewrite ED in R1. destruct (at_ (op array) q); cbn [negb] in H; [|discriminate]. destruct (eat (op array) q) as [b q2] eqn:EE. destruct (eat_op array j _ q b q2 (proj1 (proj2 R1)) EE) as (_ & R2 & C2).
  binds H. rename q0 into q3. destruct (aclose_head array j' (T ++ B ++ c :: R)) as (x & X & EX & NX). rewrite EX in R2. pose proof (keys_ran Ks x X q2 q3 C2 HKs NX (proj1 (proj2 R2)) E0) as R3. rewrite <- EX in R3.
  destruct (eat (cl array) q3) as [closed q4] eqn:EE2. destruct (eat_cl array j' _ q3 closed q4 (proj1 (proj2 R3)) EE2) as (-> & R4 & C4). cbn [negb bind] in H. binds H. rename q0 into q5.
  assert (KB : khd (B ++ c :: R) = LINE_BREAK \/ khd (B ++ c :: R) = EOF).
  { destruct HB1 as [HB1|[EL ->]]; [left; rewrite khd_app_ne; [exact HB1|eapply khd_ne; [exact HB1|discriminate]]|right]. destruct c as [kc jc]. cbn [app]. rewrite khd_cons. apply (HT0 EL). }
  destruct (trailing_ran T (B ++ c :: R) _ _ C4 HT ltac:(destruct KB as [-> | ->]; discriminate) (proj1 (proj2 R4)) E1) as [R5 C5].
  rewrite at_ts_sig, (proj1 (proj2 R5)) in H. assert (KE : negb (ts_contains TS_LINE_END (khd (B ++ c :: R))) = false) by (destruct KB as [-> | ->]; reflexivity). rewrite KE in H. cbn [bind] in H. binds H. rename q0 into q6.
  assert (R15 : ran (push_event (EStart TOMBSTONE) p) q5 (B ++ c :: R)).
  { eapply ran_trans; [exact R1|]. eapply ran_trans; [exact R2|]. eapply ran_trans; [exact R3|]. eapply ran_trans; [exact R4|exact R5]. }
  destruct (section_lines_ok last stack B c R q5 q6 HB HC HT0 (proj1 (proj2 R5))) as (G' & A1 & R6 & A2 & A3 & C6); auto.
  { destruct R15 as (_ & _ & ->). exact HD. }
  exists G'. split; [exact A1|]. split; [exact (node_ran _ _ _ _ _ _ (ran_trans _ _ _ _ _ R15 R6) H)|]. split; [exact A2|]. split; [exact A3|]. destruct (complete_ran _ _ _ _ H) as [_ C7]. auto.
Qed.
Lemma sections_head S j : asections S -> exists c R, S ++ [(EOF, j)] = c :: R /\ header_or_end c.
Proof. destruct 1 as [|array j0 Ks j' T B S|array j0 Ks j' T B]; [exists (EOF, j), []; split; [reflexivity|right; reflexivity]| |]. all: destruct array; cbn [aopen app]; eexists _, _; (split; [reflexivity|left; reflexivity]). Qed.
Lemma knth_app (G : sks) n R : knth (length G + n) (G ++ R) = knth n R.
Proof. unfold knth. rewrite app_nth2 by lia. replace (length G + n - length G)%nat with n by lia. reflexivity. Qed.
Lemma sections_loop stack fuel : forall S, asections S -> forall G j p p', gaps G -> K0 p = G ++ S ++ [(EOF, j)] -> settled (K0 p) -> (S = [] -> G = []) -> p_depth p = 0%nat -> clean p ->
  loop_ fuel (fun p =>
    do p <- while_eat LINE_BREAK p;
    do n <- peek_leading_comments p;
    if nth_at n EOF p then break p
    else if nth_at n DOUBLE_BRACKET_START p then do p <- array_of_table (value stack) p; again p
    else if nth_at n BRACKET_START p then do p <- table (value stack) p; again p
    else do p <- unknown_line p; again p) p = Done p' -> nerr p' = nerr p.
Proof.
  induction fuel as [|fuel IH]; intros S HS G j p p' HG HK HSt HE HD HCl H; [discriminate|]. cbn [loop_] in H.
  destruct (while_eat LINE_BREAK p) as [q| | |] eqn:E1; cbn [bind] in H; try discriminate. destruct (while_eat_ran LINE_BREAK p q eq_refl HCl E1) as [R1 C1].
  assert (ED : dropk (fun x => kind_eqb x LINE_BREAK) (K0 p) = K0 p).
  { destruct HSt as [N _]. destruct (K0 p) as [|[k0 j0] K]; [reflexivity|]. rewrite dropk_cons. rewrite khd_cons in N. rewrite (proj2 (kind_eqb_neq _ _) N). reflexivity. }
  rewrite ED in R1. rewrite peek_ok in H. cbn [bind] in H. destruct (sections_head S j HS) as (c & R & EC & HC).
  rewrite (nth_at_sig _ EOF), (nth_at_sig _ BRACKET_START) in H by reflexivity. rewrite (proj1 (proj2 R1)) in H.
  assert (HD1 : p_depth q = 0%nat) by (destruct R1 as (_ & _ & ->); exact HD).
  assert (EP : peekK (K0 p) = length G). { rewrite HK, EC. rewrite HK, EC in HSt. apply (settled_gaps G HG c R (header_lc c HC) HSt). }
  assert (HQ : S = [] \/ exists last array j0 Ks j' T B S', S = aopen array j0 ++ Ks ++ aclose array j' ++ T ++ B ++ S' /\ akeys Ks /\ atail T /\ (khd B = LINE_BREAK \/ last = true /\ B = []) /\ alines_to last B /\ asections S' /\ (last = true -> S' = [])).
  { destruct HS as [|array j0 Ks j' T B S HKs HT HB1 HB HS|array j0 Ks j' T B HKs HT HB1 HB]; [left; reflexivity|right..].
    - exists false, array, j0, Ks, j', T, B, S. repeat (split; [first [reflexivity|assumption|left; assumption]|]). discriminate.
    - exists true, array, j0, Ks, j', T, B, []. rewrite app_nil_r. split; [reflexivity|]. split; [exact HKs|]. split; [exact HT|]. split; [destruct HB1; auto|]. split; [exact HB|]. split; [constructor|reflexivity]. }
  rewrite EP, HK in H. clear HS. destruct HQ as [-> |(last & array & j0 & Ks & j' & T & B & S' & -> & HKs & HT & HB1 & HB & HS & HLS)]; [|rename S' into S].
  - cbn [app] in H. rewrite knth_length in H. change (kind_eqb (fst (EOF, j)) EOF) with true in H. cbn [break] in H. injection H as <-. apply R1.
  - rewrite <- !app_assoc in *. destruct (sections_head S j HS) as (c2 & R2 & EC2 & HC2). assert (HT0 : ends_text last c2 R2) by (intros EL; rewrite (HLS EL) in EC2; cbn [app] in EC2; injection EC2 as <- <-; split; reflexivity). rewrite EC2 in *.
    assert (KK : forall n, knth (length G + n) (G ++ aopen array j0 ++ Ks ++ aclose array j' ++ T ++ B ++ c2 :: R2) = knth n (aopen array j0 ++ Ks ++ aclose array j' ++ T ++ B ++ c2 :: R2)) by (intros; apply knth_app).
    assert (K1 : knth (length G) (G ++ aopen array j0 ++ Ks ++ aclose array j' ++ T ++ B ++ c2 :: R2) = BRACKET_START).
    { rewrite <- (Nat.add_0_r (length G)), KK. destruct array; reflexivity. }
    rewrite K1 in H. change (kind_eqb BRACKET_START EOF) with false in H. change (kind_eqb BRACKET_START BRACKET_START) with true in H. cbv iota in H.
    assert (EA : nth_at (length G) DOUBLE_BRACKET_START q = array).
    { unfold nth_at. rewrite composite_sig. change (sig (p_rest q)) with (K0 q). rewrite (proj1 (proj2 R1)), HK. unfold composite. rewrite K1, KK.
      rewrite app_nth2, Nat.sub_diag by lia. destruct array; [reflexivity|]. cbn [aopen app]. destruct (akeys_head _ HKs) as (x & X & -> & HX & _). destruct x as [k0 j1]. cbn [app]. change (knth 1 ((BRACKET_START, j0) :: (k0, j1) :: X ++ aclose false j' ++ T ++ B ++ c2 :: R2)) with k0.
      cbn [fst] in HX. destruct k0; try discriminate HX; reflexivity. }
    rewrite EA in H. assert (HX : exists e node q2, section (op array) (cl array) e node (value stack) q = Done q2 /\ loop_ fuel (fun p =>
      do p <- while_eat LINE_BREAK p;
      do n <- peek_leading_comments p;
      if nth_at n EOF p then break p
      else if nth_at n DOUBLE_BRACKET_START p then do p <- array_of_table (value stack) p; again p
      else if nth_at n BRACKET_START p then do p <- table (value stack) p; again p
      else do p <- unknown_line p; again p) q2 = Done p').
    { destruct array; [unfold array_of_table in H at 1; destruct (section _ _ _ _ _ q) as [q2| | |] eqn:E2 in H|unfold table in H at 1; destruct (section _ _ _ _ _ q) as [q2| | |] eqn:E2 in H]; cbn [bind again] in H; try discriminate; eexists _, _, q2; (split; [exact E2|exact H]). }
    destruct HX as (e & node & q2 & E2 & H2). rewrite HK in R1. destruct (section_ok last stack array e node G j0 Ks j' T B c2 R2 q q2 HG HKs HT HB1 HB HC2 HT0 (proj1 (proj2 R1)) HD1 C1 E2) as (G2 & A1 & R3 & A2 & A3 & C3).
    assert (EQ : nerr p' = nerr q2).
    { apply (IH S HS G2 j q2 p'); auto.
      - rewrite (proj1 (proj2 R3)), EC2. reflexivity.
      - rewrite (proj1 (proj2 R3)). exact A2.
      - intros ->. cbn [app] in EC2. injection EC2 as <- <-. auto.
      - destruct R3 as (_ & _ & ->). exact HD1. }
    rewrite EQ. destruct R3 as (-> & _), R1 as (-> & _). reflexivity.
Qed.
(** A run of the parser over a text of the grammar reports nothing. *)
Theorem accepted last stack B S j p p' : alines_to last B -> (last = true -> S = []) -> asections S -> K0 p = B ++ S ++ [(EOF, j)] -> p_depth p = 0%nat -> clean p -> root (value stack) p = Done p' -> nerr p' = nerr p.
Proof.
  intros HB HLS HS HK HD HC H. unfold root in H. cbn [start] in H. binds H. destruct (sections_head S j HS) as (c & R & EC & HH). assert (HT0 : ends_text last c R) by (intros EL; rewrite (HLS EL) in EC; cbn [app] in EC; injection EC as <- <-; split; reflexivity). rewrite EC in HK.
  destruct (section_lines_ok last stack B c R (push_event (EStart TOMBSTONE) p) q HB HH HT0 HK HD HC E) as (G & A1 & R1 & A2 & A3 & C1). binds H. unfold loop in E0.
  assert (EQ : nerr q0 = nerr q).
  { apply (sections_loop stack _ S HS G j q q0) in E0; auto.
    - rewrite (proj1 (proj2 R1)), EC. reflexivity.
    - rewrite (proj1 (proj2 R1)). exact A2.
    - intros ->. cbn [app] in EC. injection EC as <- <-. auto.
    - destruct R1 as (_ & _ & ->). exact HD. }
  destruct (complete_ran _ _ _ _ H) as [(A & _) _]. rewrite A, EQ. destruct R1 as [A4 _], (start_ran p) as [[A5 _] _]. rewrite A4. exact A5.
Qed.
