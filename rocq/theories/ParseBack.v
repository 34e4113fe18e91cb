(** The tokens of a written text are in the grammar that the parser takes (ParserAccepts.v). *)
From Coq Require Import String Ascii List NArith Bool Arith Lia.
From Verif Require Import Base SyntaxKind TextModel LexerModel LexerSpec LexerProofs ParserModel ParserInv ParserPrims ParserBuild
  ParserYield AstModel FormatPieces FormatterModel FormatterLayout FormatterSpec FormatterRelex ParserShape ParserAccepts.
Import ListNotations.
Open Scope N_scope.
Open Scope list_scope.

(** * The tokens of pieces *)
Fixpoint ksig (ks : list kind) : sks :=
  match ks with
  | [] => []
  | k :: r => if is_trivia k then ksig r else (k, match r with k' :: _ => negb (is_trivia k') | [] => false end) :: ksig r
  end.
Lemma ksig_sig ts : sig ts = ksig (map tkind ts).
Proof. induction ts as [|t ts IH]; [reflexivity|]. cbn [sig ksig map]. unfold triv. rewrite IH. destruct (is_trivia (tkind t)); [reflexivity|]. destruct ts; reflexivity. Qed.
Definition kr (K : sks) (ps : list piece) : Prop := exists ts, respaced ts ps /\ K = ksig (map fst ts ++ [EOF]).
Lemma kr_nil K : kr K [] -> K = [(EOF, false)].
Proof. intros (ts & H & ->). remember [] as q eqn:E. destruct H as [|w b ts ps NE HF HR| | |]; try discriminate; [reflexivity|]. apply app_eq_nil in E as [E _]. contradiction. Qed.
Lemma kr_blank1 K k w ps : k = WHITESPACE -> kr K ((k, w) :: ps) -> kr K ps.
Proof.
  intros -> (ts & H & ->). inversion H as [|w0 b ts0 ps0 NE HF HR E0 E|k0 w0 ts0 ps0 NK HR| |]; subst; [|contradiction].
  destruct b as [|p b]; [contradiction|]. cbn [app] in E. injection E as -> <-. destruct b as [|q b].
  - exists ts0. split; [exact HR|reflexivity].
  - exists ((WHITESPACE, w0) :: ts0). split; [|reflexivity]. apply rs_blank; [discriminate|inversion HF; assumption|exact HR].
Qed.
Lemma kr_blanks K b ps : FormatterLayout.blanks b -> kr K (b ++ ps) -> kr K ps.
Proof. induction 1 as [|[k w] b [HK _] HB IH]; intros H; [exact H|]. apply IH. apply (kr_blank1 K k w); auto. Qed.
Lemma kr_tok K k w ps : k <> WHITESPACE -> k <> BARE_KEY -> kr K ((k, w) :: ps) ->
  exists j K', K = (k, j) :: K' /\ kr K' ps /\ (match ps with (k', _) :: _ => k' <> WHITESPACE | [] => True end -> j = true).
Proof.
  intros N1 N2 (ts & H & ->). inversion H as [|w0 b ts0 ps0 NE HF HR E0 E|k0 w0 ts0 ps0 NK HR| |]; subst; try contradiction.
  { destruct b as [|p b]; [contradiction|]. cbn [app] in E. injection E as -> _. inversion HF. contradiction. }
  assert (NT : is_trivia k = false) by (unfold is_trivia; apply kind_eqb_neq; exact N1). cbn [map fst app ksig]. rewrite NT.
  eexists _, _. split; [reflexivity|]. split; [exists ts0; auto|]. intros HP. inversion HR as [|w1 b ts1 ps1 NE HF HR1|k1 w1 ts1 ps1 NK1 HR1|k1 w1 ts1 ps1 HK1 HD1 HR1|]; subst; cbn [map fst app]; try reflexivity.
  - destruct b as [|[k1 w2] b]; [contradiction|]. cbn [app] in HP. inversion HF. contradiction.
  - unfold is_trivia. rewrite (proj2 (kind_eqb_neq k1 WHITESPACE) NK1). reflexivity.
  - cbn in HK1. repeat (destruct HK1 as [<- |HK1]; [reflexivity|]). destruct HK1.
Qed.
Lemma kr_key K w ps : kr K ((BARE_KEY, w) :: ps) ->
  (exists k j K', K = (k, j) :: K' /\ key_first k = true /\ kr K' ps) \/ (exists j K' v ps', K = (FLOAT, j) :: K' /\ ps = (DOT, [46]) :: (BARE_KEY, v) :: ps' /\ kr K' ps').
Proof.
  intros (ts & H & ->). inversion H as [|w0 b ts0 ps0 NE HF HR E0 E|k0 w0 ts0 ps0 NK HR|k0 w0 ts0 ps0 HK HD HR|u v ts0 ps0 HU HV HR]; subst.
  - destruct b as [|p b]; [contradiction|]. cbn [app] in E. injection E as -> _. inversion HF. discriminate.
  - left. cbn [map fst app ksig]. eexists BARE_KEY, _, _. split; [reflexivity|]. split; [reflexivity|]. exists ts0. auto.
  - left. cbn [map fst app ksig]. assert (NT : is_trivia k0 = false /\ key_first k0 = true) by (cbn in HK; repeat (destruct HK as [<- |HK]; [split; reflexivity|]); destruct HK). destruct NT as [-> HF].
    eexists k0, _, _. split; [reflexivity|]. split; [exact HF|]. exists ts0. auto.
  - right. cbn [map fst app ksig]. eexists _, _, v, ps0. split; [reflexivity|]. split; [reflexivity|]. exists ts0. auto.
Qed.

(** * Nesting *)
Fixpoint vnest (v : fval) : nat :=
  match v with
  | FLit _ _ _ _ => 0
  | FBox _ _ _ gs _ => S (fold_right (fun g m => Nat.max (match g with GD _ _ => 0 | GI _ its => fold_right (fun i m => Nat.max (match i with Item _ _ _ v _ => vnest v end) m) 0 its end) m) 0 gs)%nat
  end.
Definition inest (i : item fval) : nat := vnest (ival i).
Definition isnest (its : list (item fval)) : nat := fold_right (fun i m => Nat.max (inest i) m) 0%nat its.
Definition gnest (g : group (item fval)) : nat := match g with GD _ _ => 0%nat | GI _ its => isnest its end.
Definition gsnest (gs : list (group (item fval))) : nat := fold_right (fun g m => Nat.max (gnest g) m) 0%nat gs.
Definition dnest (d : fdoc) : nat := Nat.max (gsnest (d_groups d)) (fold_right (fun t m => Nat.max (gsnest (t_groups t)) m) 0%nat (d_tables d)).
Lemma vnest_box table lead otc gs tc : vnest (FBox table lead otc gs tc) = S (gsnest gs).
Proof.
  cbn [vnest]. f_equal. induction gs as [|g gs IH]; [reflexivity|]. cbn [fold_right gsnest]. fold (gsnest gs). rewrite IH. f_equal. destruct g as [|b its]; [reflexivity|]. cbn [gnest]. clear.
  induction its as [|[l ks r v c] its IH]; [reflexivity|]. cbn [fold_right isnest]. fold (isnest its). rewrite IH. reflexivity.
Qed.
Lemma items_nest gs : isnest (items_of gs) = gsnest gs.
Proof.
  induction gs as [|g gs IH]; [reflexivity|]. cbn [items_of flat_map gsnest fold_right]. fold (items_of gs). fold (gsnest gs). rewrite <- IH. clear. destruct g as [|b its]; [reflexivity|]. cbn [group_items gnest].
  induction its as [|i its IH]; [reflexivity|]. cbn [app isnest fold_right]. fold (isnest (its ++ items_of gs)). fold (isnest its). fold (isnest (items_of gs)) in *. rewrite IH. lia.
Qed.

(** * Facts about the grammar *)
Lemma abody_gaps n t G B : gaps G -> abody n t B -> abody n t (G ++ B).
Proof.
  intros HG HB. destruct HB as [n t G' HG'|n t G' I T C B HG' HI HT HC N1 N2 HB].
  - apply ab_gaps. apply gaps_app; auto.
  - rewrite app_assoc. apply ab_item; auto. apply gaps_app; auto.
Qed.
Lemma alines_gaps G B : gaps G -> alines B -> alines (G ++ B).
Proof.
  intros HG HB. destruct HB as [G' HG'|G' j EL|G' I T C B HG' HI HT HC N1 N2 HB]; [|discriminate EL|].
  - apply al_gaps. apply gaps_app; auto.
  - rewrite app_assoc. apply al_item; auto. apply gaps_app; auto.
Qed.
(** A comment at the head of a body stands behind what is before it. *)
Lemma abody_tail n t B : abody n t B -> exists T B', B = T ++ B' /\ atail T /\ khd B' <> COMMENT /\ abody n t B'.
Proof.
  assert (HX : forall G R, gaps G -> (G = [] -> khd R <> COMMENT) -> exists T G', G = T ++ G' /\ atail T /\ khd (G' ++ R) <> COMMENT /\ gaps G').
  { intros G R HG HN. destruct HG as [|j G HG|j j' G HG].
    - exists [], []. split; [reflexivity|]. split; [constructor|]. split; [apply HN; reflexivity|constructor].
    - exists [], ((LINE_BREAK, j) :: G). split; [reflexivity|]. split; [constructor|]. split; [discriminate|constructor; exact HG].
    - exists [(COMMENT, j)], ((LINE_BREAK, j') :: G). split; [reflexivity|]. split; [constructor|]. split; [discriminate|constructor; exact HG]. }
  intros HB. destruct HB as [n t G HG|n t G I T C B HG HI HT HC N1 N2 HB].
  - destruct (HX G [] HG) as (T & G' & -> & H1 & H2 & H3); [discriminate|]. rewrite app_nil_r in H2. exists T, G'. split; [reflexivity|]. split; [exact H1|]. split; [exact H2|]. apply ab_gaps. exact H3.
  - destruct (HX G (I ++ T ++ C ++ B) HG) as (T' & G' & -> & H1 & H2 & H3).
    + intros _. destruct (aitem_head _ _ _ HI) as ([k j] & X & -> & _ & HL). cbn [app fst] in *. rewrite khd_cons. intros ->. discriminate.
    + exists T', (G' ++ I ++ T ++ C ++ B). rewrite <- app_assoc. split; [reflexivity|]. split; [exact H1|]. split; [exact H2|]. apply ab_item; auto.
Qed.
Lemma abody_comment n t j B : khd B = LINE_BREAK -> abody n t B -> abody n t ((COMMENT, j) :: B).
Proof.
  assert (HX : forall G R, gaps G -> (G = [] -> khd R <> LINE_BREAK) -> khd (G ++ R) = LINE_BREAK -> gaps ((COMMENT, j) :: G)).
  { intros G R HG HN HK. destruct HG as [|j0 G HG|j0 j' G HG]; [contradiction (HN eq_refl)|constructor; exact HG|discriminate]. }
  intros HK HB. destruct HB as [n t G HG|n t G I T C B HG HI HT HC N1 N2 HB].
  - apply ab_gaps. apply (HX G []); [exact HG|discriminate|rewrite app_nil_r; exact HK].
  - change ((COMMENT, j) :: G ++ I ++ T ++ C ++ B) with (((COMMENT, j) :: G) ++ I ++ T ++ C ++ B). apply ab_item; auto. apply (HX G (I ++ T ++ C ++ B)); auto.
    intros _. destruct (aitem_head _ _ _ HI) as ([k j0] & X & -> & _ & HL). cbn [app fst] in *. rewrite khd_cons. intros ->. discriminate.
Qed.
Lemma alines_comment j B : khd B = LINE_BREAK -> alines B -> alines ((COMMENT, j) :: B).
Proof.
  assert (HX : forall G R, gaps G -> (G = [] -> khd R <> LINE_BREAK) -> khd (G ++ R) = LINE_BREAK -> gaps ((COMMENT, j) :: G)).
  { intros G R HG HN HK. destruct HG as [|j0 G HG|j0 j' G HG]; [contradiction (HN eq_refl)|constructor; exact HG|discriminate]. }
  intros HK HB. destruct HB as [G HG|G j0 EL|G I T C B HG HI HT HC N1 N2 HB]; [|discriminate EL|].
  - apply al_gaps. apply (HX G []); [exact HG|discriminate|rewrite app_nil_r; exact HK].
  - change ((COMMENT, j) :: G ++ I ++ T ++ C ++ B) with (((COMMENT, j) :: G) ++ I ++ T ++ C ++ B). apply al_item; auto. apply (HX G (I ++ T ++ C ++ B)); auto.
    intros _. destruct (aitem_head _ _ _ HI) as ([k j0] & X & -> & _ & HL). cbn [app fst] in *. rewrite khd_cons. intros ->. discriminate.
Qed.

(** * From layouts to the grammar *)
Section Back.
Context (le : str) (limit : N) (rc : str -> str -> Prop) (rk : fkey -> piece -> Prop) (rl : kind -> str -> piece -> Prop).
Context (Hrk : forall k p, rk k p -> key_kind (fst k) = true -> key_kind (fst p) = true) (Hrl : forall k w p, rl k w p -> literal_kind k = true -> literal_kind (fst p) = true).
Lemma nl_tok K ps : kr K (nl le :: ps) -> exists j K', K = (LINE_BREAK, j) :: K' /\ kr K' ps.
Proof. intros H. destruct (kr_tok K LINE_BREAK le ps ltac:(discriminate) ltac:(discriminate) H) as (j & K' & E & HK & _). eauto. Qed.
Lemma tok K k w ps : k <> WHITESPACE -> k <> BARE_KEY -> kr K ((k, w) :: ps) -> exists j K', K = (k, j) :: K' /\ kr K' ps.
Proof. intros N1 N2 H. destruct (kr_tok K k w ps N1 N2 H) as (j & K' & E & HK & _). eauto. Qed.
Lemma back_lines cs ps : comment_lines le rc cs ps -> forall K qs, kr K (ps ++ qs) -> exists G K', K = G ++ K' /\ soft G /\ khd G <> LINE_BREAK /\ kr K' qs /\ (cs = [] -> G = []).
Proof.
  induction 1 as [|c cs c' b ps HB HC H IH]; intros K qs HK.
  - exists [], K. split; [reflexivity|]. split; [constructor|]. split; [discriminate|]. auto.
  - rewrite <- app_assoc in HK. cbn [app] in HK. apply kr_blanks in HK; [|exact HB]. destruct (tok K COMMENT c' _ ltac:(discriminate) ltac:(discriminate) HK) as (j & K1 & -> & H1). destruct (nl_tok K1 _ H1) as (j' & K2 & -> & H2).
    destruct (IH K2 qs H2) as (G & K' & -> & A1 & A2 & A3 & _). exists ((COMMENT, j) :: (LINE_BREAK, j') :: G), K'. split; [reflexivity|]. split; [constructor; auto|]. split; [discriminate|]. split; [exact A3|discriminate].
Qed.
Lemma back_dangling cs ps : dangling le rc cs ps -> forall K qs, kr K (ps ++ nl le :: qs) -> exists G j K', K = G ++ (COMMENT, j) :: K' /\ gaps G /\ kr K' (nl le :: qs).
Proof.
  induction 1 as [c c' b HB HC|c cs c' b ps HB HC H IH]; intros K qs HK; rewrite <- app_assoc in HK; cbn [app] in HK; apply kr_blanks in HK; try exact HB;
    destruct (tok K COMMENT c' _ ltac:(discriminate) ltac:(discriminate) HK) as (j & K1 & -> & H1).
  - exists [], j, K1. split; [reflexivity|]. split; [constructor|exact H1].
  - destruct (nl_tok K1 _ H1) as (j' & K2 & -> & H2). destruct (IH K2 qs H2) as (G & j2 & K' & -> & A1 & A3). exists ((COMMENT, j) :: (LINE_BREAK, j') :: G), j2, K'. split; [reflexivity|]. split; [constructor; auto|exact A3].
Qed.
Lemma back_tail tc ps : tail rc tc ps -> forall K qs, kr K (ps ++ qs) -> exists T K', K = T ++ K' /\ atail T /\ kr K' qs /\ (tc = None -> T = []).
Proof.
  destruct 1 as [|c c' b HB HC]; intros K qs HK.
  - exists [], K. split; [reflexivity|]. split; [constructor|]. auto.
  - rewrite <- app_assoc in HK. cbn [app] in HK. apply kr_blanks in HK; [|exact HB]. destruct (tok K COMMENT c' _ ltac:(discriminate) ltac:(discriminate) HK) as (j & K1 & -> & H1).
    exists [(COMMENT, j)], K1. split; [reflexivity|]. split; [constructor|]. split; [exact H1|discriminate].
Qed.
Lemma key_kind_cases k : key_kind k = true -> k = BARE_KEY \/ (key_first k = true /\ k <> WHITESPACE /\ k <> BARE_KEY).
Proof. destruct k; try discriminate; intros _; [right|right|left]; try reflexivity; repeat split; discriminate. Qed.
Lemma back_keys m : forall ks ps, (length ks <= m)%nat -> lay_keys rk ks ps -> forallb (fun k => key_kind (fst k)) ks = true -> forall K qs, match qs with (DOT, _) :: _ => False | _ => True end -> kr K (ps ++ qs) ->
  exists Ks K', K = Ks ++ K' /\ akeys Ks /\ kr K' qs.
Proof.
  induction m as [|m IH]; intros ks ps HM H HK K qs HQ HR; [destruct H; cbn in HM; lia|].
  assert (HP : forall k p ps', rk k p -> key_kind (fst k) = true -> kr K (p :: ps') ->
    (exists k' j K', K = (k', j) :: K' /\ key_first k' = true /\ kr K' ps') \/ (exists j K' v ps2, K = (FLOAT, j) :: K' /\ ps' = (DOT, [46]) :: (BARE_KEY, v) :: ps2 /\ kr K' ps2)).
  { intros k [k' w] ps' A1 A2 A3. pose proof (Hrk _ _ A1 A2) as A4. cbn [fst] in A4. destruct (key_kind_cases k' A4) as [-> |(B1 & B2 & B3)]; [apply (kr_key K w ps' A3)|].
    left. destruct (tok K k' w ps' B2 B3 A3) as (j & K' & E & E2). exists k', j, K'. auto. }
  destruct H as [k p Hp|k p ks ps Hp H]; cbn [forallb] in HK; apply andb_true_iff in HK as [HK1 HK2]; cbn [app] in HR.
  - destruct (HP k p qs Hp HK1 HR) as [(k' & j & K' & -> & B1 & B2)|(j & K' & v & ps2 & -> & -> & _)]; [|contradiction]. exists [(k', j)], K'. split; [reflexivity|]. split; [apply ak_one; exact B1|exact B2].
  - cbn in HM. destruct (HP k p _ Hp HK1 HR) as [(k' & j & K' & -> & B1 & B2)|(j & K' & v & ps2 & -> & E & B2)].
    + destruct (tok K' DOT [46] _ ltac:(discriminate) ltac:(discriminate) B2) as (d & K2 & -> & B3). destruct (IH ks ps ltac:(lia) H HK2 K2 qs HQ B3) as (Ks & K3 & -> & C1 & C2).
      exists ((k', j) :: (DOT, d) :: Ks), K3. split; [reflexivity|]. split; [apply ak_cons; auto|exact C2].
    + injection E as E. destruct H as [k2 p2 Hp2|k2 p2 ks2 ps3 Hp2 H2]; cbn [app] in E.
      * injection E as _ <-. exists [(FLOAT, j)], K'. split; [reflexivity|]. split; [apply ak_one; reflexivity|exact B2].
      * injection E as _ <-. cbn in HM. cbn [forallb] in HK2. apply andb_true_iff in HK2 as [_ HK2]. destruct (tok K' DOT [46] _ ltac:(discriminate) ltac:(discriminate) B2) as (d & K2 & -> & B3).
        destruct (IH ks2 ps3 ltac:(lia) H2 HK2 K2 qs HQ B3) as (Ks & K3 & -> & C1 & C2). exists ((FLOAT, j) :: (DOT, d) :: Ks), K3. split; [reflexivity|]. split; [apply ak_cons; auto|exact C2].
Qed.
Lemma back_comma h c pc : lay_comma le rc h c pc -> forall K qs, kr K (pc ++ nl le :: qs) -> exists C K', K = C ++ K' /\ acomma C /\ khd K <> COMMENT /\ kr K' (nl le :: qs).
Proof.
  assert (HCM : forall S K tc pt qs, soft S -> khd S <> COMMENT -> tail rc tc pt -> kr K (comma_piece :: pt ++ qs) -> exists C K', S ++ K = C ++ K' /\ acomma C /\ khd (S ++ K) <> COMMENT /\ kr K' qs).
  { intros S K tc pt qs HS HN HT HK. destruct (tok K COMMA [44] _ ltac:(discriminate) ltac:(discriminate) HK) as (j & K1 & -> & H1). destruct (back_tail _ _ HT K1 qs H1) as (T & K2 & -> & A1 & A2 & _).
    exists (S ++ (COMMA, j) :: T), K2. rewrite <- app_assoc. split; [reflexivity|]. split; [constructor; auto|]. split; [|exact A2]. destruct S as [|x S]; [discriminate|exact HN]. }
  destruct 1 as [h|tc pt HT|tc b pt HB HT|h c cs pl tc b pt HL HB HT]; intros K qs HK.
  - exists [], K. split; [reflexivity|]. split; [constructor|]. split; [|exact HK]. destruct (nl_tok K _ HK) as (j & K' & -> & _). discriminate.
  - apply (HCM [] K tc pt); [constructor|discriminate|exact HT|exact HK].
  - cbn [app] in HK. destruct (nl_tok K _ HK) as (j & K' & -> & H1). rewrite <- app_assoc in H1. apply kr_blanks in H1; [|exact HB]. apply (HCM [(LINE_BREAK, j)] K' tc pt); [repeat constructor|discriminate|exact HT|exact H1].
  - cbn [app] in HK. destruct (nl_tok K _ HK) as (j & K' & -> & H1). rewrite <- !app_assoc in H1. cbn [app] in H1. destruct (back_lines _ _ HL K' _ H1) as (G & K2 & -> & A1 & A2 & A3 & _). apply kr_blanks in A3; [|exact HB].
    apply (HCM ((LINE_BREAK, j) :: G) K2 tc pt); [constructor; exact A1|discriminate|exact HT|exact A3].
Qed.
Lemma back_line_comma h c pc : lay_line_comma le rc h c pc -> (h = false \/ h = true) -> forall K qs, kr K (pc ++ nl le :: qs) ->
  exists T C K', K = T ++ C ++ K' /\ atail T /\ acomma C /\ khd (C ++ K') <> COMMENT /\ kr K' (nl le :: qs) /\ (h = true -> T = []).
Proof.
  intros H _ K qs HK.
  assert (HX : forall K, kr K (nl le :: qs) -> khd K <> COMMENT) by (intros K0 H0; destruct (nl_tok K0 _ H0) as (j & K' & -> & _); discriminate).
  assert (HY : forall h c pc, lay_comma le rc h c pc -> kr K (pc ++ nl le :: qs) -> exists T C K', K = T ++ C ++ K' /\ atail T /\ acomma C /\ khd (C ++ K') <> COMMENT /\ kr K' (nl le :: qs) /\ (h = true -> T = [])).
  { intros h0 c0 pc0 HC HP. destruct (back_comma _ _ _ HC K qs HP) as (C & K' & E & A1 & A2 & A3). exists [], C, K'. rewrite E in A2. split; [exact E|]. split; [constructor|]. auto. }
  destruct H as [h|h|tc pt HT|tc b pt HB HT|h c cs pl tc b pt HL HB HT].
  - exists [], [], K. split; [reflexivity|]. split; [constructor|]. split; [constructor|]. auto.
  - exists [], [], K. split; [reflexivity|]. split; [constructor|]. split; [constructor|]. auto.
  - destruct (back_tail _ _ HT K _ HK) as (T & K' & -> & A1 & A2 & _). exists T, [], K'. split; [reflexivity|]. split; [exact A1|]. split; [constructor|]. split; [apply HX; exact A2|]. split; [exact A2|discriminate].
  - apply (HY true _ _ (lc_line le rc (Some tc) b pt HB HT) HK).
  - apply (HY h _ _ (lc_lead le rc h c cs pl tc b pt HL HB HT) HK).
Qed.
(** The pieces [rest] are read as a body and the tokens of [qs]. *)
Definition body_then (n : nat) (t strong : bool) (rest qs : list piece) : Prop := forall K, kr K rest ->
  exists B K', K = B ++ K' /\ abody n t B /\ kr K' qs /\ (strong = true -> khd B = LINE_BREAK).
Lemma body_then_weak n t s rest qs : body_then n t s rest qs -> body_then n t false rest qs.
Proof. intros H K HK. destruct (H K HK) as (B & K' & E & A1 & A2 & _). exists B, K'. split; [exact E|]. split; [exact A1|]. split; [exact A2|discriminate]. Qed.
Lemma body_then_nl n t s rest qs : body_then n t s rest qs -> body_then n t true (nl le :: rest) qs.
Proof.
  intros H K HK. destruct (nl_tok K _ HK) as (j & K1 & -> & H1). destruct (H K1 H1) as (B & K' & -> & A1 & A2 & _). exists ((LINE_BREAK, j) :: B), K'. split; [reflexivity|].
  split; [apply (abody_gaps n t [(LINE_BREAK, j)]); [repeat constructor|exact A1]|]. split; [exact A2|reflexivity].
Qed.
Lemma body_then_nls n t rest qs m : body_then n t false rest qs -> body_then n t true (repeat (nl le) (S m) ++ rest) qs.
Proof. intros H. induction m as [|m IH]; [apply (body_then_nl n t false); exact H|]. apply (body_then_nl n t true). exact IH. Qed.
Lemma body_then_end n t qs : body_then n t true (nl le :: qs) qs.
Proof. intros K HK. destruct (nl_tok K _ HK) as (j & K1 & -> & H1). exists [(LINE_BREAK, j)], K1. split; [reflexivity|]. split; [apply ab_gaps; repeat constructor|]. auto. Qed.
Lemma body_then_head n t rest qs : body_then n t true rest qs -> exists r, rest = r /\ forall K, kr K rest -> khd K = LINE_BREAK.
Proof. intros H. exists rest. split; [reflexivity|]. intros K HK. destruct (H K HK) as (B & K' & -> & _ & _ & E). specialize (E eq_refl). destruct B; [discriminate|exact E]. Qed.
Definition back_value (v : fval) (ps : list piece) : Prop := forall n K qs, wf_value v = true -> (vnest v <= n)%nat -> kr K (ps ++ qs) ->
  exists G V T K', K = G ++ V ++ T ++ K' /\ gaps G /\ acore n V /\ atail T /\ kr K' qs /\ (vlead v = [] -> G = []) /\ (vtc v = None -> T = []).
Definition back_item (i : item fval) (ps : list piece) : Prop := forall n t K qs, wf_item t i = true -> wf_value (ival i) = true -> (inest i <= n)%nat -> kr K (ps ++ qs) ->
  exists G I T K', K = G ++ I ++ T ++ K' /\ gaps G /\ aitem n t I /\ atail T /\ kr K' qs /\ (vtc (ival i) = None -> T = []).
Definition good_items (n : nat) (t : bool) (its : list (item fval)) : Prop := Forall (fun i => wf_item t i = true /\ wf_value (ival i) = true /\ (inest i <= n)%nat) its.
Definition good_groups (n : nat) (t : bool) (gs : list (group (item fval))) : Prop := Forall (fun g => match g with GD _ _ => True | GI _ its => good_items n t its end) gs.
Lemma good_box n t lead otc gs tc : wf_value (FBox t lead otc gs tc) = true -> (vnest (FBox t lead otc gs tc) <= S n)%nat -> good_groups n t gs.
Proof.
  rewrite vnest_box. cbn [wf_value]. intros H HN. apply le_S_n in HN. induction gs as [|g gs IH]; [constructor|]. cbn [forallb] in H. apply andb_true_iff in H as [H1 H2].
  cbn [gsnest fold_right] in HN. fold (gsnest gs) in HN. constructor; [|apply IH; [exact H2|lia]]. destruct g as [|b its]; [exact I|]. cbn [gnest] in HN. apply andb_true_iff in H1 as [_ H1].
  assert (HI : (isnest its <= n)%nat) by lia. clear - H1 HI. induction its as [|[l ks r v c] its IH]; [constructor|]. cbn [forallb] in H1. apply andb_true_iff in H1 as [H1 H2]. apply andb_true_iff in H1 as [H0 H1].
  cbn [isnest fold_right] in HI. fold (isnest its) in HI. constructor; [|apply IH; [exact H2|lia]]. cbn [ival]. split; [exact H0|]. split; [exact H1|lia].
Qed.
Lemma good_flat n t gs : good_groups n t gs -> good_items n t (items_of gs).
Proof. induction 1 as [|g gs H HS IH]; [constructor|]. cbn [items_of flat_map]. fold (items_of gs). apply Forall_app. split; [|exact IH]. destruct g; [constructor|exact H]. Qed.
Definition back_ls (its : list (item fval)) (ps : list piece) : Prop := forall n t r qs, good_items n t its -> body_then n t true (nl le :: r) qs -> body_then n t false (ps ++ nl le :: r) qs.
Definition back_gs (w : bool) (gs : list (group (item fval))) (ps : list piece) : Prop := forall n t qs, good_groups n t gs -> body_then n t w (ps ++ nl le :: qs) qs.
Definition back_row (its : list (item fval)) (ps : list piece) : Prop := forall n t K qs, good_items n t its -> Forall quiet its -> kr K (ps ++ qs) -> exists B K', K = B ++ K' /\ abody n t B /\ kr K' qs.
Lemma groups_head (w : bool) gs ps qs : lay_groups le limit rc rk rl w gs ps -> w = true -> exists r, ps ++ nl le :: qs = nl le :: r.
Proof. destruct 1 as [w|w b cs gs pc ps H HS|w b its gs pi ps H HS]; intros ->; [eexists; reflexivity|eexists; cbn [separator repeat app]; reflexivity|eexists; cbn [separator repeat app]; reflexivity]. Qed.
Lemma sep_then n t w b ps qs : body_then n t false ps qs -> body_then n t w (separator le limit w b ++ ps) qs.
Proof. intros H. destruct w; cbn [separator]; [apply body_then_nls; exact H|exact H]. Qed.
Lemma item_then n t i pi pc r qs : back_item i pi -> lay_comma le rc (is_some (vtc (ival i))) (icomma i) pc -> wf_item t i = true -> wf_value (ival i) = true -> (inest i <= n)%nat ->
  body_then n t true (nl le :: r) qs -> body_then n t false (pi ++ pc ++ nl le :: r) qs.
Proof.
  intros HI HC W1 W2 HN HB K HK. destruct (HI n t K _ W1 W2 HN HK) as (G & I & T & K1 & -> & A1 & A2 & A3 & A4 & _). destruct (back_comma _ _ _ HC K1 _ A4) as (C & K2 & -> & B1 & B2 & B3).
  destruct (HB K2 B3) as (B & K' & -> & C1 & C2 & C3). specialize (C3 eq_refl). assert (NB : B <> []) by (intros ->; discriminate). exists (G ++ I ++ T ++ C ++ B), K'. rewrite <- !app_assoc. split; [reflexivity|]. split; [|split; [exact C2|discriminate]].
  apply ab_item; auto; [|rewrite C3; discriminate]. destruct C as [|x C]; [cbn [app]; rewrite C3; discriminate|exact B2].
Qed.
Lemma dangling_then n t cs pc r qs : dangling le rc cs pc -> body_then n t true (nl le :: r) qs -> body_then n t false (pc ++ nl le :: r) qs.
Proof.
  intros HD HB K HK. destruct (back_dangling _ _ HD K _ HK) as (G & j & K1 & -> & A1 & A2). destruct (HB K1 A2) as (B & K' & -> & C1 & C2 & C3). exists (G ++ (COMMENT, j) :: B), K'. rewrite <- app_assoc. split; [reflexivity|].
  split; [|split; [exact C2|discriminate]]. apply abody_gaps; [exact A1|]. apply abody_comment; auto.
Qed.
Lemma lit_pieces k : literal_kind k = true -> k <> WHITESPACE /\ k <> BARE_KEY.
Proof. destruct k; try discriminate; split; discriminate. Qed.
Lemma open_tok K table ps : kr K (open_piece table :: ps) -> exists j K', K = (open_kind table, j) :: K' /\ kr K' ps.
Proof. intros H. destruct table; apply (tok K _ _ ps) in H; try discriminate; exact H. Qed.
Lemma close_tok K table ps : kr K (close_piece table :: ps) -> exists j K', K = (close_kind table, j) :: K' /\ kr K' ps.
Proof. intros H. destruct table; apply (tok K _ _ ps) in H; try discriminate; exact H. Qed.
Theorem layouts_back : (forall v ps, lay_value le limit rc rk rl v ps -> back_value v ps) /\ (forall i ps, lay_item le limit rc rk rl i ps -> back_item i ps) /\ (forall its ps, lay_lines le limit rc rk rl its ps -> back_ls its ps)
  /\ (forall w gs ps, lay_groups le limit rc rk rl w gs ps -> back_gs w gs ps) /\ (forall its ps, lay_line le limit rc rk rl its ps -> back_row its ps).
Proof.
  apply (lay_mutind le limit rc rk rl (fun v ps _ => back_value v ps) (fun i ps _ => back_item i ps) (fun its ps _ => back_ls its ps) (fun w gs ps _ => back_gs w gs ps) (fun its ps _ => back_row its ps)).
  - (* a literal *)
    intros lead k tk tc pl b p pt HL HB HR HT n K qs W HN HK. rewrite <- !app_assoc in HK. destruct (back_lines _ _ HL K _ HK) as (G & K1 & -> & A1 & _ & A3 & A4). apply kr_blanks in A3; [|exact HB].
    cbn [app] in A3. cbn [wf_value] in W. pose proof (Hrl _ _ _ HR W) as W'. destruct (lit_pieces _ W') as [N1 N2]. destruct p as [k' w]. cbn [fst] in *. destruct (tok K1 k' w _ N1 N2 A3) as (j & K2 & -> & B1). destruct (back_tail _ _ HT K2 _ B1) as (T & K' & -> & C1 & C2 & C3).
    exists G, [(k', j)], T, K'. split; [reflexivity|]. split; [apply soft_gaps; exact A1|]. split; [constructor; exact W'|]. split; [exact C1|]. split; [exact C2|]. split; [exact A4|exact C3].
  - (* over lines *)
    intros table lead otc gs tc pl b po pg b' pt HL HB HO _ IH HB' HT n K qs W HN HK. rewrite <- !app_assoc in HK. destruct (back_lines _ _ HL K _ HK) as (G & K1 & -> & A1 & _ & A3 & A4). apply kr_blanks in A3; [|exact HB].
    cbn [app] in A3. destruct (open_tok K1 table _ A3) as (j & K2 & -> & B1). rewrite <- !app_assoc in B1. destruct (back_tail _ _ HO K2 _ B1) as (T & K3 & -> & C1 & C2 & _). destruct n as [|n]; [cbn in HN; lia|].
    pose proof (good_box n table lead otc gs tc W HN) as GG. cbn [app] in C2. rewrite <- !app_assoc in C2. cbn [app] in C2. rewrite <- !app_assoc in C2. cbn [app] in C2.
    pose proof (body_then_nl n table false _ _ (IH n table (b' ++ close_piece table :: pt ++ qs) GG)) as BT. destruct (BT K3 C2) as (B & K4 & -> & D1 & D2 & D3). apply kr_blanks in D2; [|exact HB']. destruct (close_tok K4 table _ D2) as (j' & K5 & -> & E1).
    destruct (back_tail _ _ HT K5 _ E1) as (T' & K' & -> & F1 & F2 & F3). specialize (D3 eq_refl).
    exists G, ((open_kind table, j) :: T ++ B ++ [(close_kind table, j')]), T', K'. split; [cbn [app]; rewrite <- !app_assoc; reflexivity|]. split; [apply soft_gaps; exact A1|]. split; [constructor; auto; rewrite D3; discriminate|].
    split; [exact F1|]. split; [exact F2|]. split; [exact A4|exact F3].
  - (* on one line *)
    intros table lead gs tc pl b b1 pg b2 pt HL HB HB1 HG HQ _ IH HB2 HT n K qs W HN HK. rewrite <- !app_assoc in HK. destruct (back_lines _ _ HL K _ HK) as (G & K1 & -> & A1 & _ & A3 & A4). apply kr_blanks in A3; [|exact HB].
    cbn [app] in A3. destruct (open_tok K1 table _ A3) as (j & K2 & -> & B1). rewrite <- !app_assoc in B1. apply kr_blanks in B1; [|exact HB1]. destruct n as [|n]; [cbn in HN; lia|].
    pose proof (good_flat _ _ _ (good_box n table lead None gs tc W HN)) as GG. destruct (IH n table K2 _ GG HQ B1) as (B & K4 & -> & D1 & D2). apply kr_blanks in D2; [|exact HB2]. cbn [app] in D2. destruct (close_tok K4 table _ D2) as (j' & K5 & -> & E1).
    destruct (back_tail _ _ HT K5 _ E1) as (T' & K' & -> & F1 & F2 & F3). destruct (abody_tail _ _ _ D1) as (T & B' & -> & X1 & X2 & X3).
    exists G, ((open_kind table, j) :: T ++ B' ++ [(close_kind table, j')]), T', K'. split; [cbn [app]; rewrite <- !app_assoc; reflexivity|]. split; [apply soft_gaps; exact A1|]. split; [constructor; auto|].
    split; [exact F1|]. split; [exact F2|]. split; [exact A4|exact F3].
  - (* an item of an array *)
    intros raw v c ps _ IH n t K qs W1 W2 HN HK. destruct t; [discriminate|]. destruct (IH n K qs W2 HN HK) as (G & V & T & K' & -> & A1 & A2 & A3 & A4 & A5 & A6).
    exists G, V, T, K'. split; [reflexivity|]. split; [exact A1|]. split; [constructor; exact A2|]. auto.
  - (* a key/value *)
    intros lead ks raw v c pl b pk b1 b2 pv HL HB HK HB1 HB2 _ IH n t K qs W1 W2 HN HR. cbn [ival] in *. rewrite <- !app_assoc in HR. destruct (back_lines _ _ HL K _ HR) as (G & K1 & -> & A1 & _ & A3 & A4). apply kr_blanks in A3; [|exact HB]. cbn [app] in A3.
    destruct t; cbn [wf_item] in W1; apply andb_true_iff in W1 as [W1 W3].
    + unfold wf_keys in W1. apply andb_true_iff in W1 as [_ W1].
      assert (HQ : match b1 ++ (EQUAL, [61]) :: (b2 ++ pv) ++ qs with (DOT, _) :: _ => False | _ => True end). { destruct b1 as [|[k0 w0] b1]; [exact I|]. cbn [app]. inversion HB1 as [|? ? [E _]]. cbn [fst] in E. subst k0. exact I. }
      destruct (back_keys (length ks) ks pk (le_n _) HK W1 K1 _ HQ A3) as (Ks & K2 & -> & B1 & B2). apply kr_blanks in B2; [|exact HB1]. destruct (tok K2 EQUAL [61] _ ltac:(discriminate) ltac:(discriminate) B2) as (j & K3 & -> & C1).
      rewrite <- app_assoc in C1. apply kr_blanks in C1; [|exact HB2]. destruct (IH n K3 qs W2 HN C1) as (G' & V & T & K' & -> & D1 & D2 & D3 & D4 & D5 & D6).
      assert (E : vlead v = []) by (destruct (vlead v); [reflexivity|discriminate]). specialize (D5 E). subst G'. exists G, (Ks ++ (EQUAL, j) :: V), T, K'. split; [rewrite <- !app_assoc; reflexivity|]. split; [apply soft_gaps; exact A1|]. split; [constructor; auto|]. auto.
    + exfalso. destruct HK; discriminate.
  - intros i pi pc _ IH HC n t r qs HG HB. inversion HG as [|? ? (W1 & W2 & HN) _]; subst. rewrite <- app_assoc. apply (item_then n t i); auto.
  - intros i its pi pc ps _ IH HC _ IHS n t r qs HG HB. inversion HG as [|? ? (W1 & W2 & HN) HG']; subst. rewrite <- !app_assoc. cbn [app]. apply (item_then n t i); auto. apply (body_then_nl n t false). apply IHS; auto.
  - intros w n t qs _. destruct w; [|apply (body_then_weak n t true)]; apply body_then_end.
  - intros w b cs gs pc ps HD HG IH n t qs HH. inversion HH as [|? ? _ HH']; subst. rewrite <- !app_assoc. apply sep_then. destruct (groups_head true gs ps qs HG eq_refl) as [r E]. rewrite E. apply (dangling_then n t cs); auto. rewrite <- E. apply IH. exact HH'.
  - intros w b its gs pi ps HD IHL HG IH n t qs HH. inversion HH as [|? ? HH1 HH']; subst. rewrite <- !app_assoc. apply sep_then. destruct (groups_head true gs ps qs HG eq_refl) as [r E]. rewrite E. apply IHL; auto. rewrite <- E. apply IH. exact HH'.
  - intros n t K qs _ _ HK. exists [], K. split; [reflexivity|]. split; [apply ab_gaps; constructor|exact HK].
  - intros i pi _ IH n t K qs HG HQ HK. inversion HG as [|? ? (W1 & W2 & HN) _]; subst. destruct (IH n t K qs W1 W2 HN HK) as (G & I & T & K' & -> & A1 & A2 & A3 & A4 & _).
    exists (G ++ I ++ T ++ [] ++ []), K'. rewrite !app_nil_r, <- !app_assoc. split; [reflexivity|]. split; [|exact A4]. rewrite <- (app_nil_r T). apply (ab_item n t G I T [] []); auto; try discriminate; try constructor. constructor.
  - intros i its pi b ps _ IH HB _ _ IHS n t K qs HG HQ HK. inversion HG as [|? ? (W1 & W2 & HN) HG']; subst. inversion HQ as [|? ? Q1 HQ']; subst. rewrite <- app_assoc in HK. cbn [app] in HK. destruct (IH n t K _ W1 W2 HN HK) as (G & I & T & K1 & -> & A1 & A2 & A3 & A4 & A5).
    destruct (tok K1 COMMA [44] _ ltac:(discriminate) ltac:(discriminate) A4) as (j & K2 & -> & B1). rewrite <- app_assoc in B1. apply kr_blanks in B1; [|exact HB]. destruct (IHS n t K2 qs HG' HQ' B1) as (B & K' & -> & C1 & C2). destruct (abody_tail _ _ _ C1) as (T' & B' & -> & X1 & X2 & X3).
    exists (G ++ I ++ T ++ ([] ++ (COMMA, j) :: T') ++ B'), K'. split; [cbn [app]; rewrite <- !app_assoc; cbn [app]; rewrite <- !app_assoc; reflexivity|]. split; [|exact C2]. apply ab_item; auto; try discriminate. constructor; [constructor|exact X1].
Qed.

(** ** Lines, tables and documents *)
Definition doc_then (strong : bool) (rest : list piece) : Prop := forall K, kr K rest ->
  exists B S, K = B ++ S ++ [(EOF, false)] /\ alines B /\ asections S /\ (strong = true -> khd B = LINE_BREAK).
Lemma doc_then_weak s rest : doc_then s rest -> doc_then false rest.
Proof. intros H K HK. destruct (H K HK) as (B & S & E & A1 & A2 & _). exists B, S. split; [exact E|]. split; [exact A1|]. split; [exact A2|discriminate]. Qed.
Lemma doc_then_nl s rest : doc_then s rest -> doc_then true (nl le :: rest).
Proof.
  intros H K HK. destruct (nl_tok K _ HK) as (j & K1 & -> & H1). destruct (H K1 H1) as (B & S & -> & A1 & A2 & _). exists ((LINE_BREAK, j) :: B), S. split; [reflexivity|].
  split; [apply (alines_gaps [(LINE_BREAK, j)]); [repeat constructor|exact A1]|]. split; [exact A2|reflexivity].
Qed.
Lemma doc_then_nls rest m : doc_then false rest -> doc_then true (nl le :: repeat (nl le) m ++ rest).
Proof. intros H. induction m as [|m IH]; [apply (doc_then_nl false); exact H|]. apply (doc_then_nl true). exact IH. Qed.
Lemma doc_then_end : doc_then false [].
Proof. intros K HK. apply kr_nil in HK. subst K. exists [], []. split; [reflexivity|]. split; [apply al_gaps; constructor|]. split; [constructor|discriminate]. Qed.
Let D := MAX_RECURSION_DEPTH.
Lemma kv_then i pi pc r : lay_item le limit rc rk rl i pi -> lay_line_comma le rc (is_some (vtc (ival i))) (icomma i) pc -> wf_item true i = true -> wf_value (ival i) = true -> (inest i <= D)%nat ->
  doc_then true (nl le :: r) -> doc_then false (pi ++ pc ++ nl le :: r).
Proof.
  intros HI HC W1 W2 HN HB K HK. apply (proj1 (proj2 layouts_back)) in HI. destruct (HI D true K _ W1 W2 HN HK) as (G & I & T & K1 & -> & A1 & A2 & A3 & A4 & A5).
  destruct (back_line_comma _ _ _ HC ltac:(destruct (is_some _); auto) K1 _ A4) as (T' & C & K2 & -> & B0 & B1 & B2 & B3 & B4).
  destruct (HB K2 B3) as (B & S & -> & C1 & C2 & C3). specialize (C3 eq_refl). exists (G ++ I ++ (T ++ T') ++ C ++ B), S. rewrite <- !app_assoc. split; [reflexivity|]. split; [|split; [exact C2|discriminate]].
  rewrite (app_assoc T T'). apply al_item; auto.
  - destruct (vtc (ival i)) eqn:E; cbn [is_some] in B4; [rewrite (B4 eq_refl), app_nil_r; exact A3|rewrite (A5 eq_refl); exact B0].
  - destruct C as [|x C]; [cbn [app]; rewrite C3; discriminate|exact B2].
Qed.
Lemma kvs_then its ps : lay_kvs le limit rc rk rl its ps -> good_items D true its -> forall r, doc_then true (nl le :: r) -> doc_then false (ps ++ nl le :: r).
Proof.
  induction 1 as [i pi pc HI HC|i its pi pc ps HI HC H IH]; intros HG r HB; inversion HG as [|? ? (W1 & W2 & HN) HG']; subst; rewrite <- !app_assoc.
  - apply (kv_then i); auto.
  - cbn [app]. apply (kv_then i); auto. apply (doc_then_nl false). apply IH; auto.
Qed.
Lemma blocks_head (w : bool) gs ps qs : lay_blocks le limit rc rk rl w gs ps -> w = true -> exists r, ps ++ nl le :: qs = nl le :: r.
Proof. destruct 1 as [w|w b cs gs pc ps H HS|w b its gs pi ps H HS]; intros ->; eexists; cbn [separator repeat app]; reflexivity. Qed.
Lemma dsep_then w b ps : doc_then false ps -> doc_then w (separator le limit w b ++ ps).
Proof. intros H. destruct w; cbn [separator]; [apply (doc_then_nls ps (N.to_nat (N.min b limit))); exact H|exact H]. Qed.
Lemma ddangling_then cs pc r : dangling le rc cs pc -> doc_then true (nl le :: r) -> doc_then false (pc ++ nl le :: r).
Proof.
  intros HD HB K HK. destruct (back_dangling _ _ HD K _ HK) as (G & j & K1 & -> & A1 & A2). destruct (HB K1 A2) as (B & S & -> & C1 & C2 & C3). exists (G ++ (COMMENT, j) :: B), S. rewrite <- app_assoc. split; [reflexivity|].
  split; [|split; [exact C2|discriminate]]. apply alines_gaps; [exact A1|]. apply alines_comment; auto.
Qed.
Lemma blocks_then w gs ps : lay_blocks le limit rc rk rl w gs ps -> good_groups D true gs -> forall r, doc_then true (nl le :: r) -> doc_then w (ps ++ nl le :: r).
Proof.
  induction 1 as [w|w b cs gs pc ps HD HG IH|w b its gs pi ps HL HG IH]; intros HH r HB.
  - destruct w; [exact HB|apply (doc_then_weak true); exact HB].
  - inversion HH as [|? ? _ HH']; subst. rewrite <- !app_assoc. apply dsep_then. destruct (blocks_head true gs ps r HG eq_refl) as [r' E]. rewrite E. apply (ddangling_then cs); auto. rewrite <- E. apply IH; auto.
  - inversion HH as [|? ? HH1 HH']; subst. rewrite <- !app_assoc. apply dsep_then. destruct (blocks_head true gs ps r HG eq_refl) as [r' E]. rewrite E. apply (kvs_then its); auto. rewrite <- E. apply IH; auto.
Qed.
Definition good_table (t : ftable) : Prop := wf_keys (t_keys t) = true /\ good_groups D true (t_groups t).
Lemma brackets_tok a k w K ps : k = BRACKET_START \/ k = BRACKET_END -> kr K (brackets a (k, w) ++ ps) -> exists j K', K = (if a then [(k, true); (k, j)] else [(k, j)]) ++ K' /\ kr K' ps.
Proof.
  intros HK H. assert (N : k <> WHITESPACE /\ k <> BARE_KEY) by (destruct HK as [-> | ->]; split; discriminate). destruct N as [N1 N2]. destruct a; cbn [brackets app] in *.
  - destruct (kr_tok K k w _ N1 N2 H) as (j & K1 & -> & H1 & HJ). destruct (tok K1 k w _ N1 N2 H1) as (j' & K2 & -> & H2). exists j', K2. rewrite (HJ N1). auto.
  - destruct (tok K k w _ N1 N2 H) as (j & K1 & -> & H1). eauto.
Qed.
Lemma table_then t ps : lay_table le limit rc rk rl t ps -> good_table t -> forall r, doc_then true (nl le :: r) -> doc_then false (ps ++ nl le :: r).
Proof.
  destruct 1 as [a lead ks tc gs blank pl b pk pt pg HL HB HK HT HG]. intros [W1 W2] r HR K HP. cbn [t_keys t_groups] in *. rewrite <- !app_assoc in HP. destruct (back_lines _ _ HL K _ HP) as (G & K1 & -> & A1 & _ & A3 & _). apply kr_blanks in A3; [|exact HB].
  destruct (brackets_tok a _ _ K1 _ (or_introl eq_refl) A3) as (j & K2 & -> & B1). unfold wf_keys in W1. apply andb_true_iff in W1 as [_ W1].
  destruct (fun X => back_keys (length ks) ks pk (le_n _) HK W1 K2 _ X B1) as (Ks & K3 & -> & B2 & B3); [destruct a; exact I|]. destruct (brackets_tok a _ _ K3 _ (or_intror eq_refl) B3) as (j' & K4 & -> & C1). destruct (back_tail _ _ HT K4 _ C1) as (T & K5 & -> & D1 & D2 & _).
  assert (HX : doc_then true (match gs with [] => [] | _ => nl le :: pg end ++ nl le :: r)). { destruct gs as [|g gs]; [exact HR|]. apply (doc_then_nl false). apply (blocks_then false (g :: gs)); auto. }
  destruct (HX K5 D2) as (B & S & -> & E1 & E2 & E3). exists G, (aopen a j ++ Ks ++ aclose a j' ++ T ++ B ++ S). split; [unfold aopen, aclose; rewrite <- !app_assoc; reflexivity|]. split; [apply al_gaps, soft_gaps; exact A1|]. split; [|discriminate]. constructor; auto.
Qed.
Lemma tables_then gap ts ps : lay_tables le limit rc rk rl gap ts ps -> Forall good_table ts -> forall r, doc_then true (nl le :: r) -> doc_then false (ps ++ nl le :: r).
Proof.
  induction 1 as [t ps H|t t' ts pt ps H HS IH]; intros HG r HR; inversion HG as [|? ? G1 HG']; subst.
  - apply (table_then t); auto.
  - rewrite <- app_assoc. cbn [app]. apply (table_then t); auto. rewrite <- app_assoc. apply doc_then_nls. apply IH; auto.
Qed.
Theorem root_back gap rgap d ps : lay_root le limit rc rk rl gap rgap d ps -> good_groups D true (d_groups d) -> Forall good_table (d_tables d) ->
  forall K, kr K (ps ++ [nl le]) -> exists B S, K = B ++ S ++ [(EOF, false)] /\ alines B /\ asections S.
Proof.
  intros H HG HT. assert (HX : doc_then false (ps ++ [nl le])).
  { destruct H as [gs ps H|gs t ts pg ps H HS]; cbn [d_groups d_tables] in *.
    - apply (blocks_then false gs); auto. apply (doc_then_nl false). exact doc_then_end.
    - assert (HY : doc_then false (ps ++ [nl le])) by (apply (tables_then gap (t :: ts)); auto; apply (doc_then_nl false); exact doc_then_end). destruct gs as [|g gs].
      + inversion H; subst. exact HY.
      + rewrite <- !app_assoc. cbn [app]. apply (blocks_then false (g :: gs)); auto. apply doc_then_nls. exact HY. }
  intros K HK. destruct (HX K HK) as (B & S & E & A1 & A2 & _). exists B, S. auto.
Qed.
End Back.
