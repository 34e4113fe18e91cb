(** The converse of ParserAccepts.v: a run of the parser that reports nothing has passed over a sequence of tokens of the grammar. *)
From Coq Require Import String Ascii List NArith Bool Arith Lia.
From Verif Require Import Base SyntaxKind TextModel LexerModel LexerSpec LexerProofs ParserModel ParserInv ParserPrims ParserBuild ParserDepth
  ParserYield AstModel FormatPieces FormatterModel FormatterLayout ParserShape ParserAccepts ParseBack.
Import ListNotations.
Open Scope N_scope.
Open Scope list_scope.

Notation lcs := (Forall (fun x : kind * bool => is_lc (fst x) = true)).
(** * Sequences *)
Lemma dropk_split f (K : sks) : exists L, K = L ++ dropk f K /\ Forall (fun x => f (fst x) = true) L.
Proof.
  induction K as [|[k j] K (L & E & H)]; [exists []; split; [reflexivity|constructor]|]. rewrite dropk_cons. destruct (f k) eqn:EF.
  - exists ((k, j) :: L). cbn [app]. rewrite <- E. split; [reflexivity|constructor; auto].
  - exists []. split; [reflexivity|constructor].
Qed.
(** After a comment comes a line break or the end. *)
Definition closed (K : sks) : Prop := forall a j b, K = a ++ (COMMENT, j) :: b -> khd b = LINE_BREAK \/ khd b = EOF.
Lemma tame_closed ts : tame ts -> closed (sig ts).
Proof.
  intros HT a. revert ts HT. induction a as [|[k j0] a IH]; intros ts HT j b E; cbn [app] in E.
  - exact (tame_sig_comment ts j b HT E).
  - apply sig_inv in E as (ws & t & rest & -> & _ & _ & _ & _ & E). refine (IH rest _ j b E). apply (tame_suffix (ws ++ [t])). rewrite <- app_assoc. exact HT.
Qed.
Lemma closed_suffix a b : closed (a ++ b) -> closed b.
Proof. intros H x j y ->. apply (H (a ++ x) j y). rewrite <- app_assoc. reflexivity. Qed.
Lemma khd_in (a b : sks) k : k <> EOF -> khd (a ++ b) <> k -> khd a <> k.
Proof. intros HK H E. apply H. destruct a as [|x a]; [contradiction HK; rewrite <- E; reflexivity|]. exact E. Qed.
Lemma khd_cases (a b : sks) : a = [] /\ khd (a ++ b) = khd b \/ a <> [] /\ khd (a ++ b) = khd a.
Proof. destruct a as [|x a]; [left; auto|right]. split; [discriminate|reflexivity]. Qed.
Lemma abody_eof n table B : abody n table B -> khd B = EOF -> B = [].
Proof.
  destruct 1 as [n table G HG|n table G I T C B HG HI HT HC N1 N2 HB]; destruct HG as [|j G HG|j j' G HG]; cbn [app]; try discriminate; [reflexivity|].
  destruct (aitem_head _ _ _ HI) as ([k j] & X & -> & X1 & X2). cbn [app]. rewrite khd_cons. intros ->. destruct table; discriminate.
Qed.
Lemma body_front n table c R B : abody n table B -> fst c = close_kind table -> forall L, lcs L -> closed (L ++ B ++ c :: R) -> abody n table (L ++ B).
Proof.
  intros HB HC. induction 1 as [|[k j] L HK HL IH]; [auto|]. cbn [app]. intros HX. specialize (IH (closed_suffix [(k, j)] _ HX)). cbn [fst] in HK. destruct (lc_cases _ HK) as [-> | ->].
  - apply abody_comment; [|exact IH]. specialize (HX [] j (L ++ B ++ c :: R) eq_refl). rewrite app_assoc in HX. destruct (khd_cases (L ++ B) (c :: R)) as [[E1 E2]|[E1 E2]]; rewrite E2 in HX.
    + destruct c as [kc jc]. cbn [fst] in HC. rewrite khd_cons, HC in HX. destruct table, HX as [HX|HX]; discriminate.
    + destruct HX as [HX|HX]; [exact HX|]. contradiction E1. eapply abody_eof; eauto.
  - apply (abody_gaps n table [(LINE_BREAK, j)]); [repeat constructor|exact IH].
Qed.
Lemma peek_inv K k : knth (peekK K) K = k -> is_lc k = false -> k <> EOF -> exists S j r, K = S ++ (k, j) :: r /\ soft S.
Proof.
  intros HK HL HE. remember (length K) as n eqn:E. assert (HN : (length K <= n)%nat) by lia. clear E. revert K HN HK. induction n as [|n IH]; intros K HN HK.
  - destruct K; [|cbn in HN; lia]. contradiction HE. rewrite <- HK. reflexivity.
  - destruct K as [|[k0 j] r]; [contradiction HE; rewrite <- HK; reflexivity|]. rewrite peekK_eq in HK. change (knth 0 ((k0, j) :: r)) with k0 in HK. cbn [length] in HN.
    destruct (kind_eqb k0 LINE_BREAK) eqn:E1.
    + apply kind_eqb_eq in E1. subst k0. cbn [tl] in HK. change (knth (S (peekK r)) ((LINE_BREAK, j) :: r)) with (knth (peekK r) r) in HK.
      destruct (IH r ltac:(lia) HK) as (S & j' & r' & -> & HS). exists ((LINE_BREAK, j) :: S), j', r'. split; [reflexivity|]. constructor. exact HS.
    + destruct (_ && _ && _) eqn:E2.
      * apply andb_true_iff in E2 as [E2 E4]. apply andb_true_iff in E2 as [E2 E3]. apply kind_eqb_eq in E2. subst k0. destruct r as [|[k2 j2] r]; [discriminate|]. apply kind_eqb_eq in E3. change (k2 = LINE_BREAK) in E3. subst k2.
        cbn [tl] in HK. change (knth (S (S (peekK r))) ((COMMENT, j) :: (LINE_BREAK, j2) :: r)) with (knth (peekK r) r) in HK. cbn [length] in HN.
        destruct (IH r ltac:(lia) HK) as (S & j' & r' & -> & HS). exists ((COMMENT, j) :: (LINE_BREAK, j2) :: S), j', r'. split; [reflexivity|]. constructor; [exact HS|].
        apply negb_true_iff, kind_eqb_neq in E4. change (khd (S ++ (k, j') :: r') <> LINE_BREAK) in E4. eapply khd_in; [discriminate|exact E4].
      * change (k0 = k) in HK. subst k0. exists [], j, r. split; [reflexivity|constructor].
Qed.

(** * Steps *)
(** From [p] to [p'] the tokens [X] are passed. *)
Definition took (p p' : pst) (X : sks) : Prop := K0 p = X ++ K0 p' /\ tame (p_rest p') /\ p_depth p' = p_depth p.
Lemma took_trans p q r X Y : took p q X -> took q r Y -> took p r (X ++ Y).
Proof. intros (A1 & A2 & A3) (B1 & B2 & B3). split; [rewrite A1, B1, app_assoc; reflexivity|]. split; [exact B2|congruence]. Qed.
Lemma took_refl p : tame (p_rest p) -> took p p [].
Proof. intros H. split; [reflexivity|]. auto. Qed.
Lemma took_start p q X : took (push_event (EStart TOMBSTONE) p) q X -> took p q X.
Proof. intros H. exact H. Qed.
Lemma took_complete m k p q p' X : took p q X -> complete m k q = Done p' -> took p p' X /\ K0 p' = K0 q.
Proof.
  intros (A1 & A2 & A3) H. pose proof (complete_K0 _ _ _ _ H) as EK. split; [|exact EK]. split; [rewrite EK; exact A1|]. split; [rewrite (complete_rest _ _ _ _ H); exact A2|]. rewrite <- A3. eapply complete_depth; eauto.
Qed.
Lemma took_closed p q X : tame (p_rest p) -> took p q X -> closed (X ++ K0 q).
Proof. intros HT (E & _). rewrite <- E. apply tame_closed. exact HT. Qed.
Lemma leading_took p q : tame (p_rest p) -> leading_comments p = Done q -> exists L, took p q L /\ lcs L /\ is_lc (khd (K0 q)) = false /\ (is_lc (khd (K0 p)) = false -> L = []).
Proof.
  intros HT H. destruct (leading_yields _ _ HT H) as (l & Y & _ & N & K & _). destruct (dropk_split is_lc (K0 p)) as (L & E & HL). rewrite <- K in E. exists L.
  split; [split; [exact E|split; [exact (tame_yields _ _ _ Y HT)|eapply leading_depth; eauto]]|]. split; [exact HL|]. split; [exact N|].
  intros HZ. destruct L as [|[k j] L]; [reflexivity|]. rewrite E in HZ. cbn [app] in HZ. rewrite khd_cons in HZ. inversion HL; subst. cbn [fst] in *. congruence.
Qed.
Lemma trailing_took p q : tame (p_rest p) -> trailing_comment p = Done q -> exists T, took p q T /\ atail T /\ khd (K0 q) <> COMMENT /\ (khd (K0 p) <> COMMENT -> T = []).
Proof.
  intros HT H. destruct (trailing_yields _ _ HT H) as (cs & tc & Y & _ & N & _). unfold trailing_comment in H. destruct (while_eat_yields COMMENT p q eq_refl ltac:(discriminate) H) as (_ & _ & _ & _ & EK & _).
  assert (HX : exists T, K0 p = T ++ K0 q /\ atail T /\ (khd (K0 p) <> COMMENT -> T = [])).
  { destruct (K0 p) as [|[k j] r] eqn:E; [exists []; rewrite EK; repeat split; constructor|]. rewrite dropk_cons in EK. destruct (kind_eqb k COMMENT) eqn:EC.
    - apply kind_eqb_eq in EC. subst k. pose proof (tame_sig_comment _ _ _ HT E) as HR. rewrite dropk_stop in EK by (destruct HR as [-> | ->]; reflexivity). exists [(COMMENT, j)]. rewrite EK. split; [reflexivity|]. split; [constructor|]. intros HZ. contradiction HZ. reflexivity.
    - exists []. rewrite EK. split; [reflexivity|]. split; [constructor|reflexivity]. }
  destruct HX as (T & E & A & Z). exists T. split; [split; [exact E|split; [exact (tame_yields _ _ _ Y HT)|]]|auto]. eapply while_eat_depth; eauto.
Qed.
Lemma eat_took p k q : tame (p_rest p) -> plain_kind k = true -> k <> EOF -> eat k p = (true, q) -> exists j, took p q [(k, j)].
Proof.
  intros HT HP HE H. destruct (eat_yields p k true q HP HE H) as (HK & ET & HN & w & Y). destruct (K0 p) as [|[k0 j] r] eqn:EK; [congruence|]. rewrite khd_cons in HK. subst k0. cbn [tl] in ET.
  exists j. split; [rewrite EK, ET; reflexivity|]. split; [exact (tame_yields _ _ _ Y HT)|]. pose proof (eat_depth k p) as HD. rewrite H in HD. exact HD.
Qed.
Lemma breaks_took p q : tame (p_rest p) -> while_eat LINE_BREAK p = Done q -> exists L, took p q L /\ lcs L.
Proof.
  intros HT H. destruct (while_eat_yields LINE_BREAK p q eq_refl ltac:(discriminate) H) as (cs & Y & _ & _ & EK & _). destruct (dropk_split (fun x => kind_eqb x LINE_BREAK) (K0 p)) as (L & E & HL). rewrite <- EK in E. exists L.
  split; [split; [exact E|split; [exact (tame_yields _ _ _ Y HT)|eapply while_eat_depth; eauto]]|]. eapply Forall_impl; [|exact HL]. intros [k j] HK. apply kind_eqb_eq in HK. cbn [fst] in *. subst k. reflexivity.
Qed.
(** Tokens that are comments and line breaks *)
Lemma sig_app_kinds a : forall b, exists X, sig (a ++ b) = X ++ sig b /\ map fst X = map tkind (sign a).
Proof.
  induction a as [|t a IH]; intros b; [exists []; auto|]. destruct (IH b) as (X & E & EM). cbn [app sig sign filter]. fold (sign a). destruct (triv t); cbn [negb]; [exists X; auto|].
  rewrite E. exists ((tkind t, joint (a ++ b)) :: X). split; [reflexivity|]. cbn [map fst]. rewrite EM. reflexivity.
Qed.
Lemma shaped_lc src tr ts cs : shaped src tr ts cs -> Forall (fun k => is_lc k = true) (lkinds cs) -> Forall (fun t => is_lc (tkind t) = true) (sign ts).
Proof.
  induction 1 as [|t tr ts cs HT H IH|k n grp tr ts cs HF HL HK H IH|k tr1 ts1 cs1 tr ts cs HT H1 IH1 H IH]; intros HX; cbn [lkinds flat_map tkinds] in HX.
  - constructor.
  - cbn [sign filter]. rewrite HT. cbn [negb]. apply IH. exact HX.
  - cbn [app] in HX. inversion HX as [|k0 l0 H1 H2]; subst. rewrite sign_app, (sign_all grp HF). apply Forall_app. split; [|apply IH; exact H2]. destruct HK; try discriminate H1; repeat constructor; auto.
  - rewrite sign_app. apply Forall_app in HX as [X1 X2]. apply Forall_app. split; [apply IH1; exact X1|apply IH; exact X2].
Qed.
Lemma reads_lc src c n : reads src c n -> Forall (fun t => is_lc (tkind t) = true) (sign n) -> Forall (fun t => is_lc (tkind t) = true) (sign c).
Proof.
  induction 1 as [|t c n H IH|t u v x y z c n HK HS HU HV [HX _] HY HZ H IH]; intros HF; [constructor| |].
  - cbn [sign filter] in *. fold (sign c) (sign n) in *. destruct (negb (triv t)); [inversion HF; subst; constructor; auto|auto].
  - exfalso. cbn [sign filter] in HF. unfold triv in HF at 1. rewrite HX in HF. cbn in HF. inversion HF as [|? ? H1 _]; subst. rewrite HX in H1. discriminate.
Qed.
Lemma yields_lc p cs q : yields p cs q -> Forall (fun k => is_lc k = true) (lkinds cs) -> exists L, K0 p = L ++ K0 q /\ lcs L.
Proof.
  intros [_ (tr & c & n & _ & E & _ & HS & HR & _)] HF. pose proof (reads_lc _ _ _ HR (shaped_lc _ _ _ _ HS HF)) as HC. unfold K0. rewrite E. destruct (sig_app_kinds c (p_rest q)) as (X & EX & EM). exists X. split; [exact EX|].
  apply Forall_forall. intros x HI. apply (in_map fst) in HI. rewrite EM in HI. apply in_map_iff in HI as (t & <- & HI). rewrite Forall_forall in HC. apply HC. exact HI.
Qed.
Lemma lead_lc l c : sh_lead l c -> Forall (fun k => is_lc k = true) (lkinds l).
Proof. intros [H _]. induction H as [|t l [w [-> | ->]] H IH]; [constructor| |]; (cbn; constructor; [reflexivity|exact IH]). Qed.
Lemma dangling_took p q : tame (p_rest p) -> dangling_comment_groups p = Done q -> exists L, took p q L /\ lcs L.
Proof.
  intros HT H. destruct (dangling_yields TOMBSTONE true p q HT H) as (cs & Y & _ & HB & _). destruct (HB 0%nat) as (gs & m & HB0).
  assert (HF : Forall (fun k => is_lc k = true) (lkinds cs)).
  { pose proof Y as [_ (tr & c & n & _ & _ & _ & HS & _)]. clear -HB0 HS. revert tr n HS gs m HB0. generalize 0%nat. induction cs as [|t cs IH]; intros n0 tr n HS gs m HB; [constructor|].
    assert (HT : forall k l, t = TNode k l -> k <> TOMBSTONE).
    { clear -HS. intros k l ->. remember (TNode k l :: cs) as x eqn:E. induction HS as [|t tr ts cs0 HT H IH|k0 n grp tr ts cs0 HF HL HK H IH|k0 tr1 ts1 cs1 tr ts cs0 HT H1 IH1 H IH]; try discriminate; [auto|]. injection E as -> _ _. exact HT. }
    assert (HR : exists tr' n', shaped (p_src p) tr' n' cs).
    { clear -HS. remember (t :: cs) as x eqn:E. induction HS as [|t0 tr ts cs0 HT H IH|k0 n grp tr ts cs0 HF HL HK H IH|k0 tr1 ts1 cs1 tr ts cs0 HT H1 IH1 H IH]; try discriminate; [auto| |]; injection E as _ ->; eauto. }
    destruct HR as (tr' & n' & HR). inversion HB as [|? ? ? w es gs0 m0 HB'|? ? ? ds c es gs0 m0 HD HC HB'|? ? ? its is es gs0 m0 HI HC HB']; subst.
    - cbn. constructor; [reflexivity|]. eapply IH; eauto.
    - change (lkinds (TNode DANGLING_COMMENT_GROUP ds :: cs)) with (lkinds ds ++ lkinds cs). apply Forall_app. split; [eapply lead_lc; eauto|eapply IH; eauto].
    - contradiction (HT _ _ eq_refl). reflexivity. }
  destruct (yields_lc _ _ _ Y HF) as (L & E & HL). exists L. split; [|exact HL]. split; [exact E|]. split; [exact (tame_yields _ _ _ Y HT)|]. eapply dangling_depth; eauto.
Qed.
Lemma comma_took p q : tame (p_rest p) -> nth_at (peekK (K0 p)) COMMA p = true -> comma p = Done q -> exists C, took p q C /\ acomma C /\ khd (K0 q) <> COMMENT.
Proof.
  intros HT HC H. rewrite nth_at_sig in HC by reflexivity. apply kind_eqb_eq in HC. destruct (peek_inv _ _ HC eq_refl ltac:(discriminate)) as (S & j & r & EK & HS).
  unfold comma in H. cbn [start] in H. binds H. set (ps := push_event (EStart TOMBSTONE) p) in *. assert (HT0 : tame (p_rest ps)) by exact HT.
  destruct (leading_yields _ _ HT0 E) as (l & Y & _ & _ & EQ & _). change (K0 ps) with (K0 p) in EQ. change (sig (p_rest p)) with (K0 p) in EK. rewrite EK, (drop_gaps S (COMMA, j) r (gaps_lc _ (soft_gaps _ HS)) eq_refl) in EQ.
  pose proof (tame_yields _ _ _ Y HT0) as HT1. destruct (at_ COMMA q0) eqn:EA; cbn [negb] in H; [|discriminate]. destruct (eat COMMA q0) as [b q1] eqn:E1.
  assert (b = true) by (rewrite (eat_at _ _ EA) in E1; congruence). subst b. destruct (eat_took q0 COMMA q1 HT1 eq_refl ltac:(discriminate) E1) as (j1 & T1). binds H.
  destruct (trailing_took q1 q2 (proj1 (proj2 T1)) E0) as (T & T2 & AT & N & _).
  assert (TP : took p q0 S). { split; [rewrite EK, EQ; reflexivity|]. split; [exact HT1|]. pose proof (proj2 (leading_depth ps _ eq_refl) _ E) as HD. exact HD. }
  pose proof (took_trans _ _ _ _ _ TP (took_trans _ _ _ _ _ T1 T2)) as TT. destruct (took_complete _ _ _ _ _ _ TT H) as [TF EF]. exists (S ++ [(COMMA, j1)] ++ T). split; [exact TF|]. split; [apply cm_some; auto|]. rewrite EF. exact N.
Qed.

(** * Keys *)
Definition stuck (p : pst) : Prop := khd (K0 p) = FLOAT.
Lemma float_took p q : tame (p_rest p) -> khd (K0 p) = FLOAT -> bump_float_key p = Done q -> (exists j, took p q [(FLOAT, j)]) \/ stuck q.
Proof.
  intros HT HK H. destruct (K0 p) as [|[k j] r] eqn:EK; [discriminate|]. rewrite khd_cons in HK. subst k. pose proof (bump_float_depth p _ eq_refl) as [_ HD]. specialize (HD _ H).
  unfold bump_float_key in H. rewrite nth_kind_sig in H. change (sig (p_rest p)) with (K0 p) in H. rewrite EK in H. change (kind_eqb (knth 0 ((FLOAT, j) :: r)) FLOAT) with true in H. cbn [negb] in H.
  destruct (text_slice _ _ _) as [text|] eqn:ET; [|discriminate]. destruct (negb _) eqn:EN.
  - cbn [start] in H. set (ps := push_event (EStart TOMBSTONE) p) in *. destruct (remap_ran BARE_KEY FLOAT j r ps ltac:(discriminate) EK) as [(_ & E1 & _) _]. left. exists j. pose proof (complete_K0 _ _ _ _ H) as E2. pose proof (complete_rest _ _ _ _ H) as E3.
    split; [rewrite EK, E2, E1; reflexivity|]. split; [|exact HD]. rewrite E3. unfold bump_remap. destruct (kind_eqb (nth_kind 0 ps) EOF); [exact HT|]. unfold do_bump. destruct (nth_split 1 (p_rest ps)) as [a b] eqn:ES. cbn [p_rest].
    assert (EA : p_rest p = a ++ b). { pose proof (nth_split_app 1 (p_rest ps)) as HA. rewrite ES in HA. symmetry. exact HA. } rewrite EA in HT. exact (tame_suffix _ _ HT).
  - destruct (split_dot text) as [|u [|v [|]]]; try discriminate. cbv zeta in H. binds H. binds H. binds H.
    apply synthetic_ran in E as (A1 & A2 & A3). apply synthetic_ran in E0 as (B1 & B2 & B3). apply synthetic_ran in E1 as (C1 & C2 & C3). rewrite C2, B2, A2 in H.
    unfold K0 in EK. destruct (p_rest p) as [|t ts] eqn:ER; [discriminate|]. injection H as <-. cbn [sig] in EK. destruct (triv t) eqn:Et.
    + right. unfold stuck, K0. cbn [p_rest]. rewrite EK. reflexivity.
    + left. exists j. injection EK as E1 E2 E3. split; [unfold K0; rewrite ER; cbn [sig p_rest]; rewrite Et, E1, E2; reflexivity|]. split; [|exact HD]. cbn [p_rest]. apply (tame_suffix [t]). exact HT.
Qed.
Lemma eat_key_took p b q : tame (p_rest p) -> eat_key p = Done (b, q) -> nerr q = nerr p -> b = true /\ ((exists k j, took p q [(k, j)] /\ key_first k = true) \/ stuck q).
Proof.
  intros HT H HQ. pose proof (eat_key_depth p _ eq_refl) as [_ HD]. specialize (HD _ H). cbn [snd] in HD. destruct (eat_key_yields p b q H HQ) as [Hb _]. split; [exact Hb|].
  assert (HBAD : (do r <- current_range (push_event (EStart TOMBSTONE) p); do q <- complete (length (p_events p)) INVALID_TOKEN (p_error ExpectedKey r (push_event (EStart TOMBSTONE) p)); Done (false, q)) = Done (b, q) -> (exists k j, took p q [(k, j)] /\ key_first k = true) \/ stuck q).
  { intros HB. exfalso. binds HB. binds HB. injection HB as <- _. discriminate. }
  unfold eat_key, p_current in H. rewrite nth_kind_sig in H. change (sig (p_rest p)) with (K0 p) in H. fold (khd (K0 p)) in H.
  destruct (K0 p) as [|[k j] r] eqn:EK; [exact (HBAD H)|]. change (khd ((k, j) :: r)) with k in H. cbn [start] in H. set (ps := push_event (EStart TOMBSTONE) p) in *.
  assert (H1 : key_first k = true -> plain_kind k = true -> (do q <- p_bump k ps; do q <- complete (length (p_events p)) k q; Done (true, q)) = Done (b, q) -> (exists k j, took p q [(k, j)] /\ key_first k = true) \/ stuck q).
  { intros HKK HP HB. binds HB. binds HB. injection HB as _ <-. left. unfold p_bump in E. destruct (eat k ps) as [e q2] eqn:EE. destruct e; [|discriminate]. injection E as ->.
    assert (HNE : k <> EOF) by (intros ->; discriminate). destruct (eat_took ps k q0 HT HP HNE EE) as (j' & TK). exists k, j'. split; [|exact HKK]. exact (proj1 (took_complete _ _ _ _ _ _ TK E0)). }
  assert (H2 : key_first k = true -> (do q <- complete (length (p_events p)) BARE_KEY (bump_remap BARE_KEY ps); Done (true, q)) = Done (b, q) -> (exists k j, took p q [(k, j)] /\ key_first k = true) \/ stuck q).
  { intros HKK HB. binds HB. injection HB as _ <-. left. exists k, j. split; [|exact HKK]. destruct (remap_ran BARE_KEY k j r ps ltac:(intros ->; discriminate) EK) as [(_ & E1 & _) _].
    split; [rewrite EK, (complete_K0 _ _ _ _ E), E1; reflexivity|]. split; [|exact HD]. rewrite (complete_rest _ _ _ _ E). unfold bump_remap. destruct (kind_eqb (nth_kind 0 ps) EOF); [exact HT|]. unfold do_bump. destruct (nth_split 1 (p_rest ps)) as [x y] eqn:ES. cbn [p_rest].
    assert (EA : p_rest p = x ++ y). { pose proof (nth_split_app 1 (p_rest ps)) as HA. rewrite ES in HA. symmetry. exact HA. } rewrite EA in HT. exact (tame_suffix _ _ HT). }
  destruct k; try exact (HBAD H); try (apply H1; [reflexivity|reflexivity|exact H]); try (apply H2; [reflexivity|exact H]).
  binds H. injection H as _ <-. destruct (float_took p q0 HT) as [(j' & TK)|HS]; [rewrite EK; reflexivity|exact E| |right; exact HS]. left. exists FLOAT, j'. split; [exact TK|reflexivity].
Qed.
Lemma dotted_took fuel : forall p b q, tame (p_rest p) -> dotted_keys fuel false p = Done (b, q) -> nerr q = nerr p -> (exists Ks, took p q Ks /\ akeys Ks) \/ stuck q.
Proof.
  induction fuel as [|fuel IH]; intros p b p' HT H HQ; [discriminate|]. cbn [dotted_keys] in H. binds H. destruct q as [ok q]. cbn [orb] in H.
  pose proof (mono_eat_key p _ E) as M1. cbn [snd] in M1. destruct (eat DOT q) as [dot q2] eqn:E2. pose proof (nerr_eat _ _ _ _ E2) as M2.
  assert (HQ1 : nerr q = nerr p).
  { destruct (negb dot); [injection H as <- <-; lia|]. destruct (negb (at_ts TS_KEY_FIRST q2)).
    - binds H. injection H as <- <-. rewrite nerr_error in HQ. lia.
    - apply mono_dotted in H. cbn [snd] in H. lia. }
  destruct (eat_key_took p ok q HT E HQ1) as [-> HE]. cbn [negb] in H. destruct dot; cbn [negb] in H.
  - destruct (negb (at_ts TS_KEY_FIRST q2)). { exfalso. binds H. injection H as <- <-. rewrite nerr_error in HQ. lia. }
    destruct HE as [(k & j & TK & HK)|HE]; [|destruct (eat_yields q DOT true q2 eq_refl ltac:(discriminate) E2) as (HX & _); rewrite HE in HX; discriminate].
    destruct (eat_took q DOT q2 (proj1 (proj2 TK)) eq_refl ltac:(discriminate) E2) as (d & TD). destruct (IH q2 b p' (proj1 (proj2 TD)) H ltac:(lia)) as [(Ks & TKs & HKs)|HS]; [left|right; exact HS].
    exists ((k, j) :: (DOT, d) :: Ks). split; [|constructor; auto]. exact (took_trans _ _ _ _ _ TK (took_trans _ _ _ _ _ TD TKs)).
  - destruct (eat_yields q DOT false q2 eq_refl ltac:(discriminate) E2) as [-> _]. injection H as _ <-. destruct HE as [(k & j & TK & HK)|HE]; [left|right; exact HE]. exists [(k, j)]. split; [exact TK|constructor; exact HK].
Qed.
Lemma keys_took p p' : tame (p_rest p) -> keys p = Done p' -> nerr p' = nerr p -> (exists Ks, took p p' Ks /\ akeys Ks) \/ stuck p'.
Proof.
  unfold keys. cbn [start]. intros HT H HQ. binds H. destruct q as [ok q]. pose proof (nerr_complete _ _ _ _ H) as M.
  assert (HN : nerr (push_event (EStart TOMBSTONE) p) = nerr p) by (rewrite nerr_push; cbn; lia).
  assert (HE : (exists Ks, took (push_event (EStart TOMBSTONE) p) q Ks /\ akeys Ks) \/ stuck q).
  { unfold eat_keys in E. destruct (nth_at 1 DOT _).
    - eapply dotted_took; eauto. lia.
    - destruct (eat_key_took (push_event (EStart TOMBSTONE) p) ok q HT E ltac:(lia)) as [_ [(k & j & TK & HK)|HS]]; [left; exists [(k, j)]; split; [exact TK|constructor; exact HK]|right; exact HS]. }
  destruct HE as [(Ks & TK & HK)|HS]; [left|right; unfold stuck; rewrite (complete_K0 _ _ _ _ H); exact HS]. exists Ks. split; [|exact HK]. exact (proj1 (took_complete _ _ _ _ _ _ (took_start _ _ _ TK) H)).
Qed.

(** * Values and items *)
Definition sound_value (n : nat) (v : pst -> res pst) : Prop := forall p p', tame (p_rest p) -> (p_depth p + n = MAX_RECURSION_DEPTH)%nat -> v p = Done p' -> nerr p' = nerr p ->
  exists L X T, took p p' (L ++ X ++ T) /\ lcs L /\ acore n X /\ atail T /\ khd (K0 p') <> COMMENT /\ (is_lc (khd (K0 p)) = false -> L = []).
Definition sound_item (n : nat) (table : bool) (f : pst -> res pst) : Prop := forall p p', tame (p_rest p) -> (p_depth p + n = MAX_RECURSION_DEPTH)%nat -> f p = Done p' -> nerr p' = nerr p ->
  exists L X T, took p p' (L ++ X ++ T) /\ lcs L /\ aitem n table X /\ atail T /\ khd (K0 p') <> COMMENT.
Lemma literal_sound n p p' : tame (p_rest p) -> literal_kind (khd (dropk is_lc (K0 p))) = true -> parse_literal_value p = Done p' ->
  exists L X T, took p p' (L ++ X ++ T) /\ lcs L /\ acore n X /\ atail T /\ khd (K0 p') <> COMMENT /\ (is_lc (khd (K0 p)) = false -> L = []).
Proof.
  intros HT HL. unfold parse_literal_value. cbn [start]. set (ps := push_event _ p). intros H. binds H.
  assert (HT0 : tame (p_rest ps)) by exact HT. destruct (leading_yields _ _ HT0 E) as (_ & _ & _ & _ & K1 & _). destruct (leading_took _ _ HT0 E) as (L & T1 & HL1 & N1 & Z1).
  unfold p_current in H. rewrite nth_kind_sig in H. fold (khd (K0 q)) in H. rewrite K1 in H. change (K0 ps) with (K0 p) in *.
  set (k := khd (dropk is_lc (K0 p))) in *. destruct (literal_plain k HL) as (HP & HNE & HNT & _). binds H. rename q0 into q1. unfold p_bump in E0.
  destruct (eat k q) as [b q2] eqn:EE. destruct b; [|discriminate]. injection E0 as ->.
  destruct (eat_took q k q1 (proj1 (proj2 T1)) HP HNE EE) as (j & T2). binds H. rename q0 into q3.
  destruct (trailing_took _ _ (proj1 (proj2 T2)) E0) as (T & T3 & AT & N3 & _).
  pose proof (took_trans _ _ _ _ _ T1 (took_trans _ _ _ _ _ T2 T3)) as TT. destruct (took_complete _ _ _ _ _ _ (took_start _ _ _ TT) H) as [TF EF].
  exists L, [(k, j)], T. split; [exact TF|]. split; [exact HL1|]. split; [constructor; exact HL|]. split; [exact AT|]. split; [rewrite EF; exact N3|exact Z1].
Qed.
Lemma value_sound_item n v : sound_value n v -> sound_item n false v.
Proof. intros HV p p' HT HD H HQ. destruct (HV p p' HT HD H HQ) as (L & X & T & A & B & C & D & F & _). exists L, X, T. split; [exact A|]. split; [exact B|]. split; [constructor; exact C|auto]. Qed.
Section Items.
Context (n : nat) (v : pst -> res pst) (Hm : forall p, mono p (v p) idp) (Hv : sound_value n v).
Lemma key_value_sound : sound_item n true (key_value v).
Proof.
  intros p p' HT HD H HQ. unfold key_value in H. cbn [start] in H. set (ps := push_event _ p) in *. assert (HN0 : nerr ps = nerr p) by (unfold ps; rewrite nerr_push; cbn; lia).
  binds H. pose proof (mono_leading _ _ E) as M1. assert (HT0 : tame (p_rest ps)) by exact HT.
  destruct (leading_took _ _ HT0 E) as (L & T1 & L1 & N1 & _). pose proof (proj1 (proj2 T1)) as HT1.
  binds H. rename q0 into q1. pose proof (mono_keys _ _ E0) as M2. destruct (eat EQUAL q1) as [eq q2] eqn:EE. pose proof (nerr_eat _ _ _ _ EE) as M3.
  binds H. rename q0 into q3. assert (M4 : (nerr q2 <= nerr q3)%nat /\ (eq = false -> (nerr q2 < nerr q3)%nat) /\ (eq = true -> q3 = q2)).
  { destruct eq; cbn [negb] in E1; [injection E1 as <-; repeat split; auto; try discriminate|]. binds E1. injection E1 as <-. rewrite nerr_error. repeat split; try lia; try discriminate. }
  binds H. rename q0 into q4. assert (M5 : (nerr q3 <= nerr q4)%nat /\ (at_ts TS_LINE_END q3 = true \/ at_ COMMENT q3 = true -> (nerr q3 < nerr q4)%nat)).
  { assert (HI : forall x y, invalid_token x = Done y -> nerr y = nerr x) by (intros x y HX; unfold invalid_token in HX; cbn [start] in HX; apply nerr_complete in HX; rewrite HX, nerr_push; cbn; lia).
    destruct (at_ts TS_LINE_END q3) eqn:EA. { binds E2. apply HI in E3. binds E2. injection E2 as <-. rewrite nerr_error. lia. }
    destruct (at_ COMMENT q3) eqn:EC. { binds E2. apply HI in E3. injection E2 as <-. rewrite nerr_error. lia. }
    apply Hm in E2. unfold idp in E2. split; [lia|]. intros [HH|HH]; discriminate. }
  binds H. rename q0 into q5. pose proof (mono_trailing _ _ E3) as M6. pose proof (nerr_complete _ _ _ _ H) as M7. unfold idp in *.
  destruct M4 as (M4 & M4f & M4t). destruct M5 as (M5 & M5s). destruct eq; [|specialize (M4f eq_refl); lia]. specialize (M4t eq_refl). subst q3.
  destruct (keys_took q q1 HT1 E0 ltac:(lia)) as [(Ks & T2 & S2)|HF]; [|destruct (eat_yields q1 EQUAL true q2 eq_refl ltac:(discriminate) EE) as (HKE & _); rewrite HF in HKE; discriminate].
  destruct (eat_took q1 EQUAL q2 (proj1 (proj2 T2)) eq_refl ltac:(discriminate) EE) as (je & T3).
  destruct (at_ts TS_LINE_END q2) eqn:EA; [assert ((nerr q2 < nerr q4)%nat) by (apply M5s; auto); lia|].
  destruct (at_ COMMENT q2) eqn:EC; [assert ((nerr q2 < nerr q4)%nat) by (apply M5s; auto); lia|].
  pose proof (took_trans _ _ _ _ _ T1 (took_trans _ _ _ _ _ T2 T3)) as TP. assert (HD2 : p_depth q2 = p_depth p) by exact (proj2 (proj2 TP)).
  destruct (Hv q2 q4 (proj1 (proj2 T3)) ltac:(lia) E2 ltac:(lia)) as (L4 & X & T & T4 & _ & S4 & A4 & N4 & Z4).
  assert (HL4 : L4 = []). { apply Z4. rewrite at_ts_sig in EA. unfold at_ in EC. rewrite nth_at_sig in EC by reflexivity. fold (khd (K0 q2)) in EC.
    unfold is_lc. cbn in EA |- *. rewrite EC. destruct (kind_eqb (khd (K0 q2)) LINE_BREAK); [discriminate|]. reflexivity. }
  subst L4. cbn [app] in T4. destruct (trailing_took _ _ (proj1 (proj2 T4)) E3) as (T5 & T5t & _ & N5 & Z5). rewrite (Z5 N4) in T5t.
  pose proof (took_trans _ _ _ _ _ TP (took_trans _ _ _ _ _ T4 T5t)) as TT. destruct (took_complete _ _ _ _ _ _ (took_start _ _ _ TT) H) as [TF EF].
  exists L, (Ks ++ (EQUAL, je) :: X), T. split; [|split; [exact L1|split; [constructor; auto|split; [exact A4|rewrite EF; exact N5]]]].
  rewrite app_nil_r in TF. repeat (rewrite <- app_assoc in TF; cbn [app] in TF). repeat (rewrite <- app_assoc; cbn [app]). exact TF.
Qed.
End Items.

(** * Groups *)
(** What may stand in front of a closing token: [ok last c B]. *)
Section Carry.
Context (d : nat) (ok : bool -> kind * bool -> sks -> Prop).
Definition carries (p p' : pst) (X : sks) : Prop := took p p' X /\ forall last B c R, K0 p' = B ++ c :: R -> ok last c B -> ok last c (X ++ B).
Lemma carries_trans p q r X Y : carries p q X -> carries q r Y -> carries p r (X ++ Y).
Proof.
  intros [A1 A2] [B1 B2]. split; [eapply took_trans; eauto|]. intros last B c R E H. rewrite <- app_assoc. apply (A2 last (Y ++ B) c R).
  - rewrite (proj1 B1), E, app_assoc. reflexivity.
  - apply (B2 last B c R); auto.
Qed.
Lemma carries_refl p : tame (p_rest p) -> carries p p [].
Proof. intros H. split; [apply took_refl; exact H|auto]. Qed.
Definition sound_group (E : pst -> Prop) (g : pst -> res pst) : Prop := forall p p', tame (p_rest p) -> p_depth p = d -> g p = Done p' -> nerr p' = nerr p -> E p' -> exists X, carries p p' X.
Lemma loop_mono body : (forall p, mono p (body p) snd) -> forall fuel p p', loop_ fuel body p = Done p' -> (nerr p <= nerr p')%nat.
Proof.
  intros HM. induction fuel as [|fuel IH]; intros p p' H; [discriminate|]. cbn [loop_] in H. destruct (body p) as [[b r]| | |] eqn:E; try discriminate. pose proof (HM p _ E) as M. cbn [snd] in M.
  destruct b; [apply IH in H; lia|injection H as <-; exact M].
Qed.
Lemma steps_carry (E : pst -> Prop) body : (forall p, mono p (body p) snd) ->
  (forall p b q, tame (p_rest p) -> p_depth p = d -> body p = Done (b, q) -> nerr q = nerr p -> (b = false -> E q) -> exists X, carries p q X) ->
  forall fuel p p', tame (p_rest p) -> p_depth p = d -> loop_ fuel body p = Done p' -> nerr p' = nerr p -> E p' -> exists X, carries p p' X.
Proof.
  intros HM HB. induction fuel as [|fuel IH]; intros p p' HT HD H HQ HE; [discriminate|]. cbn [loop_] in H.
  destruct (body p) as [[b q]| | |] eqn:EB; try (destruct b; discriminate); try discriminate. pose proof (HM p _ EB) as M. cbn [snd] in M. destruct b.
  - pose proof (loop_mono body HM _ _ _ H) as M2. destruct (HB p true q HT HD EB ltac:(lia) ltac:(discriminate)) as (X & C1). destruct C1 as [(A1 & A2 & A3) A4].
    destruct (IH q p' A2 ltac:(lia) H ltac:(lia) HE) as (Y & C2). exists (X ++ Y). apply (carries_trans p q p'); [|exact C2]. split; [split; auto|exact A4].
  - injection H as <-. apply (HB p false q HT HD EB HQ). intros _. exact HE.
Qed.
Context (Hfront : forall last L B c R, lcs L -> closed (L ++ B ++ c :: R) -> ok last c B -> ok last c (L ++ B)).
Lemma carries_lcs p q L : tame (p_rest p) -> took p q L -> lcs L -> carries p q L.
Proof. intros HT T HL. split; [exact T|]. intros last B c R E H. apply (Hfront last L B c R); auto. rewrite <- E, <- (proj1 T). apply tame_closed. exact HT. Qed.
Lemma body_carry (E : pst -> Prop) ends group (tail : pst -> res pst) : (forall p, mono p (group p) idp) -> sound_group E group ->
  (forall p, mono p (tail p) idp) -> (forall p p', tail p = Done p' -> nerr p' = nerr p -> p' = p /\ E p) ->
  forall fuel p p', tame (p_rest p) -> p_depth p = d -> loop_ fuel (fun p =>
    do p <- while_eat LINE_BREAK p;
    do p <- dangling_comment_groups p;
    do n <- peek_leading_comments p;
    if nth_at_ts n ends p then break p
    else do p <- group p; do p <- tail p; again p) p = Done p' -> nerr p' = nerr p -> exists X, carries p p' X.
Proof.
  intros HM HG HMt HTl fuel p p' HT HD H HQ. eapply (steps_carry (fun _ => True)) in H; eauto.
  - intros q. eapply mono_bind; [apply mono_while_eat|]. unfold idp. intros q5 _. eapply mono_bind; [apply mono_dangling|]. unfold idp. intros q6 _. apply mono_any. intros n.
    destruct (nth_at_ts n ends q6); [mdone|]. eapply mono_bind; [apply HM|]. unfold idp. intros q7 _. eapply mono_bind; [apply HMt|]. intros q8 _. mdone.
  - clear p p' HT HD H HQ. intros p b q HT HD H HQ _. binds H. rename q0 into q1. binds H. rename q0 into q2. pose proof (mono_while_eat _ _ _ E0) as M1. pose proof (mono_dangling _ _ E1) as M2. unfold idp in M1, M2.
    destruct (breaks_took _ _ HT E0) as (L1 & T1 & HL1). destruct (dangling_took _ _ (proj1 (proj2 T1)) E1) as (L2 & T2 & HL2).
    pose proof (carries_trans _ _ _ _ _ (carries_lcs _ _ _ HT T1 HL1) (carries_lcs _ _ _ (proj1 (proj2 T1)) T2 HL2)) as C. pose proof (proj1 (proj2 (proj1 C))) as HT2. pose proof (proj2 (proj2 (proj1 C))) as HD2.
    rewrite peek_ok in H. cbn [bind] in H. destruct (nth_at_ts _ ends q2); [injection H as <- <-; eauto|]. binds H. rename q0 into q3. binds H. injection H as <- <-. rename q0 into q4.
    pose proof (HM _ _ E2) as M3. pose proof (HMt _ _ E3) as M4. unfold idp in M3, M4. destruct (HTl q3 q4 E3 ltac:(lia)) as [-> HE]. destruct (HG q2 q3 HT2 ltac:(lia) E2 ltac:(lia) HE) as (X & CX).
    exists ((L1 ++ L2) ++ X). exact (carries_trans _ _ _ _ _ C CX).
Qed.
End Carry.

(** * Arrays and inline tables *)
Definition body_ok (n : nat) (table : bool) (_ : bool) (c : kind * bool) (B : sks) : Prop := fst c = close_kind table /\ abody n table B.
Lemma body_ok_front n table : forall last L B c R, lcs L -> closed (L ++ B ++ c :: R) -> body_ok n table last c B -> body_ok n table last c (L ++ B).
Proof. intros last L B c R HL HC [H1 H2]. split; [exact H1|]. exact (body_front n table c R B H2 H1 L HL HC). Qed.
Lemma commas_sound n table item firsts ends gk : (forall p, mono p (item p) idp) -> sound_item n table item -> forall d, (d + n = MAX_RECURSION_DEPTH)%nat ->
  sound_group d (body_ok n table) (fun _ => True) (fun p => let (m, p) := start p in
  do p <- loop (fun p =>
    if is_group_separator p then break p else
    do p <- item p;
    do n <- peek_leading_comments p;
    let next p :=
      do n <- peek_leading_comments p;
      if negb (nth_at_ts n firsts p) then break p else again p in
    if nth_at n COMMA p then do p <- comma p; next p
    else if nth_at_ts n ends p then break p
    else next p) p;
  complete m gk p).
Proof.
  intros HM HI d Hd p p' HT HD H HQ _. cbn [start] in H. set (ps := push_event _ p) in *. assert (HN0 : nerr ps = nerr p) by (unfold ps; rewrite nerr_push; cbn; lia).
  binds H. pose proof (nerr_complete _ _ _ _ H) as M7.
  assert (HNX : forall q b r, (do n <- peek_leading_comments q; if negb (nth_at_ts n firsts q) then break q else again q) = Done (b, r) -> r = q).
  { intros x b r HX. rewrite peek_ok in HX. cbn [bind] in HX. destruct (negb _); injection HX as <- <-; reflexivity. }
  assert (HC : exists X, carries (body_ok n table) ps q X).
  { unfold loop in E. eapply (steps_carry d (body_ok n table) (fun _ => True)) in E; auto.
    - clear -HM. intros q. destruct (is_group_separator q); [mdone|]. eapply mono_bind; [apply HM|]. unfold idp. intros q1 _. apply mono_any. intros n. cbv zeta.
      assert (HN : forall q2, mono q2 (do n <- peek_leading_comments q2; if negb (nth_at_ts n firsts q2) then break q2 else again q2) snd).
      { intros q2. apply mono_any. intros n2. destruct (negb _); mdone. }
      destruct (nth_at n COMMA q1); [|destruct (nth_at_ts n ends q1); [mdone|apply HN]]. eapply mono_bind; [apply mono_comma|]. intros q2 _. apply HN.
    - clear -HM HI Hd HNX. intros x b r HTx HDx HB HQx _. destruct (is_group_separator x). { injection HB as <- <-. exists []. apply carries_refl. exact HTx. }
      binds HB. rename q into x1. pose proof (HM _ _ E) as M1. unfold idp in M1. rewrite peek_ok in HB. cbn [bind] in HB. cbv zeta in HB.
      assert (HQ1 : nerr x1 = nerr x). { destruct (nth_at _ COMMA x1); [binds HB; pose proof (mono_comma _ _ E0) as M2; unfold idp in M2; apply HNX in HB; subst; lia|]. destruct (nth_at_ts _ ends x1); [injection HB as <- <-; lia|]. destruct (negb _); injection HB as <- <-; lia. }
      destruct (HI x x1 HTx ltac:(lia) E HQ1) as (L & I & T & T1 & HL & AI & AT & N1).
      assert (HSTEP : forall C, took x1 r C -> acomma C -> (khd (K0 x1) <> COMMENT) -> khd (K0 r) <> COMMENT -> carries (body_ok n table) x r ((L ++ I ++ T) ++ C)).
      { intros C T2 AC _ NR. pose proof (took_trans _ _ _ _ _ T1 T2) as TT. split; [exact TT|]. intros last B c R EK [H1 H2]. split; [exact H1|].
        assert (EB : ((L ++ I ++ T) ++ C) ++ B = L ++ I ++ T ++ C ++ B) by (repeat rewrite <- app_assoc; reflexivity). rewrite EB.
        apply (body_front n table c R (I ++ T ++ C ++ B)); auto.
        - apply (ab_item n table []); auto; [constructor| |].
          + assert (E1 : khd ((C ++ B) ++ c :: R) <> COMMENT) by (rewrite <- app_assoc, <- EK, <- (proj1 T2); exact N1). eapply khd_in; [discriminate|exact E1].
          + rewrite EK in NR. eapply khd_in; [discriminate|exact NR].
        - assert (E2 : L ++ (I ++ T ++ C ++ B) ++ c :: R = K0 x) by (rewrite (proj1 TT), EK; repeat rewrite <- app_assoc; reflexivity). rewrite E2. apply tame_closed. exact HTx. }
      destruct (nth_at (peekK (K0 x1)) COMMA x1) eqn:EC.
      + binds HB. apply HNX in HB. subst r. destruct (comma_took x1 q (proj1 (proj2 T1)) EC E0) as (C & T2 & AC & N2). eauto.
      + assert (r = x1). { destruct (nth_at_ts _ ends x1); [injection HB as <- <-; reflexivity|]. destruct (negb _); injection HB as <- <-; reflexivity. } subst r.
        exists ((L ++ I ++ T) ++ []). apply HSTEP; auto; [apply took_refl; exact (proj1 (proj2 T1))|constructor].
    - lia. }
  destruct HC as (X & T1 & C1). destruct (took_complete _ _ _ _ _ _ (took_start _ _ _ T1) H) as [TF EF]. exists X. split; [exact TF|]. rewrite EF. exact C1.
Qed.
Lemma bracketed_sound n table group e : (forall p, mono p (group p) idp) -> forall d, sound_group d (body_ok n table) (fun _ => True) group -> forall p p', tame (p_rest p) -> p_depth p = d ->
  bracketed (open_kind table) (close_kind table) (if table then TS_INLINE_TABLE_END else TS_ARRAY_END) group e (box_kind table) p = Done p' -> nerr p' = nerr p ->
  exists L X T, took p p' (L ++ X ++ T) /\ lcs L /\ acore (S n) X /\ atail T /\ khd (K0 p') <> COMMENT /\ (is_lc (khd (K0 p)) = false -> L = []).
Proof.
  intros HM d HG p p' HT HD H HQ. unfold bracketed in H. cbn [start] in H. set (ps := push_event _ p) in *. assert (HN0 : nerr ps = nerr p) by (unfold ps; rewrite nerr_push; cbn; lia).
  binds H. pose proof (mono_leading _ _ E) as M1. assert (HT0 : tame (p_rest ps)) by exact HT.
  destruct (leading_took _ _ HT0 E) as (L & T1 & L1 & N1 & Z1).
  destruct (at_ (open_kind table) q) eqn:EA; cbn [negb] in H; [|discriminate]. destruct (eat (open_kind table) q) as [b q2] eqn:EE.
  assert (b = true) by (rewrite (eat_at _ _ EA) in EE; congruence). subst b. pose proof (nerr_eat _ _ _ _ EE) as M2.
  assert (HPO : plain_kind (open_kind table) = true /\ open_kind table <> EOF) by (destruct table; split; (reflexivity || discriminate)).
  assert (HPC : plain_kind (close_kind table) = true /\ close_kind table <> EOF) by (destruct table; split; (reflexivity || discriminate)).
  destruct (eat_took q _ q2 (proj1 (proj2 T1)) (proj1 HPO) (proj2 HPO) EE) as (j & T2).
  binds H. rename q0 into q3. pose proof (mono_trailing _ _ E0) as M3. destruct (trailing_took _ _ (proj1 (proj2 T2)) E0) as (OT & T3 & AO & N3 & _).
  binds H. rename q0 into q4. destruct (eat (close_kind table) q4) as [closed0 q5] eqn:EE2. pose proof (nerr_eat _ _ _ _ EE2) as M5.
  binds H. rename q0 into q6. binds H. rename q0 into q7. pose proof (mono_trailing _ _ E3) as M7. pose proof (nerr_complete _ _ _ _ H) as M8.
  assert (M6 : (nerr q5 <= nerr q6)%nat /\ (closed0 = false -> (nerr q5 < nerr q6)%nat) /\ (closed0 = true -> q6 = q5)).
  { destruct closed0; cbn [negb] in E2; [injection E2 as <-; repeat split; auto; try discriminate|]. binds E2. injection E2 as <-. rewrite nerr_error. repeat split; try lia; try discriminate. }
  set (ends := if table then TS_INLINE_TABLE_END else TS_ARRAY_END) in *.
  assert (M4 : (nerr q3 <= nerr q4)%nat).
  { refine (mono_loop _ _ q3 q4 E1). intros x. eapply mono_bind; [apply mono_while_eat|]. unfold idp. intros x4 _. eapply mono_bind; [apply mono_dangling|]. unfold idp. intros x5 _. apply mono_any. intros m.
    destruct (nth_at_ts m ends x5); [mdone|]. eapply mono_bind; [apply HM|]. intros x6 _. mdone. }
  unfold idp in *. destruct M6 as (M6 & M6f & M6t). destruct closed0; [|specialize (M6f eq_refl); lia]. specialize (M6t eq_refl). subst q6.
  pose proof (took_trans _ _ _ _ _ T1 (took_trans _ _ _ _ _ T2 T3)) as TP. assert (HD3 : p_depth q3 = d) by (rewrite (proj2 (proj2 TP)); exact HD).
  unfold loop in E1. destruct (body_carry d (body_ok n table) (body_ok_front n table) (fun _ => True) ends group (fun p => Done p) HM HG ltac:(intros x; mdone) ltac:(intros x y HX _; split; [congruence|exact I]) _ q3 q4 (proj1 (proj2 T3)) HD3 E1 ltac:(lia)) as (B & T4 & C4).
  destruct (eat_took q4 _ q5 (proj1 (proj2 T4)) (proj1 HPC) (proj2 HPC) EE2) as (j' & T5).
  destruct (C4 false [] (close_kind table, j') (K0 q5) (proj1 T5)) as [_ AB]; [split; [reflexivity|apply ab_gaps; constructor]|]. rewrite app_nil_r in AB.
  destruct (trailing_took _ _ (proj1 (proj2 T5)) E3) as (T & T7 & AT & N7 & _).
  pose proof (took_trans _ _ _ _ _ TP (took_trans _ _ _ _ _ T4 (took_trans _ _ _ _ _ T5 T7))) as TT. destruct (took_complete _ _ _ _ _ _ (took_start _ _ _ TT) H) as [TF EF].
  exists L, ((open_kind table, j) :: OT ++ B ++ [(close_kind table, j')]), T. split; [|split; [exact L1|split; [|split; [exact AT|split; [rewrite EF; exact N7|exact Z1]]]]].
  - repeat (rewrite <- app_assoc in TF; cbn [app] in TF). cbn [app]. repeat (rewrite <- app_assoc; cbn [app]). exact TF.
  - constructor; auto. rewrite (proj1 T4) in N3. eapply khd_in; [discriminate|exact N3].
Qed.
Lemma value_sound stack : forall n, sound_value n (value stack).
Proof.
  induction stack as [|stack IH]; intros n p p' HT HD H HQ; [discriminate|]. cbn [value] in H. rewrite peek_ok in H. cbn [bind] in H. rewrite nth_kind_sig in H.
  assert (HL : literal_kind (knth (peekK (K0 p)) (K0 p)) = true -> parse_literal_value p = Done p' ->
    exists L X T, took p p' (L ++ X ++ T) /\ lcs L /\ acore n X /\ atail T /\ khd (K0 p') <> COMMENT /\ (is_lc (khd (K0 p)) = false -> L = [])).
  { intros HK HP. apply literal_sound; auto. rewrite khd_drop_peek; auto. apply literal_plain. exact HK. }
  assert (HN : forall table group e, (forall p, mono p (group p) idp) -> (forall m d, (d + m = MAX_RECURSION_DEPTH)%nat -> sound_group d (body_ok m table) (fun _ => True) group) ->
    parse_nested (bracketed (open_kind table) (close_kind table) (if table then TS_INLINE_TABLE_END else TS_ARRAY_END) group e (box_kind table)) p = Done p' ->
    exists L X T, took p p' (L ++ X ++ T) /\ lcs L /\ acore n X /\ atail T /\ khd (K0 p') <> COMMENT /\ (is_lc (khd (K0 p)) = false -> L = [])).
  { intros table group e HM HG HP. unfold parse_nested in HP. destruct (Nat.leb MAX_RECURSION_DEPTH (p_depth p)) eqn:EL; [apply strict_too_deep in HP; lia|]. apply Nat.leb_gt in EL. destruct n as [|n]; [lia|]. binds HP.
    pose proof (nerr_exit _ _ HP) as M. unfold exit_nested in HP. destruct (p_depth q) as [|d] eqn:ED; [discriminate|]. injection HP as <-.
    assert (HDN : (p_depth (enter_nested p) + n = MAX_RECURSION_DEPTH)%nat) by (cbn [enter_nested p_depth]; lia).
    destruct (bracketed_sound n table group e HM (p_depth (enter_nested p)) (HG _ _ HDN) (enter_nested p) q HT eq_refl E) as (L & X & T & (A1 & A2 & A3) & B & C & D & F & G); [unfold enter_nested, nerr in *; cbn [p_events] in *; lia|].
    exists L, X, T. split; [|auto]. split; [exact A1|]. split; [exact A2|]. cbn [p_depth enter_nested] in *. lia. }
  destruct (knth (peekK (K0 p)) (K0 p)); try (apply HL; auto; fail); try (apply strict_invalid_value in H; lia); try (apply strict_key_as_value in H; lia).
  - refine (HN false _ _ _ _ H); [apply mono_vwcg; apply mono_value|]. intros m d Hd. refine (commas_sound m false (value stack) TS_VALUE_FIRST TS_ARRAY_END VALUE_WITH_COMMA_GROUP _ _ d Hd); [apply mono_value|apply value_sound_item; apply IH].
  - refine (HN true _ _ _ _ H); [apply mono_kvwcg; apply mono_value|]. intros m d Hd. refine (commas_sound m true (key_value (value stack)) TS_KEY_FIRST TS_INLINE_TABLE_END KEY_VALUE_WITH_COMMA_GROUP _ _ d Hd); [apply mono_key_value; apply mono_value|apply key_value_sound; [apply mono_value|apply IH]].
Qed.

(** * Lines *)
Lemma alines_gaps_to last G B : gaps G -> alines_to last B -> alines_to last (G ++ B).
Proof.
  intros HG HB. destruct HB as [G' HG'|G' j EL HG'|G' I T C B HG' HI HT HC N1 N2 HB].
  - apply al_gaps. apply gaps_app; auto.
  - rewrite app_assoc. apply al_comment; auto. apply gaps_app; auto.
  - rewrite app_assoc. apply al_item; auto. apply gaps_app; auto.
Qed.
Lemma alines_comment_to last j B : khd B = LINE_BREAK -> alines_to last B -> alines_to last ((COMMENT, j) :: B).
Proof.
  assert (HX : forall G R, gaps G -> (G = [] -> khd R <> LINE_BREAK) -> khd (G ++ R) = LINE_BREAK -> gaps ((COMMENT, j) :: G)).
  { intros G R HG HN HK. destruct HG as [|j0 G HG|j0 j' G HG]; [contradiction (HN eq_refl)|constructor; exact HG|discriminate]. }
  intros HK HB. destruct HB as [G HG|G j0 EL HG|G I T C B HG HI HT HC N1 N2 HB].
  - apply al_gaps. apply (HX G []); [exact HG|discriminate|rewrite app_nil_r; exact HK].
  - rewrite app_comm_cons. apply al_comment; [exact EL|]. apply (HX G [(COMMENT, j0)]); [exact HG|discriminate|exact HK].
  - rewrite app_comm_cons. apply al_item; auto. apply (HX G (I ++ T ++ C ++ B)); auto.
    intros _. destruct (aitem_head _ _ _ HI) as ([k j0] & X & -> & _ & HL). cbn [app fst] in *. rewrite khd_cons. intros ->. discriminate.
Qed.
Lemma alines_eof last B : alines_to last B -> khd B = EOF -> B = [].
Proof.
  destruct 1 as [G HG|G j EL HG|G I T C B HG HI HT HC N1 N2 HB]; destruct HG as [|j0 G HG|j0 j' G HG]; cbn [app]; try discriminate; [reflexivity|].
  destruct (aitem_head _ _ _ HI) as ([k j] & X & -> & X1 & X2). cbn [app]. rewrite khd_cons. intros ->. discriminate.
Qed.
Definition lines_ok (last : bool) (c : kind * bool) (B : sks) : Prop := fst c <> LINE_BREAK /\ (fst c = EOF -> last = true) /\ alines_to last B.
Lemma lines_front : forall last L B c R, lcs L -> closed (L ++ B ++ c :: R) -> lines_ok last c B -> lines_ok last c (L ++ B).
Proof.
  intros last L B c R HL HX (H1 & H2 & H3). split; [exact H1|]. split; [exact H2|]. induction HL as [|[k j] L HK HL IH]; [exact H3|]. cbn [app] in *. specialize (IH (closed_suffix [(k, j)] _ HX)). cbn [fst] in HK. destruct (lc_cases _ HK) as [-> | ->].
  - specialize (HX [] j (L ++ B ++ c :: R) eq_refl). rewrite app_assoc in HX. destruct (khd_cases (L ++ B) (c :: R)) as [[E1 E2]|[E1 E2]]; rewrite E2 in HX.
    + rewrite E1. destruct c as [kc jc]. cbn [fst] in *. rewrite khd_cons in HX. destruct HX as [HX|HX]; [contradiction|]. apply (al_comment last []); [auto|constructor].
    + destruct HX as [HX|HX]; [apply alines_comment_to; auto|]. contradiction E1. eapply alines_eof; eauto.
  - apply (alines_gaps_to last [(LINE_BREAK, j)]); [repeat constructor|exact IH].
Qed.
Definition line_end (p : pst) : Prop := khd (K0 p) = LINE_BREAK \/ khd (K0 p) = EOF.
Lemma line_end_at p : at_ts TS_LINE_END p = true -> line_end p.
Proof.
  rewrite at_ts_sig. cbn. unfold line_end. destruct (kind_eqb (khd (K0 p)) LINE_BREAK) eqn:EL; [apply kind_eqb_eq in EL; auto|]. destruct (kind_eqb (khd (K0 p)) EOF) eqn:EF; [|discriminate]. apply kind_eqb_eq in EF. auto.
Qed.
Lemma lines_end last B c R K : K = B ++ c :: R -> lines_ok last c B -> khd K = LINE_BREAK \/ khd K = EOF -> khd B = LINE_BREAK \/ last = true /\ B = [].
Proof.
  intros -> (H1 & H2 & H3) HK. destruct (khd_cases B (c :: R)) as [[E1 E2]|[E1 E2]]; rewrite E2 in HK.
  - right. destruct c as [kc jc]. rewrite khd_cons in HK. cbn [fst] in *. destruct HK as [HK|HK]; [contradiction|auto].
  - destruct HK as [HK|HK]; [left; exact HK|]. contradiction E1. eapply alines_eof; eauto.
Qed.
Lemma kvg_sound v : (forall p, mono p (v p) idp) -> sound_value MAX_RECURSION_DEPTH v -> sound_group 0 lines_ok line_end (key_value_group v).
Proof.
  intros Hm Hv p p' HT HD H HQ HEND. unfold key_value_group in H. cbn [start] in H. set (ps := push_event _ p) in *. assert (HN0 : nerr ps = nerr p) by (unfold ps; rewrite nerr_push; cbn; lia).
  binds H. pose proof (nerr_complete _ _ _ _ H) as M7. assert (HENQ : line_end q) by (unfold line_end in *; rewrite <- (complete_K0 _ _ _ _ H); exact HEND).
  assert (HC : exists X, carries lines_ok ps q X).
  { unfold loop in E. eapply (steps_carry 0 lines_ok line_end) in E; auto.
    - intros x. destruct (is_group_separator x); [mdone|]. eapply mono_bind; [apply mono_key_value; exact Hm|]. unfold idp. intros q1 _. apply mono_any. intros n.
      eapply mono_bind with (st := idp). { destruct (nth_at n COMMA q1); [apply mono_comma|mdone]. }
      unfold idp. intros q2 _. destruct (negb (at_ LINE_BREAK q2)); [mdone|]. apply mono_any. intros n2. destruct (negb _); mdone.
    - clear -Hm Hv. intros x b r HTx HDx HB HQx HEx. destruct (is_group_separator x). { injection HB as <- <-. exists []. apply carries_refl. exact HTx. }
      binds HB. rename q into x1. pose proof (mono_key_value v Hm _ _ E) as M1. unfold idp in M1. rewrite peek_ok in HB. cbn [bind] in HB. binds HB. rename q into x2.
      assert (HR : r = x2 /\ line_end x2).
      { unfold at_ in HB. rewrite nth_at_sig in HB by reflexivity. fold (khd (K0 x2)) in HB. destruct (kind_eqb (khd (K0 x2)) LINE_BREAK) eqn:EL; cbn [negb] in HB.
        - apply kind_eqb_eq in EL. split; [|left; exact EL]. rewrite peek_ok in HB. cbn [bind] in HB. destruct (negb _); injection HB as <- <-; reflexivity.
        - injection HB as <- <-. auto. }
      destruct HR as [-> HL]. clear HB HEx.
      assert (HQ1 : nerr x1 = nerr x). { destruct (nth_at _ COMMA x1); [pose proof (mono_comma _ _ E0) as M2; unfold idp in M2; lia|injection E0 as <-; lia]. }
      destruct (key_value_sound MAX_RECURSION_DEPTH v Hm Hv x x1 HTx ltac:(lia) E HQ1) as (L & I & T & T1 & HLL & AI & AT & N1).
      assert (HSTEP : forall C, took x1 x2 C -> acomma C -> carries lines_ok x x2 ((L ++ I ++ T) ++ C)).
      { intros C T2 AC. pose proof (took_trans _ _ _ _ _ T1 T2) as TT. split; [exact TT|]. intros last B c R EK HO.
        assert (EB : ((L ++ I ++ T) ++ C) ++ B = L ++ I ++ T ++ C ++ B) by (repeat rewrite <- app_assoc; reflexivity). rewrite EB.
        apply (lines_front last L (I ++ T ++ C ++ B) c R HLL).
        - assert (E2 : L ++ (I ++ T ++ C ++ B) ++ c :: R = K0 x) by (rewrite (proj1 TT), EK; repeat rewrite <- app_assoc; reflexivity). rewrite E2. apply tame_closed. exact HTx.
        - pose proof (lines_end last B c R _ EK HO HL) as HEB. destruct HO as (H1 & H2 & H3). split; [exact H1|]. split; [exact H2|]. apply (al_item last []); auto; [constructor|].
          assert (E1 : khd ((C ++ B) ++ c :: R) <> COMMENT) by (rewrite <- app_assoc, <- EK, <- (proj1 T2); exact N1). eapply khd_in; [discriminate|exact E1]. }
      destruct (nth_at (peekK (K0 x1)) COMMA x1) eqn:EC.
      + destruct (comma_took x1 x2 (proj1 (proj2 T1)) EC E0) as (C & T2 & AC & N2). eauto.
      + injection E0 as <-. exists ((L ++ I ++ T) ++ []). apply HSTEP; [apply took_refl; exact (proj1 (proj2 T1))|constructor].
    - lia. }
  destruct HC as (X & T1 & C1). destruct (took_complete _ _ _ _ _ _ (took_start _ _ _ T1) H) as [TF EF]. exists X. split; [exact TF|]. rewrite EF. exact C1.
Qed.
Lemma lines_sound stack p p' : tame (p_rest p) -> p_depth p = 0%nat -> section_lines (value stack) p = Done p' -> nerr p' = nerr p -> exists X, carries lines_ok p p' X.
Proof.
  intros HT HD H HQ. unfold section_lines, loop in H.
  refine (body_carry 0 lines_ok lines_front line_end TS_NEXT_SECTION (key_value_group (value stack)) (fun p => if negb (at_ts TS_LINE_END p) then invalid_line ExpectedLineBreak p else Done p) _ _ _ _ _ p p' HT HD H HQ).
  - apply mono_kvg. apply mono_value.
  - apply kvg_sound; [apply mono_value|apply value_sound].
  - intros x. apply mono_tail.
  - intros x y HX HY. destruct (tail_quiet x y HX HY) as [-> HA]. split; [reflexivity|]. apply line_end_at. exact HA.
Qed.

(** * Sections *)
Lemma bump_tame k n p : tame (p_rest p) -> tame (p_rest (do_bump k n p)).
Proof.
  intros HT. unfold do_bump. destruct (nth_split n (p_rest p)) as [a b] eqn:ES. cbn [p_rest]. assert (EA : p_rest p = a ++ b). { pose proof (nth_split_app n (p_rest p)) as HA. rewrite ES in HA. symmetry. exact HA. }
  rewrite EA in HT. exact (tame_suffix _ _ HT).
Qed.
Lemma pair_took k k1 p p' : (k = DOUBLE_BRACKET_START /\ k1 = BRACKET_START \/ k = DOUBLE_BRACKET_END /\ k1 = BRACKET_END) -> tame (p_rest p) -> eat k p = (true, p') -> exists j, took p p' [(k1, true); (k1, j)].
Proof.
  intros HK HT HE. pose proof (eat_depth k p) as HD. rewrite HE in HD. cbn [snd] in HD. unfold eat in HE. destruct (at_ k p) eqn:HA; [|discriminate]. cbn [negb] in HE. injection HE as <-.
  assert (HC : at_composite2 0 k1 k1 p = true /\ do_bump_kind k p = do_bump k 2 p) by (destruct HK as [[-> ->]|[-> ->]]; auto).
  destruct HC as [HC EB]. rewrite EB in *. rewrite composite_sig in HC. unfold composite in HC. apply andb_true_iff in HC as [HC HJ]. apply andb_true_iff in HC as [HC1 HC2].
  apply kind_eqb_eq in HC1, HC2. destruct (sig (p_rest p)) as [|[ka j] K] eqn:EK; [cbn in HJ; discriminate|]. cbn in HC1, HC2, HJ. subst ka j.
  destruct K as [|[kb j2] K]; [destruct HK as [[-> ->]|[-> ->]]; cbn in HC2; discriminate|]. cbn in HC2. subst kb.
  exists j2. split; [|split; [apply bump_tame; exact HT|exact HD]]. pose proof (proj1 (proj2 (proj1 (bump_ran k 2 p)))) as EK2. rewrite EK in EK2. rewrite EK, EK2. reflexivity.
Qed.
Definition end_token (K : sks) : Prop := exists L S j, K = L ++ S ++ [(EOF, j)] /\ lcs L /\ asections S.
Lemma sections_head S : asections S -> S = [] \/ exists j R, S = (BRACKET_START, j) :: R.
Proof. destruct 1 as [|array j Ks j' T B S|array j Ks j' T B]; [left; reflexivity| |]; right; destruct array; cbn [aopen app]; eauto. Qed.
Lemma section_sound stack array e p p' : tame (p_rest p) -> p_depth p = 0%nat -> section (head_kind array) (tail_kind array) e (table_kind array) (value stack) p = Done p' -> nerr p' = nerr p ->
  tame (p_rest p') /\ p_depth p' = 0%nat /\ (end_token (K0 p') -> end_token (K0 p)).
Proof.
  intros HT HD H HQ. unfold section in H. cbn [start] in H. set (ps := push_event _ p) in *. assert (HN0 : nerr ps = nerr p) by (unfold ps; rewrite nerr_push; cbn; lia).
  binds H. pose proof (mono_leading _ _ E) as M1. assert (HT0 : tame (p_rest ps)) by exact HT.
  destruct (leading_took _ _ HT0 E) as (L & T1 & L1 & N1 & _).
  destruct (at_ (head_kind array) q) eqn:EA; cbn [negb] in H; [|discriminate]. destruct (eat (head_kind array) q) as [b q2] eqn:EE.
  assert (b = true) by (rewrite (eat_at _ _ EA) in EE; congruence). subst b. pose proof (nerr_eat _ _ _ _ EE) as M2.
  assert (T2 : exists j, took q q2 (aopen array j)).
  { destruct array; cbn [head_kind aopen] in *; [exact (pair_took _ _ _ _ (or_introl (conj eq_refl eq_refl)) (proj1 (proj2 T1)) EE)|exact (eat_took q BRACKET_START q2 (proj1 (proj2 T1)) eq_refl ltac:(discriminate) EE)]. }
  destruct T2 as (j & T2). binds H. rename q0 into q3. pose proof (mono_keys _ _ E0) as M3. destruct (eat (tail_kind array) q3) as [closed0 q4] eqn:EE2. pose proof (nerr_eat _ _ _ _ EE2) as M4.
  binds H. rename q0 into q5. binds H. rename q0 into q6. pose proof (mono_trailing _ _ E2) as M6. binds H. rename q0 into q7. pose proof (mono_tail _ _ E3) as M7. binds H. rename q0 into q8.
  pose proof (mono_lines _ (mono_value stack) _ _ E4) as M8. pose proof (nerr_complete _ _ _ _ H) as M9. unfold idp in *.
  assert (M5 : (nerr q4 <= nerr q5)%nat /\ (closed0 = false -> (nerr q4 < nerr q5)%nat) /\ (closed0 = true -> q5 = q4)).
  { destruct closed0; cbn [negb] in E1; [injection E1 as <-; repeat split; auto; try discriminate|]. apply strict_invalid_line in E1. repeat split; try lia; try discriminate. }
  destruct M5 as (M5 & M5f & M5t). destruct closed0; [|specialize (M5f eq_refl); lia]. specialize (M5t eq_refl). subst q5.
  destruct (keys_took q2 q3 (proj1 (proj2 T2)) E0 ltac:(lia)) as [(Ks & T3 & S3)|HF].
  2: { exfalso. unfold stuck in HF. clear -EE2 HF. unfold eat, at_ in EE2. destruct array; cbn [tail_kind nth_at] in EE2; [rewrite composite_sig in EE2; unfold composite in EE2|rewrite nth_kind_sig in EE2]; fold (khd (K0 q3)) in EE2; rewrite HF in EE2; discriminate EE2. }
  assert (T4 : exists j, took q3 q4 (aclose array j)).
  { destruct array; cbn [tail_kind aclose] in *; [exact (pair_took _ _ _ _ (or_intror (conj eq_refl eq_refl)) (proj1 (proj2 T3)) EE2)|exact (eat_took q3 BRACKET_END q4 (proj1 (proj2 T3)) eq_refl ltac:(discriminate) EE2)]. }
  destruct T4 as (j' & T4). destruct (trailing_took _ _ (proj1 (proj2 T4)) E2) as (T & T6 & AT & N6 & _).
  destruct (tail_quiet _ _ E3 ltac:(lia)) as [-> HLE]. apply line_end_at in HLE.
  pose proof (took_trans _ _ _ _ _ T1 (took_trans _ _ _ _ _ T2 (took_trans _ _ _ _ _ T3 (took_trans _ _ _ _ _ T4 T6)))) as TP. assert (HD6 : p_depth q6 = 0%nat) by (rewrite (proj2 (proj2 TP)); exact HD).
  destruct (lines_sound stack q6 q8 (proj1 (proj2 T6)) HD6 E4 ltac:(lia)) as (X & T8 & C8).
  pose proof (took_trans _ _ _ _ _ TP T8) as TT. destruct (took_complete _ _ _ _ _ _ (took_start _ _ _ TT) H) as [TF EF].
  split; [exact (proj1 (proj2 TF))|]. split; [rewrite (proj2 (proj2 TF)); exact HD|]. rewrite EF. intros (L' & S & je & EK & HL' & HS).
  assert (HC8 : closed (L' ++ S ++ [(EOF, je)])) by (rewrite <- EK; apply tame_closed; exact (proj1 (proj2 T8))).
  exists L. destruct (sections_head S HS) as [-> |(jb & R & ES)].
  - cbn [app] in *. exists (aopen array j ++ Ks ++ aclose array j' ++ T ++ (X ++ L')), je.
    assert (HO : lines_ok true (EOF, je) (X ++ L')).
    { apply (C8 true L' (EOF, je) []); [exact EK|]. rewrite <- (app_nil_r L'). apply (lines_front true L' [] (EOF, je) []); auto. split; [discriminate|]. split; [auto|]. apply al_gaps. constructor. }
    split; [rewrite (proj1 TF), EF, EK; repeat rewrite <- app_assoc; reflexivity|]. split; [exact L1|].
    assert (E6 : K0 q6 = (X ++ L') ++ (EOF, je) :: []) by (rewrite (proj1 T8), EK, <- app_assoc; reflexivity).
    apply as_last; auto; [|exact (proj2 (proj2 HO))]. destruct (lines_end true _ _ _ _ E6 HO HLE) as [HB|[_ HB]]; auto.
  - exists (aopen array j ++ Ks ++ aclose array j' ++ T ++ (X ++ L') ++ S), je.
    assert (HO : lines_ok false (BRACKET_START, jb) (X ++ L')).
    { apply (C8 false L' (BRACKET_START, jb) (R ++ [(EOF, je)])); [rewrite EK, ES; reflexivity|]. rewrite <- (app_nil_r L'). apply (lines_front false L' [] (BRACKET_START, jb) (R ++ [(EOF, je)])); auto.
      - rewrite ES in HC8. exact HC8.
      - split; [discriminate|]. split; [discriminate|]. apply al_gaps. constructor. }
    split; [rewrite (proj1 TF), EF, EK; repeat rewrite <- app_assoc; reflexivity|]. split; [exact L1|].
    assert (E6 : K0 q6 = (X ++ L') ++ (BRACKET_START, jb) :: R ++ [(EOF, je)]) by (rewrite (proj1 T8), EK, ES, <- app_assoc; reflexivity).
    apply as_cons; auto; [|exact (proj2 (proj2 HO))]. destruct (lines_end false _ _ _ _ E6 HO HLE) as [HB|[HB _]]; [auto|discriminate].
Qed.
Lemma ends_yields p cs q : yields p cs q -> ends_eof (p_rest p) -> ends_eof (p_rest q).
Proof. intros [_ (tr & c & n & _ & E & _ & _ & _ & HF)] H. rewrite E in H. exact (ends_eof_suffix _ _ H HF). Qed.
(** The end of the text is the last token. *)
Lemma eof_last ts : tame ts -> forall L j R, sig ts = L ++ (EOF, j) :: R -> R = [].
Proof.
  intros HT L. revert ts HT. induction L as [|[kl jl] L IH]; intros ts HT j R EL; cbn [app] in EL.
  - destruct (tame_sig_eof ts HT ltac:(rewrite EL; reflexivity)) as [E|(jj & E)]; rewrite EL in E; [discriminate|]. injection E as _ E. exact E.
  - apply sig_inv in EL as (ws & t & rest & -> & _ & _ & _ & _ & EL). refine (IH rest _ j R EL). apply (tame_suffix (ws ++ [t])). rewrite <- app_assoc. exact HT.
Qed.
Lemma root_loop_sound stack : forall fuel p p', tame (p_rest p) -> ends_eof (p_rest p) -> p_depth p = 0%nat -> loop_ fuel (fun p =>
    do p <- while_eat LINE_BREAK p;
    do n <- peek_leading_comments p;
    if nth_at n EOF p then break p
    else if nth_at n DOUBLE_BRACKET_START p then do p <- array_of_table (value stack) p; again p
    else if nth_at n BRACKET_START p then do p <- table (value stack) p; again p
    else do p <- unknown_line p; again p) p = Done p' -> nerr p' = nerr p -> end_token (K0 p).
Proof.
  induction fuel as [|fuel IH]; intros p p' HT HEO HD H HQ; [discriminate|]. cbn [loop_] in H.
  match type of H with match ?b with _ => _ end = _ => destruct b as [[b' r]| | |] eqn:EB end; try discriminate. pose proof (mono_root_body stack _ _ EB) as M0. cbn [snd] in M0.
  assert (M2 : (nerr r <= nerr p')%nat) by (destruct b'; [exact (loop_mono _ (mono_root_body stack) _ _ _ H)|injection H as <-; lia]).
  binds EB. destruct (breaks_took _ _ HT E) as (L0 & T0 & HL0). pose proof (mono_while_eat _ _ _ E) as MW. unfold idp in MW.
  destruct (while_eat_yields LINE_BREAK p q eq_refl ltac:(discriminate) E) as (bs & YB & _). pose proof (ends_yields _ _ _ YB HEO) as HEQ.
  assert (HF : end_token (K0 q) -> end_token (K0 p)).
  { intros (L & S & j & EK & HL & HS). exists (L0 ++ L), S, j. split; [rewrite (proj1 T0), EK, <- app_assoc; reflexivity|]. split; [apply Forall_app; auto|exact HS]. }
  apply HF. clear HF. rewrite peek_ok in EB. cbn [bind] in EB. rewrite nth_at_sig in EB by reflexivity. pose proof (proj1 (proj2 T0)) as HTq. assert (HDq : p_depth q = 0%nat) by (rewrite (proj2 (proj2 T0)); exact HD).
  change (sig (p_rest q)) with (K0 q) in EB.
  destruct (kind_eqb (knth (peekK (K0 q)) (K0 q)) EOF) eqn:EF; cbn [break] in EB.
  { clear EB. apply kind_eqb_eq in EF. destruct (dropk_split is_lc (K0 q)) as (L & EL & HL). pose proof (khd_drop_peek (K0 q) ltac:(rewrite EF; reflexivity)) as HK. rewrite EF in HK.
    destruct (dropk is_lc (K0 q)) as [|[k j] R] eqn:ED.
    - exfalso. destruct (sig_ends _ HEQ) as (a & b & EE & _). fold (K0 q) in EE. rewrite app_nil_r in EL. rewrite <- EL, EE in HL. apply Forall_app in HL as [_ HL]. inversion HL; subst. discriminate.
    - rewrite khd_cons in HK. subst k. rewrite (eof_last _ HTq _ _ _ EL) in EL. exists L, [], j. split; [exact EL|]. split; [exact HL|constructor]. }
  assert (HGO : forall array e q1, section (head_kind array) (tail_kind array) e (table_kind array) (value stack) q = Done q1 -> b' = true -> r = q1 -> end_token (K0 q)).
  { intros array e q1 HS -> ->. pose proof (mono_section _ (mono_value stack) _ _ _ _ _ _ HS) as M1. unfold idp in M1.
    destruct (section_sound stack array e q q1 HTq HDq HS ltac:(lia)) as (A1 & A2 & A3). apply A3. apply (IH q1 p'); auto; [|lia].
    destruct (section_yields stack array e q q1 HTq HS ltac:(lia)) as (t & Y & _). exact (ends_yields _ _ _ Y HEQ). }
  destruct (nth_at (peekK (K0 q)) DOUBLE_BRACKET_START q) eqn:ED.
  { destruct (array_of_table (value stack) q) as [q1| | |] eqn:ES; cbn [bind again] in EB; try discriminate. injection EB as <- <-. eapply (HGO true); eauto. }
  destruct (nth_at (peekK (K0 q)) BRACKET_START q) eqn:EBR.
  { destruct (table (value stack) q) as [q1| | |] eqn:ES; cbn [bind again] in EB; try discriminate. injection EB as <- <-. eapply (HGO false); eauto. }
  destruct (unknown_line q) as [q1| | |] eqn:ES; cbn [bind again] in EB; try discriminate. injection EB as <- <-. apply strict_unknown in ES. lia.
Qed.
Theorem root_sound stack p p' : tame (p_rest p) -> ends_eof (p_rest p) -> p_depth p = 0%nat -> root (value stack) p = Done p' -> nerr p' = nerr p ->
  exists B S j, K0 p = B ++ S ++ [(EOF, j)] /\ (alines B /\ asections S \/ alines_to true B /\ S = []).
Proof.
  intros HT HEO HD H HQ. unfold root in H. cbn [start] in H. set (ps := push_event _ p) in *. assert (HN0 : nerr ps = nerr p) by (unfold ps; rewrite nerr_push; cbn; lia).
  binds H. pose proof (mono_lines _ (mono_value stack) _ _ E) as M1. binds H. pose proof (nerr_complete _ _ _ _ H) as M3.
  pose proof (mono_loop _ (mono_root_body stack) _ _ E0) as M2. unfold idp in *.
  destruct (lines_sound stack ps q HT HD E ltac:(lia)) as (X & T1 & C1). destruct (lines_yields stack ps q HT E ltac:(lia)) as (es & Y1 & _). pose proof (ends_yields _ _ _ Y1 HEO) as HEQ. unfold loop in E0.
  assert (HDq : p_depth q = 0%nat) by (rewrite (proj2 (proj2 T1)); exact HD).
  destruct (root_loop_sound stack _ q q0 (proj1 (proj2 T1)) HEQ HDq E0 ltac:(lia)) as (L & S & j & EK & HL & HS). exists (X ++ L), S, j.
  split; [change (K0 p) with (K0 ps); rewrite (proj1 T1), EK, <- app_assoc; reflexivity|].
  pose proof (tame_closed _ (proj1 (proj2 T1))) as HC. fold (K0 q) in HC. rewrite EK in HC. destruct (sections_head S HS) as [-> |(jb & R & ES)].
  - right. split; [|reflexivity]. destruct (C1 true L (EOF, j) [] EK) as (_ & _ & HA); [|exact HA]. rewrite <- (app_nil_r L). apply (lines_front true L [] (EOF, j) []); auto. split; [discriminate|]. split; [auto|]. apply al_gaps. constructor.
  - left. split; [|exact HS]. destruct (C1 false L (BRACKET_START, jb) (R ++ [(EOF, j)])) as (_ & _ & HA); [rewrite EK, ES; reflexivity| |exact HA]. rewrite <- (app_nil_r L). apply (lines_front false L [] (BRACKET_START, jb) (R ++ [(EOF, j)])); auto.
    + rewrite ES in HC. exact HC.
    + split; [discriminate|]. split; [discriminate|]. apply al_gaps. constructor.
Qed.
