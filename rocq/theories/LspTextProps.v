(** Final theorems about the language server's positions (C19), its formatting edit (C18) and its semantic
    tokens (C20). *)
From Coq Require Import String Ascii List NArith Bool Arith Lia ZifyBool.
From Verif Require Import Base SyntaxKind TextModel LexerModel LexerSpec LexerProofs ParserModel ParserInv RangeProps LspTextModel LspTextSpec LspTextProofs.
Import ListNotations.
Open Scope N_scope.
Open Scope list_scope.

Definition lsp_before (p q : lsp_position) : Prop := lline p < lline q \/ (lline p = lline q /\ lchar p < lchar q).

(** * C19 *)
Lemma C19_inside_proof seg : segmentation seg -> forall text e l c t,
  line_text (line_index_new text e) l = Some (Some t) -> c <= measure seg GraphemeCluster t ->
  exists a b, text = a ++ b /\ boundary seg a b /\ place seg a = Pos l c /\
    to_lsp seg (line_index_new text e) (Pos l c) = Some (lsp_place seg e a) /\
    of_lsp seg (line_index_new text e) (lsp_place seg e a) = Some (Pos l c) /\
    (e <> GraphemeCluster -> no_lone_cr text -> text_before e text (lsp_place seg e a) = a).
Proof.
  intros HS text e l c t HL Hc. destruct (inside seg HS text e l c t HL Hc) as (a & b & E & HB & HP). exists a, b. subst text.
  split; [reflexivity|]. split; [exact HB|]. split; [exact HP|]. rewrite <- HP. split; [apply to_lsp_place; auto|]. split; [apply of_lsp_place; auto|].
  intros He HC. apply text_before_place; auto.
Qed.
(** Partial: that the protocol finds the same place needs a document without lone carriage returns (see
    C18_lone_cr_refuted); everything else holds for every document.
    Every position inside a document (a line of it, and a column of at most its number of clusters) is the
    place after some text [a]; its conversion is the position the protocol gives to that place in the
    chosen encoding, the protocol finds the same place from it, and converting back is the identity. *)
Theorem C19_positions_partial : forall seg, segmentation seg -> forall text e l c t,
  line_text (line_index_new text e) l = Some (Some t) -> c <= measure seg GraphemeCluster t ->
  exists a b, text = a ++ b /\ boundary seg a b /\ place seg a = Pos l c /\
    to_lsp seg (line_index_new text e) (Pos l c) = Some (lsp_place seg e a) /\
    of_lsp seg (line_index_new text e) (lsp_place seg e a) = Some (Pos l c) /\
    (e <> GraphemeCluster -> no_lone_cr text -> text_before e text (lsp_place seg e a) = a).
Proof. exact C19_inside_proof. Qed.
Print Assumptions C19_positions_partial.

(** The lines of the index are the lines of the text. *)
Lemma C19_lines_proof text e :
  (forall l, l <= count_lf text -> exists p t rest, text = p ++ t ++ rest /\ count_lf p = l /\ (p = [] \/ ends_with 10 p) /\ ~ In 10 t /\
     (rest = [] \/ (exists r, rest = 10 :: r /\ ~ ends_with 13 t) \/ (exists r, rest = 13 :: 10 :: r)) /\
     line_text (line_index_new text e) l = Some (Some t)) /\
  (forall l, count_lf text < l -> line_text (line_index_new text e) l = Some None).
Proof.
  split; [|apply line_text_none]. intros l H. destruct (line_exists text l H) as (p & t & rest & E & HL & HC).
  exists p, t, rest. split; auto. split; auto. pose proof HL as (H1 & H2 & H3). split; [exact H1|]. split; [exact H2|]. split; [exact H3|].
  rewrite E, <- HC. apply line_text_of; auto.
Qed.
Theorem C19_lines : forall text e,
  (forall l, l <= count_lf text -> exists p t rest, text = p ++ t ++ rest /\ count_lf p = l /\ (p = [] \/ ends_with 10 p) /\ ~ In 10 t /\
     (rest = [] \/ (exists r, rest = 10 :: r /\ ~ ends_with 13 t) \/ (exists r, rest = 13 :: 10 :: r)) /\
     line_text (line_index_new text e) l = Some (Some t)) /\
  (forall l, count_lf text < l -> line_text (line_index_new text e) l = Some None).
Proof. exact C19_lines_proof. Qed.
Print Assumptions C19_lines.

Lemma C19_monotone_proof seg : segmentation seg -> forall text e p q t t',
  line_text (line_index_new text e) (line p) = Some (Some t) -> column p <= measure seg GraphemeCluster t ->
  line_text (line_index_new text e) (line q) = Some (Some t') -> column q <= measure seg GraphemeCluster t' ->
  before p q -> exists p' q', to_lsp seg (line_index_new text e) p = Some p' /\ to_lsp seg (line_index_new text e) q = Some q' /\ lsp_before p' q'.
Proof.
  intros HS text e [l c] [l' c'] t t' H1 H2 H3 H4 HB. cbn [line column] in *.
  unfold to_lsp. cbn [line column]. rewrite H1, H3. eexists. eexists. split; [reflexivity|]. split; [reflexivity|].
  unfold lsp_before. cbn [lline lchar li_encoding line_index_new]. destruct HB as [HB|[HB1 HB2]]; cbn [line column] in *; [auto|].
  right. split; auto. subst l'. assert (t' = t) by congruence. subst t'. rewrite !(sum_measures_total seg).
  assert (G : forall gs, ~ In [] gs -> forall n m : nat, (n < m)%nat -> (m <= length gs)%nat -> total seg e (firstn n gs) < total seg e (firstn m gs)).
  { clear - HS. induction gs as [|g gs IH]; intros HN n m H1 H2; cbn [length] in H2; [lia|].
    assert (0 < measure seg e g) by (apply measure_pos; auto; intros ->; apply HN; left; auto).
    destruct m as [|m]; [lia|]. destruct n as [|n]; cbn [firstn total]; [lia|].
    enough (total seg e (firstn n gs) < total seg e (firstn m gs)) by lia. apply IH; try lia. intros K. apply HN. right. auto. }
  apply G; [apply seg_nonempty; auto|lia|]. cbn [measure] in *. lia.
Qed.
Theorem C19_monotone : forall seg, segmentation seg -> forall text e p q t t',
  line_text (line_index_new text e) (line p) = Some (Some t) -> column p <= measure seg GraphemeCluster t ->
  line_text (line_index_new text e) (line q) = Some (Some t') -> column q <= measure seg GraphemeCluster t' ->
  before p q -> exists p' q', to_lsp seg (line_index_new text e) p = Some p' /\ to_lsp seg (line_index_new text e) q = Some q' /\ lsp_before p' q'.
Proof. exact C19_monotone_proof. Qed.
Print Assumptions C19_monotone.

Lemma C19_rounding_proof seg : segmentation seg -> forall text e l n t,
  line_text (line_index_new text e) l = Some (Some t) ->
  exists c, of_lsp seg (line_index_new text e) (LspPos l n) = Some (Pos l c) /\ c <= measure seg GraphemeCluster t /\
    (exists n0, to_lsp seg (line_index_new text e) (Pos l c) = Some (LspPos l n0) /\ n0 <= n) /\
    (c < measure seg GraphemeCluster t -> exists n1, to_lsp seg (line_index_new text e) (Pos l (c + 1)) = Some (LspPos l n1) /\ n < n1).
Proof.
  intros HS text e l n t HL. unfold of_lsp, to_lsp. cbn [lline lchar line column]. rewrite HL. cbn [li_encoding line_index_new].
  destruct (take_column_spec seg HS e t n) as (ga & gb & A & B & C & D). rewrite B.
  destruct (seg_split _ HS t ga gb A) as [Sa Sb]. cbn [measure]. rewrite Sa.
  exists (N.of_nat (length ga)). split; [reflexivity|]. rewrite A, app_length. split; [lia|]. rewrite Nnat.Nat2N.id. split.
  - eexists. split; [reflexivity|]. rewrite (sum_measures_total seg). rewrite firstn_app, Nat.sub_diag, firstn_all. cbn [firstn]. rewrite app_nil_r. exact C.
  - intros Hlt. eexists. split; [reflexivity|]. rewrite (sum_measures_total seg). destruct D as [-> |(g & r & -> & D)]; [cbn [length] in Hlt; lia|].
    replace (N.to_nat (N.of_nat (length ga) + 1)) with (length ga + 1)%nat by lia. rewrite firstn_app.
    replace (length ga + 1 - length ga)%nat with 1%nat by lia. rewrite firstn_all2 by lia. cbn [firstn]. rewrite total_app. cbn [total]. lia.
Qed.
(** Any position the editor sends in an existing line is rounded down to the last cluster boundary that is
    not after it. *)
Theorem C19_rounding : forall seg, segmentation seg -> forall text e l n t,
  line_text (line_index_new text e) l = Some (Some t) ->
  exists c, of_lsp seg (line_index_new text e) (LspPos l n) = Some (Pos l c) /\ c <= measure seg GraphemeCluster t /\
    (exists n0, to_lsp seg (line_index_new text e) (Pos l c) = Some (LspPos l n0) /\ n0 <= n) /\
    (c < measure seg GraphemeCluster t -> exists n1, to_lsp seg (line_index_new text e) (Pos l (c + 1)) = Some (LspPos l n1) /\ n < n1).
Proof. exact C19_rounding_proof. Qed.
Print Assumptions C19_rounding.

Definition seg_marks := seg_by is_combining.
Example C19_segmentation : segmentation seg_marks /\ seg_marks [101; 0x301; 13; 10; 0x301] = [[101; 0x301]; [13; 10]; [0x301]].
Proof. split; [apply seg_by_segmentation|reflexivity]. Qed.
Example C19_example :
  let text := [34; 101; 0x301; 0x1F985; 34; 13; 10; 97] in
  to_lsp seg_marks (line_index_new text Utf16) (Pos 0 3) = Some (LspPos 0 5) /\
  of_lsp seg_marks (line_index_new text Utf16) (LspPos 0 4) = Some (Pos 0 2) /\
  line_text (line_index_new text Utf16) 0 = Some (Some [34; 101; 0x301; 0x1F985; 34]) /\ text_before Utf16 text (LspPos 1 0) = firstn 7 text.
Proof. repeat split; vm_compute; reflexivity. Qed.

(** The ranges the lexer attaches to its tokens and errors count characters, not clusters.  Converted for
    the editor they miss the token when a cluster of several characters stands before it on the line: here
    the error for [@] is reported one unit after it. *)
Theorem C19_lexer_ranges_refuted : exists source l t a b,
  segmentation seg_marks /\ lex seg_marks source = Some l /\ In t (tokens l) /\ tkind t = INVALID_TOKEN /\
  source = a ++ b /\ len_bytes a = sstart (tspan t) /\ boundary seg_marks a b /\
  (exists er, In er (errors l) /\ erange er = trange t) /\
  to_lsp seg_marks (line_index_new source Utf16) (rstart (trange t)) <> Some (lsp_place seg_marks Utf16 a).
Proof.
  exists [34; 101; 0x301; 34; 32; 64]. eexists. exists (Tok INVALID_TOKEN (MkSpan 6 7) (MkRange (Pos 0 5) (Pos 0 6))), [34; 101; 0x301; 34; 32], [64].
  split; [apply seg_by_segmentation|]. split; [vm_compute; reflexivity|].
  split; [vm_compute; auto 10|]. split; [reflexivity|]. split; [reflexivity|]. split; [reflexivity|]. split; [reflexivity|].
  split; [eexists; split; [left; reflexivity|reflexivity]|]. vm_compute. discriminate.
Qed.
Print Assumptions C19_lexer_ranges_refuted.

(** * C18 *)
Section Edits.
  Context (seg : str -> list str) (HS : segmentation seg).

  Lemma len_pos s : s <> [] -> 0 < len_bytes s.
  Proof. destruct s as [|c s]; [contradiction|]. intros _. cbn [len_bytes]. pose proof (len_utf8_pos c). lia. Qed.
  Lemma position_place e a b : boundary seg a b ->
    position_at_offset seg (line_index_new (a ++ b) e) (len_bytes a) = Some (place seg a).
  Proof.
    intros HB. destruct (place_line seg HS a b HB) as (p & x & y & rest & Ea & Eb & HL & EL & EC & EX).
    assert (ET : a ++ b = p ++ (x ++ y) ++ rest) by (rewrite Ea, Eb, <- !app_assoc; reflexivity).
    destruct (line_found _ _ _ HL) as (X & Y & E1 & E2).
    assert (HIT : forall l last, l = count_lf p -> position_loop seg (line_index_new (a ++ b) e) (len_bytes a) l (MkSpan (len_bytes p) (len_bytes p + len_bytes (x ++ y)) :: Y) last = Some (place seg a)).
    { intros l last ->. cbn [position_loop]. rewrite ET, (line_text_of _ _ _ e HL). cbn [send sstart]. rewrite Ea, !len_bytes_app.
      replace (len_bytes p + len_bytes x <=? len_bytes p + (len_bytes x + len_bytes y)) with true by lia.
      replace (N.min (len_bytes p + len_bytes x - len_bytes p) (len_bytes x + len_bytes y)) with (len_bytes x) by lia.
      pose proof (text_slice_app [] x y) as T. cbn [app len_bytes] in T. rewrite T. rewrite <- Ea. unfold place. rewrite EL, EC. reflexivity. }
    assert (LOOP : forall X2 X1 last, X = X1 ++ X2 ->
      position_loop seg (line_index_new (a ++ b) e) (len_bytes a) (N.of_nat (length X1)) (X2 ++ MkSpan (len_bytes p) (len_bytes p + len_bytes (x ++ y)) :: Y) last = Some (place seg a)).
    { induction X2 as [|s X2 IH]; intros X1 last EX1.
      - apply HIT. rewrite app_nil_r in EX1. subst. exact E2.
      - assert (HLl : N.of_nat (length X1) < count_lf p). { rewrite <- E2, EX1, app_length. cbn [length]. lia. }
        assert (Hle : N.of_nat (length X1) <= count_lf (a ++ b)). { rewrite count_app, EC. lia. }
        destruct (line_exists (a ++ b) _ Hle) as (p' & t' & rest' & E' & HL' & HC').
        destruct (line_found _ _ _ HL') as (X' & Y' & E1' & E2'). rewrite <- E', ET, E1 in E1'.
        assert (s = MkSpan (len_bytes p') (len_bytes p' + len_bytes t')).
        { assert (N1 : nth_error (X ++ MkSpan (len_bytes p) (len_bytes p + len_bytes (x ++ y)) :: Y) (length X1) = Some s).
          { rewrite EX1, <- app_assoc, nth_error_app2 by lia. rewrite Nat.sub_diag. reflexivity. }
          rewrite E1' in N1. rewrite nth_error_app2 in N1 by lia. replace (length X1 - length X')%nat with 0%nat in N1 by lia. injection N1 as <-. reflexivity. }
        subst s. cbn [app position_loop].
        assert (TT : line_text (line_index_new (a ++ b) e) (N.of_nat (length X1)) = Some (Some t')). { rewrite E', <- HC'. apply line_text_of; auto. }
        rewrite TT. cbn [send].
        assert (LT : len_bytes p' + len_bytes t' < len_bytes a).
        { assert (CP : count_lf (p' ++ t') < count_lf a). { rewrite count_app. destruct HL' as (_ & K & _). apply count_none in K. lia. }
          rewrite app_assoc in E'. symmetry in E'. apply app_eq_app in E' as (z & [[K1 K2]|[K1 K2]]).
          - rewrite K1, count_app in CP. lia.
          - rewrite K1, <- len_bytes_app. rewrite (len_bytes_app _ z). enough (0 < len_bytes z) by lia. apply len_pos. intros ->. rewrite app_nil_r in K1. rewrite K1 in CP. lia. }
        replace (len_bytes a <=? len_bytes p' + len_bytes t') with false by lia.
        specialize (IH (X1 ++ [MkSpan (len_bytes p') (len_bytes p' + len_bytes t')]) (N.of_nat (length X1), t')).
        rewrite <- app_assoc in IH. cbn [app] in IH. specialize (IH EX1). rewrite app_length in IH. cbn [length] in IH.
        replace (N.of_nat (length X1 + 1)) with (N.of_nat (length X1) + 1) in IH by lia. exact IH. }
    unfold position_at_offset. cbn [li_lines line_index_new]. rewrite ET, E1. rewrite <- ET.
    destruct (X ++ _ :: Y) eqn:EE; [destruct X; discriminate|]. rewrite <- EE. apply (LOOP X []). reflexivity.
  Qed.

  Lemma common_spec a : forall b, exists g a' b', a = g ++ a' /\ b = g ++ b' /\ common_bytes a b = len_bytes (concat g).
  Proof.
    induction a as [|x a IH]; intros b; [exists [], [], b; auto|]. destruct b as [|y b]; [exists [], (x :: a), []; auto|].
    cbn [common_bytes]. destruct (str_eqb x y) eqn:E; [|exists [], (x :: a), (y :: b); auto].
    apply str_eqb_eq in E. subst y. destruct (IH b) as (g & a' & b' & -> & -> & E). exists (x :: g), a', b'. repeat split; auto.
    cbn [concat]. rewrite len_bytes_app, E. reflexivity.
  Qed.
  Lemma split_boundary s ga gb : seg s = ga ++ gb -> s = concat ga ++ concat gb /\ boundary seg (concat ga) (concat gb) /\ seg (concat ga) = ga /\ seg (concat gb) = gb.
  Proof.
    intros E. destruct (seg_split _ HS s ga gb E) as [E1 E2]. assert (ES : s = concat ga ++ concat gb) by (rewrite <- concat_app, <- E; symmetry; apply seg_concat; auto).
    repeat split; auto. unfold boundary. rewrite <- ES, E1, E2. exact E.
  Qed.

  Lemma place_le a z : seg (a ++ z) = seg a ++ seg z -> pos_leb (place seg a) (place seg (a ++ z)) = true.
  Proof.
    intros H. apply leb_spec. pose proof (place_mono seg HS a z H GraphemeCluster) as K. cbn [lsp_place lline lchar] in K.
    unfold at_or_before, before, place. cbn [line column]. destruct K as [K|[K1 K2]]; [auto|].
    destruct (N.eq_dec (measure seg GraphemeCluster z) 0) as [Z|Z]; [right; f_equal; lia|left; right; split; lia].
  Qed.

  Lemma edits_proof e old new : e <> GraphemeCluster -> no_lone_cr old ->
    exists edits, compute_text_edits seg old new (line_index_new old e) = Some edits /\ fold_left (apply_edit e) edits old = new /\ (length edits <= 1)%nat.
  Proof.
    intros He HC. unfold compute_text_edits. destruct (str_eqb old new) eqn:E0; [apply str_eqb_eq in E0; subst; exists []; cbn; auto|].
    apply str_eqb_neq in E0.
    destruct (common_spec (seg old) (seg new)) as (ga & oa & na & EO & EN & EP). rewrite EP.
    destruct (split_boundary _ _ _ EO) as (EO1 & BO & SA & SO). destruct (split_boundary _ _ _ EN) as (EN1 & BN & _ & SN).
    set (A := concat ga) in *. set (O := concat oa) in *. set (W := concat na) in *.
    assert (DO : drop_bytes (len_bytes A) old = Some O) by (rewrite EO1; apply drop_bytes_len_app).
    assert (DN : drop_bytes (len_bytes A) new = Some W) by (rewrite EN1; apply drop_bytes_len_app).
    cbv zeta. rewrite DO, DN.
    destruct (common_spec (rev (seg O)) (rev (seg W))) as (gs & ob & nb & FO & FN & FP). rewrite FP.
    assert (FO' : seg O = rev ob ++ rev gs) by (rewrite <- (rev_involutive (seg O)), FO, rev_app_distr; reflexivity).
    assert (FN' : seg W = rev nb ++ rev gs) by (rewrite <- (rev_involutive (seg W)), FN, rev_app_distr; reflexivity).
    assert (LG : len_bytes (concat gs) = len_bytes (concat (rev gs))).
    { clear. induction gs as [|g gs IH]; [reflexivity|]. cbn [rev concat]. rewrite concat_app, !len_bytes_app. cbn [concat]. rewrite app_nil_r. lia. }
    destruct (split_boundary _ _ _ FO') as (EO2 & BO2 & SM & SS). destruct (split_boundary _ _ _ FN') as (EN2 & BN2 & _ & _).
    set (M := concat (rev ob)) in *. set (N1 := concat (rev nb)) in *. set (S := concat (rev gs)) in *. rewrite LG.
    replace (N.min (N.min (len_bytes S) (len_bytes O)) (len_bytes W)) with (len_bytes S) by (rewrite EO2, EN2, !len_bytes_app; lia).
    assert (LO : len_bytes old = len_bytes A + len_bytes M + len_bytes S) by (rewrite EO1, EO2, !len_bytes_app; lia).
    assert (LN : len_bytes new = len_bytes A + len_bytes N1 + len_bytes S) by (rewrite EN1, EN2, !len_bytes_app; lia).
    replace (N.max (len_bytes old - len_bytes S) (len_bytes A)) with (len_bytes (A ++ M)) by (rewrite LO, len_bytes_app; lia).
    replace (N.max (len_bytes new - len_bytes S) (len_bytes A)) with (len_bytes (A ++ N1)) by (rewrite LN, len_bytes_app; lia).
    destruct (N.eqb (len_bytes A) (len_bytes (A ++ M)) && N.eqb (len_bytes A) (len_bytes (A ++ N1))) eqn:EZ.
    { exfalso. apply E0. rewrite !len_bytes_app in EZ. assert (len_bytes M = 0) by lia. assert (len_bytes N1 = 0) by lia.
      apply len_bytes_zero in H, H0. rewrite EO1, EO2, EN1, EN2. rewrite H, H0. reflexivity. }
    assert (BAM : boundary seg (A ++ M) S).
    { assert (Q : seg old = (ga ++ rev ob) ++ rev gs) by (rewrite EO, <- SO, FO', app_assoc; reflexivity).
      destruct (split_boundary _ _ _ Q) as (_ & B & _ & _). rewrite concat_app in B. exact B. }
    assert (SAM : seg (A ++ M) = seg A ++ seg M).
    { assert (Q : seg old = (ga ++ rev ob) ++ rev gs) by (rewrite EO, <- SO, FO', app_assoc; reflexivity).
      destruct (split_boundary _ _ _ Q) as (_ & _ & B & _). rewrite concat_app in B. rewrite SA, SM. exact B. }
    assert (EOM : old = (A ++ M) ++ S) by (rewrite EO1, EO2, app_assoc; reflexivity).
    assert (P1 : position_at_offset seg (line_index_new old e) (len_bytes A) = Some (place seg A)) by (rewrite EO1; apply position_place; auto).
    assert (P2 : position_at_offset seg (line_index_new old e) (len_bytes (A ++ M)) = Some (place seg (A ++ M))) by (rewrite EOM; apply position_place; auto).
    rewrite P1, P2. rewrite EN1, EN2. rewrite text_slice_app.
    unfold range_new. rewrite (place_le A M SAM). unfold range_to_lsp. cbn [rstart rend].
    assert (T1 : to_lsp seg (line_index_new old e) (place seg A) = Some (lsp_place seg e A)) by (rewrite EO1; apply to_lsp_place; auto).
    assert (T2 : to_lsp seg (line_index_new old e) (place seg (A ++ M)) = Some (lsp_place seg e (A ++ M))) by (rewrite EOM; apply to_lsp_place; auto).
    rewrite T1, T2. eexists. split; [reflexivity|]. split; [|cbn [length]; lia]. cbn [fold_left]. unfold apply_edit. cbn [edit_range edit_text lstart lend].
    assert (Q1 : text_before e old (lsp_place seg e A) = A) by (rewrite EO1; apply text_before_place; auto; rewrite <- EO1; auto).
    assert (Q2 : text_before e old (lsp_place seg e (A ++ M)) = A ++ M) by (rewrite EOM; apply text_before_place; auto; rewrite <- EOM; auto).
    rewrite Q1, Q2. rewrite EOM at 1. rewrite skipn_app, skipn_all, Nat.sub_diag. cbn [skipn app]. reflexivity.
  Qed.
End Edits.

(** Partial: for documents without lone carriage returns (false for others: C18_lone_cr_refuted).
    Applying the edit computed for a formatted text to the old document gives the formatted text, in each
    encoding of the protocol; the computation does not panic. *)
Theorem C18_edit_reproduces_partial : forall seg, segmentation seg -> forall e old new, e <> GraphemeCluster -> no_lone_cr old ->
  exists edits, compute_text_edits seg old new (line_index_new old e) = Some edits /\ fold_left (apply_edit e) edits old = new /\ (length edits <= 1)%nat.
Proof. exact edits_proof. Qed.
Print Assumptions C18_edit_reproduces_partial.

Example C18_example :
  let old := lit "a=1" ++ [13; 10] ++ lit "b = ""e" ++ [0x301; 0x1F985; 34; 13; 10] in
  let new := lit "a = 1" ++ [10] ++ lit "b = ""e" ++ [0x301; 0x1F985; 34; 10] in
  compute_text_edits seg_marks old new (line_index_new old Utf16) =
    Some [MkEdit (LspRange (LspPos 0 1) (LspPos 2 0)) (lit " = 1" ++ [10] ++ lit "b = ""e" ++ [0x301; 0x1F985; 34; 10])].
Proof. vm_compute. reflexivity. Qed.

(** Without the hypothesis on carriage returns: the protocol ends a line at every carriage return, the
    server does not.  A document with a lone carriage return inside a multi-line string is parsed without
    error; the edit for it then destroys text. *)
Definition crdoc : str := lit "a='''x" ++ [13] ++ lit "y'''".
Definition crnew : str := lit "a = '''x" ++ [13] ++ lit "y'''" ++ [10].
Theorem C18_lone_cr_refuted :
  (exists t, parse seg_marks 129 crdoc = Done (t, [])) /\
  exists edits, compute_text_edits seg_marks crdoc crnew (line_index_new crdoc Utf16) = Some edits /\
    fold_left (apply_edit Utf16) edits crdoc <> crnew.
Proof.
  split; [eexists; vm_compute; reflexivity|]. eexists. split; [vm_compute; reflexivity|]. vm_compute. discriminate.
Qed.
Print Assumptions C18_lone_cr_refuted.

(** * C20 *)
(** What the elements handed to the builder are, in terms of the text: a token of a type with its text, or
    a comment that contains a directive (the texts before, of and after the directive). *)
Inductive piece := Word (ty : N) (w : str) | Directive (before dir after : str).
Definition piece_text (x : piece) : str := match x with Word _ w => w | Directive b d a => b ++ d ++ a end.
Definition cut (seg : str -> list str) (text a : str) : Prop := exists b, text = a ++ b /\ boundary seg a b.

(** The pieces occur in the text in order, each after a gap; [a] is the text before. *)
Fixpoint occur (seg : str -> list str) (text a : str) (after_comment : bool) (xs : list (str * piece)) : Prop :=
  match xs with
  | [] => True
  | (gap, x) :: xs' =>
      cut seg text (a ++ gap) /\ (after_comment = true -> In 10 gap) /\
      match x with
      | Word _ w => cut seg text (a ++ gap ++ w)
      | Directive b d c => ~ In 10 (b ++ d ++ c) /\ cut seg text (a ++ gap ++ b) /\ cut seg text (a ++ gap ++ b ++ d) /\ cut seg text (a ++ gap ++ b ++ d ++ c)
      end /\
      occur seg text (a ++ gap ++ piece_text x) (match x with Word _ _ => false | _ => true end) xs'
  end.
(** The calls of the builder for them. *)
Definition text_range seg (a w : str) : range := MkRange (place seg a) (place seg (a ++ w)).
Fixpoint add_all seg li tc tk (a : str) (xs : list (str * piece)) (b : sem_builder) : option sem_builder :=
  match xs with
  | [] => Some b
  | (gap, x) :: xs' =>
      match (match x with
             | Word ty w => add_token seg li ty (text_range seg (a ++ gap) w) b
             | Directive u d c => add_comment_directive seg li tc tk (text_range seg (a ++ gap) (u ++ d ++ c)) (text_range seg (a ++ gap ++ u) d) b
             end) with
      | Some b' => add_all seg li tc tk (a ++ gap ++ piece_text x) xs' b'
      | None => None
      end
  end.
(** What the editor should see: each piece where it stands, with its length in code units (for texts of one
    line) and its type. *)
Fixpoint shows seg e tc tk (a : str) (xs : list (str * piece)) (out : list (lsp_position * N * N)) : Prop :=
  match xs with
  | [] => out = []
  | (gap, x) :: xs' =>
      exists here rest, out = here ++ rest /\ shows seg e tc tk (a ++ gap ++ piece_text x) xs' rest /\
      match x with
      | Word ty w => exists n, here = [(lsp_place seg e (a ++ gap), n, ty)] /\ (~ In 10 w -> n = measure seg e w)
      | Directive u d c => here = [(lsp_place seg e (a ++ gap), measure seg e u, tc);
                                   (lsp_place seg e (a ++ gap ++ u), measure seg e d, tk);
                                   (lsp_place seg e (a ++ gap ++ u ++ d), measure seg e c, tc)]
      end
  end.

Section Semantic.
  Context (seg : str -> list str) (HS : segmentation seg) (text : str) (e : encoding).
  Let li := line_index_new text e.

  Lemma cut_lsp a : cut seg text a -> to_lsp seg li (place seg a) = Some (lsp_place seg e a).
  Proof. intros (b & E & HB). unfold li. rewrite E. apply to_lsp_place; auto. Qed.
  Lemma cut_cut a w : cut seg text a -> cut seg text (a ++ w) -> seg (a ++ w) = seg a ++ seg w.
  Proof.
    intros (b & E & HB) (b' & E' & HB'). unfold boundary in *. rewrite <- E in HB. rewrite <- E' in HB'. rewrite HB in HB'.
    assert (Eb : b = w ++ b') by (rewrite E, <- app_assoc in E'; apply app_inv_head in E'; exact E').
    apply app_eq_app in HB' as (l & [[K1 K2]|[K1 K2]]).
    - (* seg a = seg (a++w) ++ l *)
      assert (C := f_equal (@concat N) K1). rewrite concat_app, !(seg_concat _ HS), <- app_assoc in C.
      assert (W : w ++ concat l = []) by (apply (app_inv_head a); rewrite app_nil_r; auto). apply app_eq_nil in W as [-> _].
      rewrite (seg_nil seg HS), !app_nil_r. reflexivity.
    - rewrite K1. f_equal. assert (C := f_equal (@concat N) K1). rewrite concat_app, !(seg_concat _ HS) in C. apply app_inv_head in C.
      destruct (seg_split _ HS b l (seg b') K2) as [H1 _]. rewrite <- H1. f_equal. auto.
  Qed.
  Lemma cut_mono a z : cut seg text a -> cut seg text (a ++ z) -> forall e',
    let p := lsp_place seg e' a in let q := lsp_place seg e' (a ++ z) in
    (In 10 z /\ lline p < lline q) \/ (~ In 10 z /\ lline p = lline q /\ lchar q = lchar p + measure seg e' z).
  Proof.
    intros H1 H2 e'. pose proof (place_mono seg HS a z (cut_cut a z H1 H2) e') as K. cbn [lsp_place lline lchar] in *. rewrite count_app in *.
    destruct (in_dec N.eq_dec 10 z) as [I|I].
    - left. assert (count_lf z <> 0) by (rewrite <- count_none; auto). split; auto. lia.
    - right. apply count_none in I as I0. split; auto. destruct K as [K|[K1 K2]]; [lia|]. split; [lia|exact K2].
  Qed.
  Lemma delta_spec a z : cut seg text a -> cut seg text (a ++ z) ->
    exists dl ds, delta_line_and_start seg li (place seg a) (place seg (a ++ z)) = Some (dl, ds) /\
    count_lf a + dl = count_lf (a ++ z) /\
    (if N.eqb dl 0 then measure seg e (last_line a) + ds else ds) = measure seg e (last_line (a ++ z)) /\ (In 10 z -> dl <> 0).
  Proof.
    intros H1 H2. unfold delta_line_and_start. rewrite (cut_lsp a H1), (cut_lsp _ H2).
    pose proof (cut_mono a z H1 H2 e) as K. cbn [lsp_place lline lchar] in *. unfold sub32. destruct K as [[I K]|(I & K1 & K2)].
    - replace (count_lf a <=? count_lf (a ++ z)) with true by lia. replace (N.eqb (count_lf (a ++ z) - count_lf a) 0) with false by lia.
      eexists. eexists. split; [reflexivity|]. split; [lia|]. split; [replace (N.eqb _ 0) with false by lia; reflexivity|lia].
    - replace (count_lf a <=? count_lf (a ++ z)) with true by lia. replace (N.eqb (count_lf (a ++ z) - count_lf a) 0) with true by lia.
      replace (measure seg e (last_line a) <=? measure seg e (last_line (a ++ z))) with true by lia.
      eexists. eexists. split; [reflexivity|]. split; [lia|]. split; [replace (N.eqb _ 0) with true by lia; lia|contradiction].
  Qed.

  Lemma line_total l : exists o, line_text li l = Some o.
  Proof.
    unfold li. destruct (N.le_gt_cases l (count_lf text)) as [K|K]; [|rewrite line_text_none by auto; eauto].
    destruct (line_exists text l K) as (p & t & rest & E & HL & HC). rewrite E, <- HC, line_text_of by auto. eauto.
  Qed.
  Lemma lines_total r n : forall l, exists m, length_lines seg li r l n = Some m.
  Proof.
    induction n as [|n IH]; intros l; cbn [length_lines]; destruct (line_total l) as (o & ->); [eauto|]. destruct (IH (l + 1)) as (m & ->). cbn [option_map]. eauto.
  Qed.
  Lemma token_length_spec a w : cut seg text a -> cut seg text (a ++ w) ->
    exists n, token_length seg li (text_range seg a w) = Some n /\ (~ In 10 w -> n = measure seg e w).
  Proof.
    intros H1 H2. pose proof (cut_mono a w H1 H2 GraphemeCluster) as K. cbn [lsp_place lline lchar] in K.
    unfold token_length, text_range. cbn [rstart rend place line column]. destruct K as [[I K]|(I & K1 & K2)].
    - replace (N.eqb (count_lf a) (count_lf (a ++ w))) with false by lia.
      match goal with |- context [length_lines seg li ?r ?l ?n] => destruct (lines_total r n l) as (m & E) end. rewrite E. exists m. split; auto. contradiction.
    - rewrite K1, N.eqb_refl. rewrite <- K1. destruct H1 as (b & E & HB). pose proof H2 as (b' & E' & HB').
      destruct (place_line seg HS a b HB) as (p & x & y & rest & Ea & Eb & HL & EL & EC & EX).
      destruct (place_line seg HS (a ++ w) b' HB') as (p' & x' & y' & rest' & Ea' & Eb' & HL' & EL' & EC' & EX').
      assert (ET : text = p ++ (x ++ y) ++ rest) by (rewrite E, Ea, Eb, <- !app_assoc; reflexivity).
      assert (ET' : text = p' ++ (x' ++ y') ++ rest') by (rewrite E', Ea', Eb', <- !app_assoc; reflexivity).
      assert (T1 : line_text li (count_lf a) = Some (Some (x ++ y))) by (unfold li; rewrite EC, ET; apply line_text_of; auto).
      assert (T2 : line_text li (count_lf a) = Some (Some (x' ++ y'))) by (unfold li; rewrite K1, EC', ET'; apply line_text_of; auto).
      rewrite T1. rewrite T1 in T2. injection T2 as TT. rewrite EL, EL' in *. unfold sub32. rewrite K2. cbn [measure].
      replace (N.of_nat (length (seg x)) <=? N.of_nat (length (seg x)) + N.of_nat (length (seg w))) with true by lia.
      eexists. split; [reflexivity|]. intros _. unfold units_between. rewrite Nnat.Nat2N.id.
      replace (N.to_nat (N.of_nat (length (seg x)) + N.of_nat (length (seg w)) - N.of_nat (length (seg x)))) with (length (seg w)) by lia.
      assert (Hx' : x' = x ++ w).
      { rewrite <- EL'. rewrite Ea, <- app_assoc. apply last_line_app; [apply HL|]. intros J. apply in_app_or in J as [J|J]; [|auto].
        destruct HL as (_ & HN & _). apply HN. apply in_or_app. auto. }
      assert (SX : seg (x ++ w) = seg x ++ seg w).
      { assert (Q := cut_cut a w (ex_intro _ b (conj E HB)) H2). rewrite Ea, <- app_assoc in Q. rewrite !(seg_whole seg HS p) in Q by apply HL.
        rewrite <- app_assoc in Q. apply app_inv_head in Q. exact Q. }
      rewrite TT, EX', Hx', SX, <- app_assoc. rewrite skipn_app, skipn_all, Nat.sub_diag. cbn [skipn app].
      rewrite firstn_app, firstn_all, Nat.sub_diag. cbn [firstn]. rewrite app_nil_r, sum_measures_total, total_seg; auto.
  Qed.

  Lemma range_lsp a w : cut seg text a -> cut seg text (a ++ w) ->
    range_to_lsp seg li (text_range seg a w) = Some (LspRange (lsp_place seg e a) (lsp_place seg e (a ++ w))).
  Proof. intros H1 H2. unfold range_to_lsp, text_range. cbn [rstart rend]. rewrite (cut_lsp a H1), (cut_lsp _ H2). reflexivity. Qed.

  Lemma cut_self a w : cut seg text a -> seg (a ++ w) = seg (a ++ w).
  Proof. reflexivity. Qed.

  Lemma add_all_spec tc tk xs : forall a ac a0 z b l s,
    cut seg text a0 -> a = a0 ++ z -> rstart (sb_last b) = place seg a0 ->
    l = count_lf a0 -> (ac = false -> s = measure seg e (last_line a0)) ->
    occur seg text a ac xs ->
    exists new b', add_all seg li tc tk a xs b = Some b' /\ sb_tokens b' = sb_tokens b ++ new /\ shows seg e tc tk a xs (decode_tokens l s new).
  Proof.
    induction xs as [|[gap x] xs IH]; intros a ac a0 z b l s HC Ha Hb Hl Hs HO.
    - exists [], b. cbn. rewrite app_nil_r. auto.
    - cbn [occur] in HO. destruct HO as (C1 & HG & HX & HO).
      assert (C1' : cut seg text (a0 ++ (z ++ gap))) by (rewrite Ha, <- app_assoc in C1; exact C1).
      destruct (delta_spec a0 (z ++ gap) HC C1') as (dl & ds & ED & DL & DS & DN).
      assert (EA : a0 ++ z ++ gap = a ++ gap) by (rewrite Ha, <- app_assoc; reflexivity). rewrite EA in *.
      assert (POS : l + dl = count_lf (a ++ gap) /\ (if N.eqb dl 0 then s + ds else ds) = measure seg e (last_line (a ++ gap))).
      { split; [lia|]. rewrite <- DS. destruct (N.eqb dl 0) eqn:Z; [|reflexivity]. destruct ac; [|rewrite Hs; auto].
        exfalso. apply N.eqb_eq in Z. apply DN; auto. apply in_or_app. right. auto. }
      destruct POS as [PL PS].
      destruct x as [ty w|u d c]; cbn [add_all piece_text] in *.
      + assert (C2 : cut seg text ((a ++ gap) ++ w)) by (rewrite <- app_assoc; exact HX).
        destruct (token_length_spec (a ++ gap) w C1 C2) as (n & EN & HN).
        unfold add_token. rewrite Hb. unfold text_range in *. cbn [rstart]. rewrite ED, EN.
        destruct (IH (a ++ gap ++ w) false (a ++ gap) w (MkSb (sb_tokens b ++ [MkSem dl ds n ty]) (MkRange (place seg (a ++ gap)) (place seg ((a ++ gap) ++ w)))) (count_lf (a ++ gap)) (measure seg e (last_line (a ++ gap))))
          as (new & b' & E1 & E2 & E3); auto; [rewrite <- app_assoc; reflexivity|].
        exists (MkSem dl ds n ty :: new), b'. split; [exact E1|]. split; [rewrite E2; cbn [sb_tokens]; rewrite <- app_assoc; reflexivity|].
        cbn [shows]. eexists [_]. eexists. cbn [decode_tokens delta_line delta_start sem_length sem_type]. rewrite PL, PS. split; [reflexivity|]. split; [exact E3|].
        exists n. split; [reflexivity|exact HN].
      + destruct HX as (NL & C2 & C3 & C4).
        assert (A2 : a ++ gap ++ u = (a ++ gap) ++ u) by (rewrite <- app_assoc; reflexivity).
        assert (A3 : a ++ gap ++ u ++ d = (a ++ gap ++ u) ++ d) by (rewrite <- !app_assoc; reflexivity).
        assert (A4 : a ++ gap ++ u ++ d ++ c = (a ++ gap ++ u ++ d) ++ c) by (rewrite <- !app_assoc; reflexivity).
        assert (A5 : a ++ gap ++ u ++ d ++ c = (a ++ gap) ++ (u ++ d ++ c)) by (rewrite <- !app_assoc; reflexivity).
        assert (N1 : ~ In 10 u) by (intros K; apply NL; apply in_or_app; auto).
        assert (N2 : ~ In 10 d) by (intros K; apply NL; apply in_or_app; right; apply in_or_app; auto).
        assert (N3 : ~ In 10 c) by (intros K; apply NL; apply in_or_app; right; apply in_or_app; auto).
        assert (C2' := C2). assert (C3' := C3). assert (C4' := C4). rewrite A2 in C2'. rewrite A3 in C3'. rewrite A4 in C4'.
        pose proof (cut_mono _ _ C1 C2' e) as M1. pose proof (cut_mono _ _ C2 C3' e) as M2. pose proof (cut_mono _ _ C3 C4' e) as M3.
        destruct M1 as [[K _]|(_ & M1 & M1')]; [contradiction|]. destruct M2 as [[K _]|(_ & M2 & M2')]; [contradiction|]. destruct M3 as [[K _]|(_ & M3 & M3')]; [contradiction|].
        assert (C5 : cut seg text ((a ++ gap) ++ (u ++ d ++ c))) by (rewrite <- A5; exact C4).
        pose proof (range_lsp _ _ C2 C3') as R1. pose proof (range_lsp _ _ C1 C5) as R2.
        rewrite <- A3 in R1. rewrite <- A5 in R2. rewrite <- A2 in M1, M1'. rewrite <- A3 in M2, M2'. rewrite <- A4 in M3, M3'.
        unfold add_comment_directive. rewrite Hb. fold li in R1, R2. rewrite R1, R2. unfold text_range. cbn [rstart]. rewrite ED. cbn [lstart lend].
        cbn [lsp_place lline lchar] in *.
        unfold sub32. rewrite M3', M2', M1'.
        set (m0 := measure seg e (last_line (a ++ gap))) in *. set (mu := measure seg e u) in *. set (md := measure seg e d) in *. set (mc := measure seg e c) in *.
        replace (m0 <=? m0 + mu) with true by lia. replace (m0 + mu <=? m0 + mu + md) with true by lia. replace (m0 + mu + md <=? m0 + mu + md + mc) with true by lia.
        replace (m0 + mu - m0) with mu by lia. replace (m0 + mu + md - (m0 + mu)) with md by lia. replace (m0 + mu + md + mc - (m0 + mu + md)) with mc by lia.
        match goal with |- context [add_all _ _ _ _ _ _ ?bb] => destruct (IH (a ++ gap ++ u ++ d ++ c) true (a ++ gap) (u ++ d ++ c) bb (count_lf (a ++ gap)) (m0 + mu + md)) as (new & b' & E1 & E2 & E3) end; auto; [discriminate|].
        exists ([MkSem dl ds mu tc; MkSem 0 mu md tk; MkSem 0 md mc tc] ++ new), b'. split; [exact E1|]. split; [rewrite E2; cbn [sb_tokens]; rewrite <- app_assoc; reflexivity|].
        cbn [shows]. eexists [_; _; _]. eexists. cbn [app decode_tokens delta_line delta_start sem_length sem_type]. rewrite PL, PS. change (N.eqb 0 0) with true. cbv iota. rewrite !N.add_0_r.
        split; [reflexivity|]. split; [exact E3|]. unfold lsp_place. rewrite <- M2, <- M1, M2', M1'. reflexivity.
  Qed.
End Semantic.

Lemma C20_proof seg : segmentation seg -> forall text e tc tk xs, occur seg text [] false xs ->
  exists b, add_all seg (line_index_new text e) tc tk [] xs sb_new = Some b /\ shows seg e tc tk [] xs (decode_tokens 0 0 (sb_tokens b)).
Proof.
  intros HS text e tc tk xs HO.
  destruct (add_all_spec seg HS text e tc tk xs [] false [] [] sb_new 0 0) as (new & b & E1 & E2 & E3); auto.
  - exists text. split; auto. unfold boundary. rewrite (seg_nil seg HS). reflexivity.
  - cbn [sb_new sb_last rstart]. unfold place. cbn [last_line measure]. rewrite (seg_nil seg HS). reflexivity.
  - intros _. cbn [last_line]. rewrite (measure_nil seg HS). reflexivity.
  - exists b. split; auto. cbn [sb_new sb_tokens app] in E2. rewrite E2. exact E3.
Qed.
(** For every document, encoding and list of pieces that occur in it in order (each directive comment
    followed by a line break), building the semantic tokens does not panic, and decoding them as the
    protocol says gives each piece at its place, with its length and type. *)
Theorem C20_semantic_tokens : forall seg, segmentation seg -> forall text e tc tk xs, occur seg text [] false xs ->
  exists b, add_all seg (line_index_new text e) tc tk [] xs sb_new = Some b /\ shows seg e tc tk [] xs (decode_tokens 0 0 (sb_tokens b)).
Proof. exact C20_proof. Qed.
Print Assumptions C20_semantic_tokens.

Example C20_example :
  let text := lit "# tombi: x" ++ [10] ++ lit "k = ""e" ++ [0x301; 0x1F985; 34] ++ lit " # c" in
  let xs := [([], Directive (lit "# ") (lit "tombi:") (lit " x")); ([10], Word 6 (lit "k")); (lit " ", Word 2 (lit "=")); (lit " ", Word 0 (lit """e" ++ [0x301; 0x1F985; 34])); (lit " ", Word 3 (lit "# c"))] in
  occur seg_marks text [] false xs /\
  option_map (fun b => decode_tokens 0 0 (sb_tokens b)) (add_all seg_marks (line_index_new text Utf16) 3 4 [] xs sb_new) =
    Some [(LspPos 0 0, 2, 3); (LspPos 0 2, 6, 4); (LspPos 0 8, 2, 3); (LspPos 1 0, 1, 6); (LspPos 1 2, 1, 2); (LspPos 1 4, 6, 0); (LspPos 1 11, 3, 3)].
Proof.
  split; [|vm_compute; reflexivity]. cbn [occur].
  repeat match goal with
  | |- _ /\ _ => split
  | |- cut _ _ _ => eexists; split; [reflexivity|vm_compute; reflexivity]
  | |- true = true -> _ => intros _; left; reflexivity
  | |- false = true -> _ => discriminate
  | |- ~ In _ _ => vm_compute; intuition discriminate
  | |- True => exact I
  end.
Qed.
