(** Proofs about the language server's positions. *)
From Coq Require Import List NArith Bool Arith Lia ZifyBool.
From Verif Require Import Base TextModel LexerModel LexerSpec LexerProofs ParserModel ParserInv LspTextModel LspTextSpec.
Import ListNotations.
Open Scope N_scope.
Open Scope list_scope.

(** * The example segmentation *)
Section SegBy.
  Context (joins : char -> bool).
  Let st := sticks joins.
  Fixpoint sticky (g : str) : Prop :=
    match g with
    | c :: g' => match g' with d :: _ => st c d = true /\ sticky g' | [] => True end
    | [] => True
    end.
  Definition apart (a b : str) : Prop := a = [] \/ b = [] \/ st (last a 0) (hd 0 b) = false.
  Fixpoint good (gs : list str) : Prop :=
    match gs with
    | [] => True
    | g :: gs' => g <> [] /\ sticky g /\ apart g (concat gs') /\ good gs'
    end.
  Lemma seg_cons c s : seg_by joins (c :: s) = match seg_by joins s with [] => [[c]] | g :: gs => if st c (hd 0 s) then (c :: g) :: gs else [c] :: g :: gs end.
  Proof. reflexivity. Qed.
  Lemma seg_nil_iff s : seg_by joins s = [] -> s = [].
  Proof.
    destruct s as [|c s]; [auto|]. rewrite seg_cons. destruct (seg_by joins s); [discriminate|]. destruct (st _ _); discriminate.
  Qed.
  Lemma seg_run g : forall rest, g <> [] -> sticky g -> apart g rest -> seg_by joins (g ++ rest) = g :: seg_by joins rest.
  Proof.
    induction g as [|c g IH]; intros rest Hne Hs Ha; [contradiction|]. cbn [app]. rewrite seg_cons. destruct g as [|d g].
    - cbn [app]. destruct (seg_by joins rest) as [|h hs] eqn:E; [apply seg_nil_iff in E; subst; reflexivity|].
      destruct Ha as [Ha|[Ha|Ha]]; [discriminate|subst; discriminate|]. cbn [last] in Ha. rewrite Ha. reflexivity.
    - destruct Hs as [Hs1 Hs2]. rewrite (IH rest); [|discriminate|exact Hs2|].
      + cbn [app hd]. rewrite Hs1. reflexivity.
      + destruct Ha as [Ha|[Ha|Ha]]; [discriminate|right; left; auto|]. right; right. exact Ha.
  Qed.
  Lemma seg_unique gs : good gs -> seg_by joins (concat gs) = gs.
  Proof.
    induction gs as [|g gs IH]; [reflexivity|]. intros (H1 & H2 & H3 & H4). cbn [concat]. rewrite seg_run by auto. rewrite IH; auto.
  Qed.
  Lemma concat_seg s : concat (seg_by joins s) = s.
  Proof.
    induction s as [|c s IH]; [reflexivity|]. rewrite seg_cons. destruct (seg_by joins s) as [|g gs] eqn:E.
    - apply seg_nil_iff in E. subst. reflexivity.
    - destruct (st _ _); cbn [concat app] in *; congruence.
  Qed.
  Lemma seg_good s : good (seg_by joins s).
  Proof.
    induction s as [|c s IH]; [exact I|]. rewrite seg_cons. pose proof (concat_seg s) as HC. destruct (seg_by joins s) as [|g gs] eqn:E.
    - repeat split; try discriminate. right; left; reflexivity.
    - destruct IH as (H1 & H2 & H3 & H4). destruct (st c (hd 0 s)) eqn:ES.
      + split; [discriminate|]. split; [|split; [|exact H4]].
        * destruct g as [|d g]; [contradiction|]. cbn [concat app] in HC. subst s. cbn [hd] in ES. split; [exact ES|exact H2].
        * destruct H3 as [K|[K|K]]; [contradiction|right; left; auto|]. right; right. destruct g as [|d g]; [contradiction|]. exact K.
      + split; [discriminate|]. split; [exact I|]. split; [|split; auto]. right; right. rewrite HC. exact ES.
  Qed.
  Lemma good_parts ga gb : good (ga ++ gb) -> good ga /\ good gb.
  Proof.
    induction ga as [|g ga IH]; [cbn [app]; simpl; auto|]. cbn [app good]. intros (H1 & H2 & H3 & H4). apply IH in H4 as [K1 K2].
    repeat split; auto. rewrite concat_app in H3. destruct H3 as [K|[K|K]]; [left; auto|right; left; apply app_eq_nil in K; tauto|].
    destruct (concat ga) as [|x l]; [right; left; auto|]. right; right. exact K.
  Qed.
  Lemma last_app_ne {A} (a b : list A) d : b <> [] -> last (a ++ b) d = last b d.
  Proof.
    intros H. induction a as [|x a IH]; [reflexivity|]. cbn [app]. rewrite <- IH. destruct (a ++ b) eqn:E; [apply app_eq_nil in E as [_ E]; contradiction|reflexivity].
  Qed.
  Lemma good_join ga gb : good ga -> good gb -> apart (concat ga) (concat gb) -> good (ga ++ gb).
  Proof.
    induction ga as [|g ga IH]; [cbn [app]; simpl; auto|]. cbn [app good concat]. intros (H1 & H2 & H3 & H4) H5 H6.
    repeat split; auto.
    - rewrite concat_app. destruct (concat ga) as [|x l] eqn:E.
      + cbn [app]. rewrite app_nil_r in H6. exact H6.
      + destruct H3 as [K|[K|K]]; [left; auto|discriminate|]. right; right. exact K.
    - apply IH; auto. destruct (concat ga) as [|x l] eqn:E; [left; auto|].
      destruct H6 as [K|[K|K]]; [apply app_eq_nil in K as [_ K]; discriminate|right; left; auto|].
      right; right. rewrite last_app_ne in K by discriminate. exact K.
  Qed.
  Lemma seg_by_segmentation : segmentation (seg_by joins).
  Proof.
    constructor.
    - exact concat_seg.
    - intros s. pose proof (seg_good s) as H. induction (seg_by joins s) as [|g gs IH]; [auto|]. destruct H as (H1 & _ & _ & H4).
      intros [K|K]; [subst; contradiction|]. apply IH; auto.
    - intros s ga gb E. pose proof (seg_good s) as H. rewrite E in H. apply good_parts in H as [H1 H2]. split; apply seg_unique; auto.
    - intros a b. rewrite <- (concat_seg a) at 1. rewrite <- (concat_seg b) at 1.
      change (concat (seg_by joins a) ++ 13 :: 10 :: concat (seg_by joins b)) with (concat (seg_by joins a) ++ concat ([13; 10] :: seg_by joins b)).
      rewrite <- concat_app. apply seg_unique. apply good_join; [apply seg_good| |].
      + split; [discriminate|]. split; [repeat split; reflexivity|]. split; [|apply seg_good].
        right; right. unfold st, sticks. cbn [last]. lia.
      + right; right. cbn [concat app hd]. unfold st, sticks. lia.
    - intros a b Ha. rewrite <- (concat_seg a) at 1. rewrite <- (concat_seg b) at 1.
      change (concat (seg_by joins a) ++ 10 :: concat (seg_by joins b)) with (concat (seg_by joins a) ++ concat ([10] :: seg_by joins b)).
      rewrite <- concat_app. apply seg_unique. apply good_join; [apply seg_good| |].
      + split; [discriminate|]. split; [exact I|]. split; [|apply seg_good]. right; right. unfold st, sticks. cbn [last]. lia.
      + rewrite concat_seg. destruct a as [|x a _] using rev_ind; [left; auto|]. right; right. rewrite last_last. cbn [concat app hd].
        unfold st, sticks. destruct (N.eqb x 13) eqn:E; [|lia]. exfalso. apply Ha. exists a. f_equal. f_equal. lia.
  Qed.
End SegBy.

(** * Lines *)
Lemma count_app a b : count_lf (a ++ b) = count_lf a + count_lf b.
Proof. unfold count_lf. rewrite filter_app, app_length. lia. Qed.
Lemma count_cons c s : count_lf (c :: s) = (if N.eqb 10 c then 1 else 0) + count_lf s.
Proof. unfold count_lf. cbn [filter]. destruct (N.eqb 10 c); cbn [length]; lia. Qed.
Lemma count_nil : count_lf [] = 0.
Proof. reflexivity. Qed.
Lemma count_none s : ~ In 10 s <-> count_lf s = 0.
Proof.
  induction s as [|c s IH]; [split; auto|]. rewrite count_cons. destruct (N.eqb 10 c) eqn:E.
  - apply N.eqb_eq in E. subst. split; [intros H; exfalso; apply H; left; auto|lia].
  - apply N.eqb_neq in E. rewrite N.add_0_l, <- IH. simpl. intuition congruence.
Qed.
Lemma exists_lf s : existsb (N.eqb 10) s = true <-> In 10 s.
Proof. rewrite existsb_exists. split; [intros (x & H & E); apply N.eqb_eq in E; subst; auto|intros H; exists 10; split; auto]. Qed.

(** A text is [whole lines] when it is empty or ends with a line feed. *)
Definition whole_lines (p : str) : Prop := p = [] \/ ends_with 10 p.
Lemma last_line_none s : ~ In 10 s -> last_line s = s.
Proof.
  destruct s as [|c s]; [reflexivity|]. intros H. cbn [last_line]. destruct (existsb (N.eqb 10) (c :: s)) eqn:E; [|reflexivity].
  apply exists_lf in E. contradiction.
Qed.
Lemma last_line_app p x : whole_lines p -> ~ In 10 x -> last_line (p ++ x) = x.
Proof.
  intros [-> |(q & ->)] Hx; [apply last_line_none; auto|]. rewrite <- app_assoc. cbn [app].
  induction q as [|c q IH].
  - cbn [app last_line existsb]. change (N.eqb 10 10) with true. cbn [orb]. apply last_line_none; auto.
  - cbn [app last_line]. replace (existsb (N.eqb 10) (c :: q ++ 10 :: x)) with true; [exact IH|].
    symmetry. apply exists_lf. right. apply in_or_app. right. left. auto.
Qed.
Lemma last_line_split s : exists p, s = p ++ last_line s /\ whole_lines p /\ ~ In 10 (last_line s).
Proof.
  induction s as [|c s IH]; [exists []; repeat split; simpl; auto; left; auto|].
  cbn [last_line]. destruct (existsb (N.eqb 10) (c :: s)) eqn:E.
  - destruct IH as (p & E1 & H1 & H2). exists (c :: p). split; [cbn [app]; congruence|]. split; auto.
    destruct H1 as [-> |(q & ->)]; [|right; exists (c :: q); auto].
    right. exists []. cbn [app]. f_equal. cbn [app] in E1.
    apply exists_lf in E. destruct E as [E|E]; [auto|]. exfalso. apply H2. rewrite <- E1. exact E.
  - exists []. split; [reflexivity|]. split; [left; auto|]. intros K. apply exists_lf in K. congruence.
Qed.

(** The line that starts at the end of [p] has the text [t], and [rest] is its end and what follows. *)
Definition line_of (p t rest : str) : Prop :=
  whole_lines p /\ ~ In 10 t /\ (rest = [] \/ (exists r, rest = 10 :: r /\ ~ ends_with 13 t) \/ (exists r, rest = 13 :: 10 :: r)).

Lemma line_exists text l : l <= count_lf text -> exists p t rest, text = p ++ t ++ rest /\ line_of p t rest /\ count_lf p = l.
Proof.
  revert text. assert (S : forall s, exists t rest, s = t ++ rest /\ ~ In 10 t /\
    (rest = [] \/ (exists r, rest = 10 :: r /\ ~ ends_with 13 t) \/ (exists r, rest = 13 :: 10 :: r))).
  { intros s. induction s as [|c s IH]; [exists [], []; simpl; auto|].
    destruct (N.eqb c 10) eqn:E.
    - apply N.eqb_eq in E. subst. exists [], (10 :: s). split; auto. split; auto. right; left. exists s. split; auto. intros (a & K). destruct a; discriminate.
    - apply N.eqb_neq in E. destruct IH as (t & rest & -> & Ht & Hr).
      destruct Hr as [-> |[(r & -> & H)|(r & ->)]].
      + exists (c :: t), []. split; auto. split; [intros [K|K]; congruence|auto].
      + destruct t as [|d t].
        * destruct (N.eqb c 13) eqn:E3.
          -- apply N.eqb_eq in E3. subst. exists [], (13 :: 10 :: r). split; auto. split; auto. right; right. eauto.
          -- apply N.eqb_neq in E3. exists [c], (10 :: r). split; auto. split; [intros [K|[]]; congruence|]. right; left. exists r. split; auto.
             intros (a & K). destruct a as [|? [|]]; inversion K. congruence.
        * exists (c :: d :: t), (10 :: r). split; auto. split; [intros [K|K]; [congruence|auto]|]. right; left. exists r. split; auto.
          intros (a & K). destruct a as [|y a]; [discriminate|]. apply H. exists a. injection K as _ K. exact K.
      + exists (c :: t), (13 :: 10 :: r). split; auto. split; [intros [K|K]; congruence|]. right; right. eauto. }
  assert (G : forall n text, N.of_nat n <= count_lf text -> exists p t rest, text = p ++ t ++ rest /\ line_of p t rest /\ count_lf p = N.of_nat n).
  { induction n as [|n IH]; intros text H.
    - destruct (S text) as (t & rest & E & H1 & H2). exists [], t, rest. repeat split; auto. left; auto.
    - destruct (IH text ltac:(lia)) as (p & t & rest & E & (H1 & H2 & H3) & H4).
      rewrite E in H. rewrite !count_app in H. apply count_none in H2 as H2'.
      assert (NL : exists u r, rest = u ++ [10] ++ r /\ count_lf u = 0).
      { destruct H3 as [-> |[(r & -> & _)|(r & ->)]]; [rewrite count_nil in H; lia|exists [], r; auto|exists [13], r; auto]. }
      destruct NL as (u & r & -> & Hu). destruct (S r) as (t' & rest' & -> & K1 & K2).
      exists (p ++ t ++ u ++ [10]), t', rest'. split; [rewrite E, <- !app_assoc; reflexivity|]. split.
      + split; [|split; auto]. right. exists (p ++ t ++ u). rewrite <- !app_assoc. reflexivity.
      + rewrite !count_app, H4, H2', Hu. change (count_lf [10]) with 1. lia. }
  intros text H. destruct (G (N.to_nat l) text ltac:(lia)) as (p & t & rest & A & B & C). exists p, t, rest. repeat split; try apply B; auto. lia.
Qed.

Fixpoint final (prev : option char) (s : str) : option char := match s with [] => prev | c :: s' => final (Some c) s' end.
Lemma final_app prev a b : final prev (a ++ b) = final (final prev a) b.
Proof. revert prev; induction a as [|c a IH]; intros; [reflexivity|]. apply IH. Qed.
Lemma spans_plain t : forall s idx start prev, ~ In 10 t -> line_spans (t ++ s) idx start prev = line_spans s (idx + len_bytes t) start (final prev t).
Proof.
  induction t as [|c t IH]; intros s idx start prev H; [cbn [app len_bytes final]; f_equal; lia|].
  cbn [app line_spans len_bytes final]. replace (N.eqb c 10) with false by (symmetry; apply N.eqb_neq; intros ->; apply H; left; auto).
  rewrite IH by (intros K; apply H; right; auto). f_equal. lia.
Qed.
Lemma spans_whole q : forall s idx start prev, exists X, N.of_nat (length X) = count_lf (q ++ [10]) /\
  line_spans (q ++ [10] ++ s) idx start prev = X ++ line_spans s (idx + len_bytes (q ++ [10])) (idx + len_bytes (q ++ [10])) (Some 10).
Proof.
  induction q as [|c q IH]; intros s idx start prev.
  - cbn [app line_spans]. change (N.eqb 10 10) with true. cbv iota. eexists [_]. split; [reflexivity|]. cbn [app]. reflexivity.
  - cbn [app line_spans len_bytes]. destruct (N.eqb c 10) eqn:E.
    + destruct (IH s (idx + len_utf8 c) (idx + len_utf8 c) (Some c)) as (X & E1 & E2). cbn [app] in E2. rewrite E2.
      eexists (_ :: X). split; [|cbn [app]; rewrite N.add_assoc; reflexivity].
      rewrite count_cons, N.eqb_sym, E. cbn [length]. lia.
    + destruct (IH s (idx + len_utf8 c) start (Some c)) as (X & E1 & E2). cbn [app] in E2. rewrite E2.
      exists X. split; [|rewrite N.add_assoc; reflexivity]. rewrite count_cons, N.eqb_sym, E. lia.
Qed.
Lemma spans_count s : forall idx start prev, N.of_nat (length (line_spans s idx start prev)) = count_lf s + 1.
Proof.
  induction s as [|c s IH]; intros; [reflexivity|]. cbn [line_spans]. rewrite count_cons, (N.eqb_sym 10 c). destruct (N.eqb c 10); cbn [length].
  - specialize (IH (idx + len_utf8 c) (idx + len_utf8 c) (Some c)). lia.
  - specialize (IH (idx + len_utf8 c) start (Some c)). lia.
Qed.
Lemma final_ends t prev : t <> [] -> (final prev t = Some 13 <-> ends_with 13 t).
Proof.
  intros H. destruct t as [|x t _] using rev_ind; [contradiction|]. rewrite final_app. cbn [final]. split.
  - intros E. inversion E. exists t. reflexivity.
  - intros (a & E). apply app_inj_tail in E as [_ ->]. reflexivity.
Qed.

Lemma spans_line t rest idx prev : ~ In 10 t -> prev <> Some 13 ->
  (rest = [] \/ (exists r, rest = 10 :: r /\ ~ ends_with 13 t) \/ (exists r, rest = 13 :: 10 :: r)) ->
  exists sps, line_spans (t ++ rest) idx idx prev = MkSpan idx (idx + len_bytes t) :: sps.
Proof.
  intros Ht Hp Hr. rewrite spans_plain by auto. destruct Hr as [-> |[(r & -> & H)|(r & ->)]].
  - exists []. reflexivity.
  - cbn [line_spans]. change (N.eqb 10 10) with true. cbv iota zeta.
    match goal with |- context [if ?b then _ else _] => replace b with false end; [eauto|].
    symmetry. destruct t as [|x t].
    + cbn [len_bytes]. rewrite N.add_0_r, N.ltb_irrefl. reflexivity.
    + destruct (final prev (x :: t)) as [y|] eqn:E; [|apply andb_false_r].
      destruct (N.eq_dec y 13) as [-> |Hy]; [exfalso; apply H; apply (final_ends _ prev); [discriminate|exact E]|].
      replace (match y with 13 => true | _ => false end) with false; [apply andb_false_r|].
      destruct y as [|[[[[]| |]|[[]| |]|]|[[[]| |]|[[]| |]|]|]]; try reflexivity; exfalso; apply Hy; reflexivity.
  - change (13 :: 10 :: r) with ([13] ++ 10 :: r). rewrite spans_plain by (simpl; intuition discriminate).
    cbn [line_spans final len_bytes]. change (N.eqb 10 10) with true. cbv iota zeta. change (len_utf8 13) with 1.
    replace (idx <? idx + len_bytes t + (1 + 0)) with true by lia. cbn [andb]. eexists. f_equal. f_equal. lia.
Qed.

Lemma line_found p t rest : line_of p t rest -> exists X Y,
  line_spans (p ++ t ++ rest) 0 0 None = X ++ MkSpan (len_bytes p) (len_bytes p + len_bytes t) :: Y /\ N.of_nat (length X) = count_lf p.
Proof.
  intros (Hp & Ht & Hr). destruct Hp as [-> |(q & ->)].
  - destruct (spans_line t rest 0 None) as (Y & E); auto; [discriminate|]. exists [], Y. split; auto.
  - rewrite <- (app_assoc q [10]). destruct (spans_whole q (t ++ rest) 0 0 None) as (X & E1 & E2).
    rewrite E2, N.add_0_l. destruct (spans_line t rest (len_bytes (q ++ [10])) (Some 10)) as (Y & E3); auto; [discriminate|].
    rewrite E3. exists X, Y. split; auto.
Qed.

Lemma line_text_of p t rest e : line_of p t rest -> line_text (line_index_new (p ++ t ++ rest) e) (count_lf p) = Some (Some t).
Proof.
  intros H. destruct (line_found p t rest H) as (X & Y & E1 & E2). unfold line_text, line_index_new. cbn [li_lines li_text].
  rewrite E1, nth_error_app2 by lia. replace (N.to_nat (count_lf p) - length X)%nat with 0%nat by lia. cbn [nth_error sstart send].
  pose proof (text_slice_app p t rest) as HS. rewrite len_bytes_app in HS. rewrite HS. reflexivity.
Qed.
Lemma line_text_none text e l : count_lf text < l -> line_text (line_index_new text e) l = Some None.
Proof.
  intros H. unfold line_text, line_index_new. cbn [li_lines].
  replace (nth_error (line_spans text 0 0 None) (N.to_nat l)) with (@None span); [reflexivity|].
  symmetry. apply nth_error_None. pose proof (spans_count text 0 0 None). lia.
Qed.

(** * Boundaries and places *)
Section Places.
  Context (seg : str -> list str) (HS : segmentation seg).

  Lemma seg_nil : seg [] = [].
  Proof.
    pose proof (seg_concat _ HS []) as H. pose proof (seg_nonempty _ HS []) as N. destruct (seg []) as [|g gs]; auto.
    exfalso. apply N. left. destruct g; [auto|discriminate].
  Qed.
  Lemma seg_newline a b : seg ((a ++ [10]) ++ b) = seg (a ++ [10]) ++ seg b.
  Proof.
    rewrite <- app_assoc. cbn [app]. destruct a as [|x a _] using rev_ind.
    - assert (Hn : ~ ends_with 13 (@nil N)) by (intros (a & E); destruct a; discriminate).
      pose proof (seg_lf _ HS [] b Hn) as E1. pose proof (seg_lf _ HS [] [] Hn) as E2. cbn [app] in *. rewrite E1, E2, seg_nil. reflexivity.
    - destruct (N.eq_dec x 13) as [-> |Hx].
      + rewrite <- !app_assoc. cbn [app]. rewrite !(seg_crlf _ HS), seg_nil, <- app_assoc. reflexivity.
      + assert (Hn : ~ ends_with 13 (a ++ [x])). { intros (a' & E). apply app_inj_tail in E as [_ E]. auto. }
        rewrite !(seg_lf _ HS) by auto. rewrite seg_nil, <- app_assoc. reflexivity.
  Qed.
  Lemma seg_whole p b : whole_lines p -> seg (p ++ b) = seg p ++ seg b.
  Proof. intros [-> |(q & ->)]; [rewrite seg_nil; reflexivity|apply seg_newline]. Qed.
  Lemma seg_line_end t rest : (rest = [] \/ (exists r, rest = 10 :: r /\ ~ ends_with 13 t) \/ (exists r, rest = 13 :: 10 :: r)) ->
    seg (t ++ rest) = seg t ++ seg rest.
  Proof.
    intros [-> |[(r & -> & H)|(r & ->)]].
    - rewrite seg_nil, !app_nil_r. reflexivity.
    - rewrite (seg_lf _ HS) by auto. f_equal. change (10 :: r) with ([] ++ 10 :: r). rewrite (seg_lf _ HS); [rewrite seg_nil; reflexivity|]. intros (a & E); destruct a; discriminate.
    - rewrite (seg_crlf _ HS). f_equal. change (13 :: 10 :: r) with ([] ++ 13 :: 10 :: r). rewrite (seg_crlf _ HS), seg_nil. reflexivity.
  Qed.
  (** No boundary inside a line break. *)
  Lemma boundary_crlf a b : boundary seg (a ++ [13]) (10 :: b) -> False.
  Proof.
    unfold boundary. rewrite <- app_assoc. cbn [app]. rewrite (seg_crlf _ HS). intros E.
    assert (C1 := seg_concat _ HS a). assert (C2 := seg_concat _ HS (a ++ [13])).
    remember (seg a) as ga. remember (seg (a ++ [13])) as gb. remember (seg b) as gc. remember (seg (10 :: b)) as gd. clear - C1 C2 E.
    revert a gb C1 C2 E. induction ga as [|g ga IH]; intros a gb C1 C2 E.
    - cbn [concat] in C1. subst a. cbn [app] in *. destruct gb as [|h gb]; [discriminate|]. injection E as <- E. discriminate.
    - destruct gb as [|h gb]; [destruct a; discriminate|]. cbn [app] in E. injection E as <- E.
      cbn [concat] in C1, C2. rewrite <- C1, <- app_assoc in C2. apply app_inv_head in C2.
      eapply (IH (concat ga) gb); eauto.
  Qed.

  (** The line a place is in. *)
  Lemma place_line a b : boundary seg a b -> exists p x y rest,
    a = p ++ x /\ b = y ++ rest /\ line_of p (x ++ y) rest /\ last_line a = x /\ count_lf a = count_lf p /\ seg (x ++ y) = seg x ++ seg y.
  Proof.
    intros HB. destruct (last_line_split a) as (p & Ea & Hp & Hx). set (x := last_line a) in *.
    assert (Hc : count_lf a = count_lf p). { rewrite Ea at 1. rewrite count_app. apply count_none in Hx. lia. }
    assert (Hb : exists y rest, b = y ++ rest /\ ~ In 10 y /\ (rest = [] \/ (exists r, rest = 10 :: r /\ ~ ends_with 13 (x ++ y)) \/ (exists r, rest = 13 :: 10 :: r))).
    { destruct (line_exists b 0 ltac:(lia)) as (p' & t & rest & E & (H1 & H2 & H3) & H4).
      destruct H1 as [-> |(q & ->)]; [|rewrite count_app in H4; change (count_lf [10]) with 1 in H4; lia].
      cbn [app] in E. exists t, rest. split; auto. split; auto. destruct H3 as [H3|[(r & H3 & H5)|H3]]; auto.
      right; left. exists r. split; auto. intros (a' & K). destruct t as [|z t _] using rev_ind.
      - rewrite app_nil_r in K. subst rest. cbn [app] in E. apply (boundary_crlf (p ++ a') r).
        rewrite <- app_assoc, <- K, <- Ea, <- E. exact HB.
      - rewrite app_assoc in K. apply app_inj_tail in K as [_ ->]. apply H5. exists t. auto. }
    destruct Hb as (y & rest & Eb & Hy & Hr). exists p, x, y, rest. repeat split; auto.
    - intros K. apply in_app_or in K as [K|K]; contradiction.
    - unfold boundary in HB. rewrite Ea in HB at 1 2. rewrite <- app_assoc in HB. rewrite !(seg_whole p) in HB by auto.
      rewrite <- app_assoc in HB. apply app_inv_head in HB. rewrite Eb in HB. rewrite app_assoc in HB. rewrite (seg_line_end (x ++ y)) in HB by auto.
      rewrite (seg_line_end y) in HB.
      + rewrite app_assoc in HB. apply app_inv_tail in HB. exact HB.
      + destruct Hr as [K|[(r & K1 & K2)|K]]; auto. right; left. exists r. split; auto. intros (a' & K). apply K2. subst y. exists (x ++ a'). apply app_assoc.
  Qed.

  (** ** Measures *)
  Lemma sum_by_app f a b : sum_by f (a ++ b) = sum_by f a + sum_by f b.
  Proof. unfold sum_by. induction a as [|c a IH]; [reflexivity|]. cbn [app fold_right]. lia. Qed.
  Lemma measure_app e a b : e <> GraphemeCluster -> measure seg e (a ++ b) = measure seg e a + measure seg e b.
  Proof. destruct e; cbn [measure]; intros; [apply len_bytes_app|apply sum_by_app|rewrite app_length; lia|contradiction]. Qed.
  Lemma measure_nil e : measure seg e [] = 0.
  Proof. destruct e; try reflexivity. cbn [measure]. rewrite seg_nil. reflexivity. Qed.
  Lemma measure_pos e g : g <> [] -> 0 < measure seg e g.
  Proof.
    intros H. destruct e; cbn [measure].
    - destruct g as [|c g]; [contradiction|]. cbn [len_bytes]. pose proof (len_utf8_pos c). lia.
    - destruct g as [|c g]; [contradiction|]. unfold sum_by. cbn [fold_right]. unfold len_utf16 at 1. destruct (c <? 65536); lia.
    - destruct g as [|c g]; [contradiction|]. cbn [length]. lia.
    - pose proof (seg_concat _ HS g). destruct (seg g) as [|h l]; [simpl in *; congruence|]. cbn [length]. lia.
  Qed.
  Fixpoint total e (gs : list str) : N := match gs with [] => 0 | g :: gs' => measure seg e g + total e gs' end.
  Lemma sum_measures_total e gs : sum_measures seg e gs = total e gs.
  Proof.
    unfold sum_measures. assert (G : forall n, fold_left (fun acc g => acc + measure seg e g) gs n = n + total e gs).
    { induction gs as [|g gs IH]; intros n; cbn [fold_left total]; [lia|]. rewrite IH. lia. } rewrite G. lia.
  Qed.
  Lemma total_app e a b : total e (a ++ b) = total e a + total e b.
  Proof. induction a as [|g a IH]; cbn [app total]; lia. Qed.
  Lemma total_seg e s : total e (seg s) = measure seg e s.
  Proof.
    destruct e; try (rewrite <- (seg_concat _ HS s) at 2; induction (seg s) as [|g gs IH]; [rewrite measure_nil; reflexivity|];
      cbn [total concat]; rewrite measure_app by discriminate; rewrite IH; reflexivity).
    cbn [measure]. pose proof (seg_split _ HS s) as H.
    assert (G : forall gs pre, seg s = pre ++ gs -> total GraphemeCluster gs = N.of_nat (length gs)).
    { induction gs as [|g gs IH]; intros pre E; [reflexivity|]. cbn [total length]. rewrite (IH (pre ++ [g])) by (rewrite <- app_assoc; exact E).
      destruct (H _ _ E) as [_ H2]. destruct (seg_split _ HS _ [g] gs H2) as [H3 _]. cbn [concat measure] in *. rewrite app_nil_r in H3. rewrite H3. cbn [length]. lia. }
    apply (G (seg s) []). reflexivity.
  Qed.
  Lemma total_pos e gs s pre : seg s = pre ++ gs -> gs <> [] -> 0 < total e gs.
  Proof.
    intros E H. destruct gs as [|g gs]; [contradiction|]. cbn [total]. enough (0 < measure seg e g) by lia. apply measure_pos.
    intros ->. apply (seg_nonempty _ HS s). rewrite E. apply in_or_app. right. left. auto.
  Qed.

  (** ** Conversions at a place *)
  Lemma to_lsp_place e a b : boundary seg a b ->
    to_lsp seg (line_index_new (a ++ b) e) (place seg a) = Some (lsp_place seg e a).
  Proof.
    intros HB. destruct (place_line a b HB) as (p & x & y & rest & Ea & Eb & HL & EL & EC & EX).
    unfold to_lsp, place, lsp_place. cbn [line column]. rewrite EL, EC.
    assert (ET : a ++ b = p ++ (x ++ y) ++ rest) by (rewrite Ea, Eb, <- !app_assoc; reflexivity).
    rewrite ET, (line_text_of p (x ++ y) rest e HL). cbn [li_encoding line_index_new measure]. rewrite EX, Nnat.Nat2N.id.
    rewrite firstn_app, Nat.sub_diag, firstn_all. cbn [firstn]. rewrite app_nil_r, sum_measures_total, total_seg. reflexivity.
  Qed.

  Lemma take_clusters_spec e target whole gs : forall consumed done, consumed <= target -> whole = done ++ concat gs -> ~ In [] gs ->
    exists ga gb, gs = ga ++ gb /\ take_clusters seg e target consumed done gs whole = done ++ concat ga /\ consumed + total e ga <= target /\
    (gb = [] \/ exists g r, gb = g :: r /\ target < consumed + total e ga + measure seg e g).
  Proof.
    induction gs as [|g gs IH]; intros consumed done Hc Hw HN.
    - exists [], []. cbn [app concat total take_clusters]. rewrite Hw. cbn [concat]. repeat split; auto; try lia.
    - cbn [take_clusters]. destruct (target <? consumed + measure seg e g) eqn:E1; [|destruct (N.eqb (consumed + measure seg e g) target) eqn:E2].
      + exists [], (g :: gs). cbn [app concat total]. rewrite app_nil_r. repeat split; auto; [lia|]. right. exists g, gs. split; auto. lia.
      + exists [g], gs. cbn [app concat total]. rewrite app_nil_r. repeat split; auto; [lia|].
        destruct gs as [|h r]; [auto|]. right. exists h, r. split; auto.
        assert (0 < measure seg e h) by (apply measure_pos; intros ->; apply HN; right; left; auto). lia.
      + destruct (IH (consumed + measure seg e g) (done ++ g)) as (ga & gb & A & B & C & D).
        * lia. * rewrite Hw. cbn [concat]. rewrite <- app_assoc. reflexivity. * intros K. apply HN. right. auto.
        * exists (g :: ga), gb. cbn [app concat total]. rewrite A at 1. rewrite <- app_assoc in B. repeat split; auto; [lia|].
          destruct D as [D|(h & r & D1 & D2)]; auto. right. exists h, r. split; auto. lia.
  Qed.
  (** The clusters of a line that fit into a number of units. *)
  Lemma take_column_spec e t target : exists ga gb, seg t = ga ++ gb /\ take_column_text seg e t target = concat ga /\ total e ga <= target /\
    (gb = [] \/ exists g r, gb = g :: r /\ target < total e ga + measure seg e g).
  Proof.
    unfold take_column_text. destruct (N.eqb target 0) eqn:E.
    - exists [], (seg t). cbn [app concat total]. repeat split; auto; [lia|]. destruct (seg t) as [|g r] eqn:ES; auto. right. exists g, r. split; auto.
      assert (0 < measure seg e g) by (apply measure_pos; intros ->; apply (seg_nonempty _ HS t); rewrite ES; left; auto). lia.
    - destruct (take_clusters_spec e target t (seg t) 0 []) as (ga & gb & A & B & C & D).
      + lia. + symmetry. apply (seg_concat _ HS). + apply (seg_nonempty _ HS).
      + exists ga, gb. repeat split; auto.
  Qed.
  Lemma fits_unique e s ga gb ga' gb' target : seg s = ga ++ gb -> seg s = ga' ++ gb' ->
    total e ga <= target -> (gb = [] \/ exists g r, gb = g :: r /\ target < total e ga + measure seg e g) ->
    total e ga' <= target -> (gb' = [] \/ exists g r, gb' = g :: r /\ target < total e ga' + measure seg e g) -> ga = ga'.
  Proof.
    intros E1 E2 H1 H2 H3 H4. rewrite E1 in E2. clear E1. revert ga' E2 target H1 H2 H3 H4. induction ga as [|g ga IH]; intros ga' E target H1 H2 H3 H4.
    - destruct ga' as [|g' ga']; [reflexivity|]. exfalso. cbn [app] in E. subst gb. destruct H2 as [H2|(g & r & H2 & K)]; [discriminate|].
      injection H2 as <- <-. cbn [total] in *. lia.
    - destruct ga' as [|g' ga'].
      + exfalso. cbn [app] in E. subst gb'. destruct H4 as [H4|(h & r & H4 & K)]; [discriminate|]. injection H4 as <- <-. cbn [total] in *. lia.
      + cbn [app] in E. injection E as <- E. f_equal. cbn [total] in *. apply (IH ga' E (target - measure seg e g)); try lia.
        * destruct H2 as [H2|(h & r & H2 & K)]; auto. right. exists h, r. split; auto. lia.
        * destruct H4 as [H4|(h & r & H4 & K)]; auto. right. exists h, r. split; auto. lia.
  Qed.

  Lemma of_lsp_place e a b : boundary seg a b ->
    of_lsp seg (line_index_new (a ++ b) e) (lsp_place seg e a) = Some (place seg a).
  Proof.
    intros HB. destruct (place_line a b HB) as (p & x & y & rest & Ea & Eb & HL & EL & EC & EX).
    unfold of_lsp, place, lsp_place. cbn [lline lchar]. rewrite EL, EC.
    assert (ET : a ++ b = p ++ (x ++ y) ++ rest) by (rewrite Ea, Eb, <- !app_assoc; reflexivity).
    rewrite ET, (line_text_of p (x ++ y) rest e HL). cbn [li_encoding line_index_new].
    destruct (take_column_spec e (x ++ y) (measure seg e x)) as (ga & gb & A & B & C & D). rewrite B.
    replace ga with (seg x); [rewrite (seg_concat _ HS); reflexivity|].
    eapply (fits_unique e (x ++ y) (seg x) (seg y) ga gb (measure seg e x)); eauto.
    - rewrite total_seg. lia.
    - destruct (seg y) as [|g r] eqn:E; auto. right. exists g, r. split; auto. rewrite total_seg.
      assert (0 < measure seg e g) by (apply measure_pos; intros ->; apply (seg_nonempty _ HS y); rewrite E; left; auto). lia.
  Qed.

  (** ** The protocol's reading of a place *)
  Lemma units_prefix_app e x : forall z, e <> GraphemeCluster -> units_prefix e (measure seg e x) (x ++ z) = x.
  Proof.
    intros z He. induction x as [|c x IH]; [rewrite measure_nil; destruct z; reflexivity|].
    assert (E : measure seg e (c :: x) = width e c + measure seg e x).
    { change (c :: x) with ([c] ++ x). rewrite measure_app by auto. f_equal. destruct e; cbn [measure width len_bytes length]; try lia; [|contradiction].
      unfold sum_by. cbn [fold_right]. lia. }
    assert (0 < width e c). { destruct e; cbn [width]; try lia; [pose proof (len_utf8_pos c); lia|unfold len_utf16; destruct (_ <? _); lia]. }
    cbn [app units_prefix]. rewrite E. replace (N.eqb _ 0) with false by lia. f_equal.
    replace (width e c + measure seg e x - width e c) with (measure seg e x) by lia. exact IH.
  Qed.
  Lemma split_plain t rest : ~ In 10 t -> ~ In 13 t -> split_line (t ++ rest) = let '(x, e, r) := split_line rest in (t ++ x, e, r).
  Proof.
    induction t as [|c t IH]; intros H1 H2; [cbn [app]; destruct (split_line rest) as [[? ?] ?]; reflexivity|].
    cbn [app split_line]. replace (N.eqb c 10) with false by (symmetry; apply N.eqb_neq; intros ->; apply H1; left; auto).
    replace (N.eqb c 13) with false by (symmetry; apply N.eqb_neq; intros ->; apply H2; left; auto).
    rewrite IH by (intros K; (apply H1 + apply H2); right; auto). destruct (split_line rest) as [[? ?] ?]. reflexivity.
  Qed.
  Lemma lone_tail a b : no_lone_cr (a ++ b) -> no_lone_cr b.
  Proof. intros H c d E. apply (H (a ++ c) d). rewrite E, <- app_assoc. reflexivity. Qed.
  Lemma cr_in t rest : no_lone_cr (t ++ rest) -> ~ In 10 t -> In 13 t -> ends_with 13 t /\ exists r, rest = 10 :: r.
  Proof.
    intros H H1 H2. apply in_split in H2 as (u & v & ->). rewrite <- app_assoc in H. cbn [app] in H. destruct (H u (v ++ rest) eq_refl) as (b' & E).
    destruct v as [|z v]; [cbn [app] in E; split; [exists u; reflexivity|eauto]|]. cbn [app] in E. injection E as -> _. exfalso. apply H1. apply in_or_app. right. right. left. auto.
  Qed.

  Lemma text_before_line e p t rest x y : line_of p t rest -> t = x ++ y -> no_lone_cr (p ++ t ++ rest) -> e <> GraphemeCluster ->
    text_before e (p ++ t ++ rest) (LspPos (count_lf p) (measure seg e x)) = p ++ x.
  Proof.
    intros (Hp & Ht & Hr) Et HC He. unfold text_before. cbn [lline lchar].
    assert (HT : ~ In 13 t).
    { intros K. apply lone_tail in HC. destruct (cr_in t rest HC Ht K) as [K1 (r & K2)]. destruct Hr as [-> |[(r' & -> & Hn)|(r' & ->)]]; try discriminate. auto. }
    assert (L0 : forall n, fst (fst (split_line (t ++ rest))) = t -> units_prefix e n t = x -> before_position e (t ++ rest) 0 n = x).
    { intros n E1 E2. cbn [before_position]. destruct (split_line (t ++ rest)) as [[u v] w]. cbn [fst] in E1. subst u. exact E2. }
    assert (E0 : before_position e (t ++ rest) 0 (measure seg e x) = x).
    { apply L0; [|rewrite Et; apply units_prefix_app; auto]. rewrite split_plain by auto.
      destruct Hr as [-> |[(r & -> & _)|(r & ->)]]; cbn [split_line]; cbn [N.eqb Pos.eqb fst]; apply app_nil_r. }
    destruct Hp as [-> |(q & ->)]; [exact E0|].
    revert HC E0. generalize (t ++ rest). generalize (measure seg e x). clear - HS. intros n s HC E0.
    remember (N.to_nat (count_lf (q ++ [10]))) as k eqn:Ek. revert q HC Ek. induction k as [|k IH]; intros q HC Ek.
    - rewrite count_app in Ek. change (count_lf [10]) with 1 in Ek. lia.
    - destruct (line_exists q 0 ltac:(lia)) as (p0 & t0 & rest0 & Eq & (H1 & H2 & H3) & H4).
      destruct H1 as [-> |(q' & ->)]; [|rewrite count_app in H4; change (count_lf [10]) with 1 in H4; lia]. cbn [app] in Eq. clear H4.
      (* the first line of q ++ [10] *)
      assert (F : exists t1 eol q1, q ++ [10] = t1 ++ eol ++ q1 /\ ~ In 10 t1 /\ ~ In 13 t1 /\ (eol = [10] \/ eol = [13; 10]) /\ (q1 = [] \/ exists q2, q1 = q2 ++ [10])).
      { assert (HC' : no_lone_cr (t0 ++ (rest0 ++ [10]) ++ s)). { rewrite Eq in HC. rewrite <- !app_assoc in *. exact HC. }
        destruct (in_dec N.eq_dec 13 t0) as [K|K].
        - destruct (cr_in t0 _ HC' H2 K) as [(u & Eu) (r & Er)]. destruct H3 as [-> |[(r' & -> & Hn)|(r' & ->)]].
          + exists u, [13; 10], []. subst t0. rewrite app_nil_r in Eq. subst q. rewrite <- app_assoc. split; [reflexivity|].
            split; [intros K2; apply H2; apply in_or_app; auto|]. split; [|auto]. intros K2. apply in_split in K2 as (u1 & u2 & ->).
            destruct (HC (u1) (u2 ++ [13] ++ [10] ++ s)) as (b' & Eb); [rewrite <- !app_assoc; reflexivity|].
            apply H2. destruct u2; cbn [app] in Eb; injection Eb as E _; [discriminate|subst]. apply in_or_app. left. apply in_or_app. right. right. left. auto.
          + exfalso. apply Hn. exists u. auto.
          + discriminate.
        - destruct H3 as [-> |[(r' & -> & Hn)|(r' & ->)]].
          + exists t0, [10], []. rewrite app_nil_r in Eq. subst q. split; [reflexivity|]. auto.
          + exists t0, [10], (r' ++ [10]). subst q. rewrite <- !app_assoc. split; [reflexivity|]. repeat split; auto. right. eauto.
          + exists t0, [13; 10], (r' ++ [10]). subst q. rewrite <- !app_assoc. split; [reflexivity|]. repeat split; auto. right. eauto. }
      destruct F as (t1 & eol & q1 & E1 & N1 & N2 & He & Hq). rewrite E1.
      assert (SL : split_line ((t1 ++ eol ++ q1) ++ s) = (t1, eol, q1 ++ s)).
      { rewrite <- !app_assoc, split_plain by auto. destruct He as [-> | ->]; cbn [app split_line N.eqb Pos.eqb]; rewrite app_nil_r; reflexivity. }
      cbn [before_position]. rewrite SL. rewrite <- !app_assoc. f_equal. f_equal.
      assert (CE : count_lf (q ++ [10]) = 1 + count_lf q1). { rewrite E1, !count_app. apply count_none in N1. rewrite N1. destruct He as [-> | ->]; reflexivity. }
      assert (GO : before_position e (q1 ++ s) k n = q1 ++ before_position e s 0 n).
      { destruct Hq as [-> |(q2 & ->)].
        - rewrite count_nil in CE. replace k with 0%nat by lia. reflexivity.
        - rewrite IH; [rewrite E0; reflexivity| |lia]. rewrite E1 in HC. rewrite <- !app_assoc in HC. do 2 apply lone_tail in HC. rewrite <- app_assoc. exact HC. }
      destruct He as [-> | ->]; rewrite GO, E0; reflexivity.
  Qed.
  Lemma text_before_place e a b : boundary seg a b -> no_lone_cr (a ++ b) -> e <> GraphemeCluster ->
    text_before e (a ++ b) (lsp_place seg e a) = a.
  Proof.
    intros HB HC He. destruct (place_line a b HB) as (p & x & y & rest & Ea & Eb & HL & EL & EC & EX).
    assert (ET : a ++ b = p ++ (x ++ y) ++ rest) by (rewrite Ea, Eb, <- !app_assoc; reflexivity).
    unfold lsp_place. rewrite EL, EC, ET. rewrite ET in HC. rewrite Ea. eapply text_before_line; eauto.
  Qed.

  (** ** Every position inside a text is a place *)
  Lemma inside text e l c t : line_text (line_index_new text e) l = Some (Some t) -> c <= measure seg GraphemeCluster t ->
    exists a b, text = a ++ b /\ boundary seg a b /\ place seg a = Pos l c.
  Proof.
    intros HL Hc. destruct (N.le_gt_cases l (count_lf text)) as [K|K]; [|rewrite line_text_none in HL by auto; discriminate].
    destruct (line_exists text l K) as (p & t' & rest & E & H & Hl). subst text. rewrite <- Hl, (line_text_of p t' rest e H) in HL. injection HL as ->.
    pose proof (firstn_skipn (N.to_nat c) (seg t)) as FS. set (ga := firstn (N.to_nat c) (seg t)) in *. set (gb := skipn (N.to_nat c) (seg t)) in *.
    destruct (seg_split _ HS t ga gb (eq_sym FS)) as [Sa Sb]. destruct H as (Hp & Ht & Hr).
    assert (Et : t = concat ga ++ concat gb) by (rewrite <- concat_app, FS; symmetry; apply (seg_concat _ HS)).
    exists (p ++ concat ga), (concat gb ++ rest). split; [rewrite Et at 1; rewrite <- !app_assoc; reflexivity|]. split.
    - unfold boundary. replace ((p ++ concat ga) ++ concat gb ++ rest) with (p ++ t ++ rest) by (rewrite Et at 1; rewrite <- !app_assoc; reflexivity).
      rewrite !(seg_whole p) by auto. rewrite (seg_line_end t) by auto. rewrite (seg_line_end (concat gb)).
      + rewrite Sa, Sb, <- FS, <- !app_assoc. reflexivity.
      + destruct Hr as [K2|[(r & K1 & K2)|K2]]; auto. right; left. exists r. split; auto. intros (z & Ez). apply K2. exists (concat ga ++ z). rewrite Et, Ez, app_assoc. reflexivity.
    - assert (HN : ~ In 10 (concat ga)). { intros K2. apply Ht. rewrite Et. apply in_or_app. auto. }
      unfold place. rewrite (last_line_app p _ Hp HN). rewrite count_app. apply count_none in HN. rewrite HN. f_equal; [lia|].
      cbn [measure] in *. rewrite Sa. unfold ga. rewrite firstn_length. lia.
  Qed.

  (** ** Order *)
  Lemma place_mono a z : seg (a ++ z) = seg a ++ seg z -> forall e,
    let p := lsp_place seg e a in let q := lsp_place seg e (a ++ z) in
    lline p < lline q \/ (lline p = lline q /\ lchar q = lchar p + measure seg e z).
  Proof.
    intros HB e. unfold lsp_place. cbn [lline lchar]. rewrite count_app. destruct (in_dec N.eq_dec 10 z) as [K|K].
    - left. assert (count_lf z <> 0) by (rewrite <- count_none; auto). lia.
    - right. apply count_none in K as K0. split; [lia|].
      destruct (place_line a z HB) as (p & x & y & rest & Ea & Eb & HL & EL & EC & EX). rewrite EL.
      assert (rest = []) as ->.
      { destruct HL as (_ & _ & [H|[(r & -> & _)|(r & ->)]]); auto; exfalso; apply K; rewrite Eb; apply in_or_app; right; simpl; auto. }
      rewrite app_nil_r in Eb. subst z. destruct HL as (Hp & Ht & _). rewrite Ea, <- app_assoc, (last_line_app p) by auto.
      rewrite <- !total_seg, EX, total_app. reflexivity.
  Qed.
End Places.
