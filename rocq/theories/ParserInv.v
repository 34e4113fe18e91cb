(** The invariant of the parser state and the rules to reason about its runs. *)
From Coq Require Import String Ascii List NArith Bool Arith Lia.
From Verif Require Import Base SyntaxKind TextModel LexerModel LexerSpec LexerProofs ParserModel.
Import ListNotations.
Open Scope N_scope.
Open Scope list_scope.

(** * Significant tokens *)

(** The kinds of the tokens that are not trivia, each with whether a token that is not trivia follows at
    once. *)
Notation sks := (list (kind * bool)) (only parsing).
Definition joint (ts : list token) : bool := match ts with t :: _ => negb (triv t) | [] => false end.
Fixpoint sig (ts : list token) : sks :=
  match ts with
  | [] => []
  | t :: r => if triv t then sig r else (tkind t, joint r) :: sig r
  end.
Definition knth (n : nat) (K : sks) : kind := fst (nth n K (EOF, false)).
Definition khd (K : sks) : kind := knth 0 K.

Lemma nth_split_app n ts : fst (nth_split n ts) ++ snd (nth_split n ts) = ts.
Proof.
  revert n. induction ts as [|t ts IH]; intros n; simpl; [reflexivity|].
  destruct (triv t).
  - specialize (IH n). destruct (nth_split n ts); simpl in *. congruence.
  - destruct n as [|n]; [reflexivity|]. specialize (IH n). destruct (nth_split n ts); simpl in *. congruence.
Qed.

Lemma nth_split_sig n ts : sig (snd (nth_split n ts)) = skipn n (sig ts).
Proof.
  revert n. induction ts as [|t ts IH]; intros n; simpl; [destruct n; reflexivity|].
  destruct (triv t) eqn:E.
  - rewrite <- IH. destruct (nth_split n ts); reflexivity.
  - destruct n as [|n]; simpl.
    + rewrite E. reflexivity.
    + rewrite <- IH. destruct (nth_split n ts); reflexivity.
Qed.

Lemma nth_split_head n ts : match snd (nth_split n ts) with t :: _ => triv t = false | [] => True end.
Proof.
  revert n. induction ts as [|t ts IH]; intros n; simpl; [exact I|].
  destruct (triv t) eqn:E.
  - specialize (IH n). destruct (nth_split n ts); exact IH.
  - destruct n as [|n]; simpl; [exact E|]. specialize (IH n). destruct (nth_split n ts); exact IH.
Qed.

Lemma nth_skipn {A} n (l : list A) d : nth n l d = match skipn n l with [] => d | x :: _ => x end.
Proof. revert n. induction l as [|x l IH]; intros [|n]; simpl; auto. Qed.

Lemma sig_head ts : match ts with t :: _ => triv t = false | [] => True end ->
  match sig ts with [] => ts = [] | (k, j) :: _ => exists t r, ts = t :: r /\ tkind t = k /\ joint r = j end.
Proof. destruct ts as [|t r]; simpl; [reflexivity|]. intros ->. eauto. Qed.

Lemma nth_kind_sig n p : nth_kind n p = knth n (sig (p_rest p)).
Proof.
  unfold nth_kind, nth_token, knth. rewrite nth_skipn, <- nth_split_sig.
  pose proof (sig_head _ (nth_split_head n (p_rest p))) as H.
  destruct (snd (nth_split n (p_rest p))) as [|t r]; [reflexivity|].
  destruct (sig (t :: r)) as [|[k j] s]; [discriminate|]. destruct H as (t' & r' & H1 & H2 & H3).
  inversion H1; subst. reflexivity.
Qed.

Lemma is_joint_sig n p : is_joint n p = snd (nth n (sig (p_rest p)) (EOF, false)).
Proof.
  unfold is_joint. rewrite nth_skipn, <- nth_split_sig.
  pose proof (sig_head _ (nth_split_head n (p_rest p))) as H.
  destruct (snd (nth_split n (p_rest p))) as [|t r]; [reflexivity|].
  destruct (sig (t :: r)) as [|[k j] s]; [discriminate|]. destruct H as (t' & r' & H1 & H2 & H3).
  inversion H1; subst. reflexivity.
Qed.

Definition composite (n : nat) (k : kind) (K : sks) : bool :=
  kind_eqb (knth n K) k && kind_eqb (knth (n + 1) K) k && snd (nth n K (EOF, false)).
Lemma composite_sig n k p : at_composite2 n k k p = composite n k (sig (p_rest p)).
Proof. unfold at_composite2, composite. rewrite !nth_kind_sig, is_joint_sig. reflexivity. Qed.

Definition plain_kind (k : kind) : bool :=
  match k with DOUBLE_BRACKET_START | DOUBLE_BRACKET_END => false | _ => true end.
Lemma nth_at_sig n k p : plain_kind k = true -> nth_at n k p = kind_eqb (knth n (sig (p_rest p))) k.
Proof. rewrite <- nth_kind_sig. destruct k; simpl; intros; try reflexivity; discriminate. Qed.
Lemma nth_at_ts_sig n s p : nth_at_ts n s p = ts_contains s (knth n (sig (p_rest p))).
Proof. unfold nth_at_ts. rewrite nth_kind_sig. reflexivity. Qed.
Lemma at_ts_sig s p : at_ts s p = ts_contains s (khd (sig (p_rest p))).
Proof. unfold at_ts, p_current. rewrite nth_kind_sig. reflexivity. Qed.

(** * Event trees *)
Inductive ptree := PTk (k : kind) (n : nat) | PEr (e : perror) | PNd (k : kind) (cs : list ptree).

Fixpoint flat (t : ptree) : list event :=
  match t with
  | PTk k n => [EToken k n]
  | PEr e => [EError e]
  | PNd k cs => EStart k :: flat_map flat cs ++ [EFinish]
  end.
Definition flats (ts : list ptree) : list event := flat_map flat ts.

(** The numbers of raw tokens of the leaves, in order. *)
Fixpoint leaves (t : ptree) : list nat :=
  match t with
  | PTk _ n => [n]
  | PEr _ => []
  | PNd _ cs => flat_map leaves cs
  end.

(** How many arrays and inline tables are inside one another. *)
Definition weight (k : kind) : nat := match k with ARRAY | INLINE_TABLE => 1 | _ => 0 end.
Fixpoint nest (t : ptree) : nat :=
  match t with
  | PNd k cs => weight k + fold_right (fun c m => Nat.max (nest c) m) 0%nat cs
  | _ => 0
  end.
Fixpoint kinds_ok (t : ptree) : bool :=
  match t with
  | PNd k cs => negb (kind_eqb k TOMBSTONE) && forallb kinds_ok cs
  | _ => true
  end.
Definition tree_ok (d : nat) (t : ptree) : Prop := kinds_ok t = true /\ (nest t + d <= MAX_RECURSION_DEPTH)%nat.

Lemma tree_ok_weaken d t : tree_ok (S d) t -> tree_ok d t.
Proof. intros [H1 H2]. split; auto. lia. Qed.

Lemma tree_ok_node d din k cs : k <> TOMBSTONE -> (din = d + weight k)%nat -> (din <= MAX_RECURSION_DEPTH)%nat ->
  Forall (tree_ok din) cs -> tree_ok d (PNd k cs).
Proof.
  intros H1 H2 H3 HF. split.
  - cbn [kinds_ok]. apply kind_eqb_neq in H1. rewrite H1. simpl. apply forallb_forall. intros x Hx.
    rewrite Forall_forall in HF. apply HF; auto.
  - cbn [nest]. assert (fold_right (fun c m => Nat.max (nest c) m) 0%nat cs + din <= MAX_RECURSION_DEPTH)%nat as E.
    { induction HF as [|c cs [_ Hc] _ IH]; simpl; [lia|]. unfold MAX_RECURSION_DEPTH in *. lia. }
    lia.
Qed.

(** * Covering tokens by leaves *)
Inductive cov : list token -> list nat -> Prop :=
| cov_nil ws : forallb triv ws = true -> cov ws []
| cov_cons ws grp r n ns :
    forallb triv ws = true -> Forall (fun t => triv t = false) grp ->
    length grp = n -> grp <> [] -> cov r ns -> cov (ws ++ grp ++ r) (n :: ns).

Lemma cov_app a x b y : cov a x -> cov b y -> cov (a ++ b) (x ++ y).
Proof.
  intros H1 H2. revert b y H2. induction H1 as [ws Hw|ws grp r n ns Hw Hg Hl Hn Hc IH]; intros b y H2.
  - simpl. destruct H2 as [ws2 Hw2|ws2 grp r n ns Hw2 Hg Hl Hn Hc].
    + apply cov_nil. rewrite forallb_app, Hw, Hw2. reflexivity.
    + rewrite app_assoc. apply cov_cons; auto. rewrite forallb_app, Hw, Hw2. reflexivity.
  - rewrite <- !app_assoc. simpl. apply cov_cons; auto.
Qed.

Lemma cov_split1 ts k j r : sig ts = (k, j) :: r -> cov (fst (nth_split 1 ts)) [1%nat].
Proof.
  induction ts as [|t ts IH]; simpl; [discriminate|]. destruct (triv t) eqn:E.
  - intros H. specialize (IH H). destruct (nth_split 1 ts) as [a b]. simpl in *.
    inversion IH as [|ws grp x n ns Hw Hg Hl Hn Hc]; subst.
    apply (cov_cons (t :: ws)); auto. simpl. rewrite E. exact Hw.
  - intros _. assert (forallb triv (fst (nth_split 0 ts)) = true) as H0.
    { clear. induction ts as [|t ts IH]; simpl; [reflexivity|]. destruct (triv t) eqn:E; [|reflexivity].
      destruct (nth_split 0 ts); simpl in *. rewrite E. exact IH. }
    destruct (nth_split 0 ts) as [a b]. simpl in *.
    apply (cov_cons [] [t] a 1%nat []); auto; try discriminate. apply cov_nil. exact H0.
Qed.

Lemma cov_split2 ts k1 x r : sig ts = (k1, true) :: x :: r -> cov (fst (nth_split 2 ts)) [2%nat].
Proof.
  induction ts as [|t ts IH]; simpl; [discriminate|]. destruct (triv t) eqn:E.
  - intros H. specialize (IH H). destruct (nth_split 2 ts) as [a b]. simpl in *.
    inversion IH as [|ws grp z n ns Hw Hg Hl Hn Hc]; subst.
    apply (cov_cons (t :: ws)); auto. simpl. rewrite E. exact Hw.
  - intros H. injection H as _ HJ HS. destruct ts as [|t2 ts]; [discriminate|].
    simpl in HJ. apply negb_true_iff in HJ. simpl. rewrite HJ.
    assert (forallb triv (fst (nth_split 0 ts)) = true) as H0.
    { clear. induction ts as [|t ts IH]; simpl; [reflexivity|]. destruct (triv t) eqn:E; [|reflexivity].
      destruct (nth_split 0 ts); simpl in *. rewrite E. exact IH. }
    destruct (nth_split 0 ts) as [a b]. simpl in *.
    apply (cov_cons [] [t; t2] a 2%nat []); auto; try discriminate. apply cov_nil. exact H0.
Qed.

(** * Spans *)
Inductive tiles : str -> str -> list token -> Prop :=
| tiles_nil b : tiles b [] []
| tiles_cons b w s t ts :
    tspan t = MkSpan (len_bytes b) (len_bytes (b ++ w)) -> tiles (b ++ w) s ts -> tiles b (w ++ s) (t :: ts).

Lemma tiles_split b s x y : tiles b s (x ++ y) ->
  exists s1 s2, s = s1 ++ s2 /\ tiles b s1 x /\ tiles (b ++ s1) s2 y.
Proof.
  revert b s. induction x as [|t x IH]; intros b s H.
  - exists [], s. rewrite app_nil_r. repeat split; auto. constructor.
  - inversion H as [|b' w s' t' ts' H1 H2]; subst. apply IH in H2 as (s1 & s2 & -> & H3 & H4).
    exists (w ++ s1), s2. rewrite app_assoc. repeat split; auto; [|rewrite app_assoc; exact H4].
    constructor; auto.
Qed.
Lemma tiles_join b s1 s2 x y : tiles b s1 x -> tiles (b ++ s1) s2 y -> tiles b (s1 ++ s2) (x ++ y).
Proof.
  induction 1 as [b|b w s t ts H1 H2 IH]; intros H.
  - rewrite app_nil_r in H. exact H.
  - rewrite <- app_assoc. simpl. constructor; auto. apply IH. rewrite <- app_assoc. exact H.
Qed.

Lemma text_take_app a b : text_take (len_bytes a) (a ++ b) = Some a.
Proof.
  induction a as [|c a IH]; [destruct b; reflexivity|]. cbn [text_take app len_bytes].
  pose proof (len_utf8_pos c). destruct (N.eqb_spec (len_utf8 c + len_bytes a) 0); [lia|].
  destruct (N.ltb_spec (len_utf8 c + len_bytes a) (len_utf8 c)); [lia|].
  replace (len_utf8 c + len_bytes a - len_utf8 c) with (len_bytes a) by lia. rewrite IH. reflexivity.
Qed.
Lemma text_slice_app a w b : text_slice (a ++ w ++ b) (len_bytes a) (len_bytes (a ++ w)) = Some w.
Proof.
  unfold text_slice. rewrite len_bytes_app. destruct (N.ltb_spec (len_bytes a + len_bytes w) (len_bytes a)); [lia|].
  rewrite drop_bytes_len_app. replace (len_bytes a + len_bytes w - len_bytes a) with (len_bytes w) by lia.
  apply text_take_app.
Qed.

(** * Floats that are split into keys *)
Definition dotted (src : str) (t : token) : bool :=
  kind_eqb (tkind t) FLOAT &&
  match text_slice src (sstart (tspan t)) (send (tspan t)) with Some w => existsb (N.eqb 46) w | None => false end.

(** A dotted float after trivia at the start of the text ([open]) or right after another dotted float. *)
Fixpoint hazard (src : str) (open blank : bool) (ts : list token) : bool :=
  match ts with
  | [] => false
  | t :: ts' =>
      if triv t then hazard src open true ts'
      else if dotted src t then (open && blank) || hazard src true false ts'
      else hazard src false false ts'
  end.

Definition calm (src : str) (ts : list token) : Prop :=
  exists o, (match ts with t :: _ => triv t = true -> o = true | [] => True end) /\ hazard src o false ts = false.

Lemma hazard_closed src w ts : hazard src false w ts = hazard src false false ts.
Proof. revert w. induction ts as [|t ts IH]; intros w; simpl; [reflexivity|]. destruct (triv t); [|reflexivity]. rewrite (IH true). reflexivity. Qed.
Lemma hazard_mono src o w ts : hazard src o w ts = false -> hazard src false false ts = false.
Proof.
  destruct o; [|rewrite hazard_closed; auto]. rewrite <- (hazard_closed src w). revert w.
  induction ts as [|t ts IH]; intros w; simpl; [auto|]. destruct (triv t); [apply IH|].
  destruct (dotted src t); [|auto]. intros H. apply orb_false_iff in H as [_ H]. simpl. exact H.
Qed.
Lemma hazard_suffix src o w a b : hazard src o w (a ++ b) = false -> hazard src false false b = false.
Proof.
  revert o w. induction a as [|t a IH]; intros o w; simpl; [apply hazard_mono|].
  destruct (triv t); [apply IH|]. destruct (dotted src t); [|apply IH]. intros H. apply orb_false_iff in H as [_ H].
  revert H. apply IH.
Qed.
Lemma calm_after_bump src a b :
  match b with t :: _ => triv t = false | [] => True end -> calm src (a ++ b) -> calm src b.
Proof.
  intros Hb (o & _ & H). exists false. split; [|eapply hazard_suffix; eauto].
  destruct b; auto. intros E. congruence.
Qed.

(** * The invariant *)
Definition ends_eof (ts : list token) : Prop :=
  exists r e, ts = r ++ [e] /\ tkind e = EOF /\ Forall (fun t => tkind t <> EOF /\ plain_kind (tkind t) = true) r.

Definition dots (w : str) : nat := length (filter (N.eqb 46) w).

Record wf (p : pst) : Prop := MkWf {
  wf_end : ends_eof (p_rest p);
  wf_tiles : exists b s, p_src p = b ++ s /\ tiles b s (p_rest p);
  wf_floats : forall t w, In t (p_rest p) -> tkind t = FLOAT ->
    text_slice (p_src p) (sstart (tspan t)) (send (tspan t)) = Some w -> (dots w <= 1)%nat;
  wf_calm : calm (p_src p) (p_rest p);
  wf_depth : (p_depth p <= MAX_RECURSION_DEPTH)%nat }.

(** The parser went from [p] to [p'], producing the trees [tr]. *)
Record ext (p : pst) (tr : list ptree) (p' : pst) : Prop := MkExt {
  ext_src : p_src p' = p_src p;
  ext_depth : p_depth p' = p_depth p;
  ext_events : p_events p' = p_events p ++ flats tr;
  ext_tokens : exists c new, p_rest p = c ++ p_rest p' /\ p_tokens p' = p_tokens p ++ new /\
     cov new (flat_map leaves tr) /\ Forall (fun t => tkind t <> EOF) c /\
     (forall b s e, p_src p = b ++ s ++ e -> tiles b s c -> tiles b s new) }.

Lemma ext_refl p : ext p [] p.
Proof.
  split; auto; [rewrite app_nil_r; reflexivity|].
  exists [], []. repeat split; auto; [rewrite app_nil_r; reflexivity|apply cov_nil; reflexivity].
Qed.

Lemma ext_trans p1 t1 p2 t2 p3 : ext p1 t1 p2 -> ext p2 t2 p3 -> ext p1 (t1 ++ t2) p3.
Proof.
  intros [a1 a2 a3 (c1 & n1 & a4 & a5 & a6 & a7 & a8)] [b1 b2 b3 (c2 & n2 & b4 & b5 & b6 & b7 & b8)].
  split; try congruence.
  - rewrite b3, a3. unfold flats. rewrite flat_map_app, app_assoc. reflexivity.
  - exists (c1 ++ c2), (n1 ++ n2). repeat split.
    + rewrite a4, b4, app_assoc. reflexivity.
    + rewrite b5, a5, app_assoc. reflexivity.
    + rewrite flat_map_app. apply cov_app; auto.
    + apply Forall_app; auto.
    + intros b s e Hs HT. apply tiles_split in HT as (s1 & s2 & -> & T1 & T2). apply tiles_join.
      * apply (a8 b s1 (s2 ++ e)); auto. rewrite Hs, <- !app_assoc. reflexivity.
      * apply (b8 (b ++ s1) s2 e); auto. rewrite a1, Hs, <- !app_assoc. reflexivity.
Qed.

Lemma ends_eof_suffix c r : ends_eof (c ++ r) -> Forall (fun t => tkind t <> EOF) c -> ends_eof r.
Proof.
  intros (a & e & H1 & H2 & H3). revert a H1 H3. induction c as [|t c IH]; intros a H1 H3 HF; [exists a, e; auto|].
  destruct a as [|t' a].
  - simpl in H1. inversion H1; subst. inversion HF; subst. contradiction.
  - simpl in H1. inversion H1; subst. inversion H3; subst. inversion HF; subst. eapply IH; eauto.
Qed.

Lemma wf_suffix p p' c : wf p -> p_rest p = c ++ p_rest p' -> Forall (fun t => tkind t <> EOF) c ->
  p_src p' = p_src p -> p_depth p' = p_depth p -> calm (p_src p) (p_rest p') -> wf p'.
Proof.
  intros [w1 (b & s & w2 & w2') w3 w4 w5] HR HF HS HD HC. split.
  - rewrite HR in w1. eapply ends_eof_suffix; eauto.
  - rewrite HR in w2'. apply tiles_split in w2' as (s1 & s2 & -> & T1 & T2). exists (b ++ s1), s2.
    rewrite HS, <- app_assoc. auto.
  - intros t w Hin. rewrite HS. apply w3. rewrite HR. apply in_or_app. auto.
  - rewrite HS. exact HC.
  - rewrite HD. exact w5.
Qed.

(** * Runs *)
Lemma sig_app_le c r : (length (sig r) <= length (sig (c ++ r)))%nat.
Proof. induction c as [|t c IH]; simpl; [lia|]. destruct (triv t); simpl; lia. Qed.

Lemma sig_app_suffix c r : exists X, sig (c ++ r) = X ++ sig r.
Proof.
  induction c as [|t c (X & IH)]; [exists []; reflexivity|]. cbn [sig app].
  destruct (triv t); [exists X; exact IH|]. exists ((tkind t, joint (c ++ r)) :: X). rewrite IH. reflexivity.
Qed.

(** What is known after a run. *)
Definition after (p p' : pst) : Prop :=
  wf p' /\ p_depth p' = p_depth p /\ exists X, sig (p_rest p) = X ++ sig (p_rest p').
Lemma after_len p p' : after p p' -> (length (sig (p_rest p')) <= length (sig (p_rest p)))%nat.
Proof. intros (_ & _ & X & ->). rewrite app_length. lia. Qed.
Lemma after_eq p p' : after p p' -> (length (sig (p_rest p)) <= length (sig (p_rest p')))%nat -> sig (p_rest p') = sig (p_rest p).
Proof.
  intros (_ & _ & X & E) H. rewrite E in *. rewrite app_length in H. destruct X; [reflexivity|simpl in H; lia].
Qed.
Lemma after_trans p1 p2 p3 : after p1 p2 -> after p2 p3 -> after p1 p3.
Proof.
  intros (_ & D & X & E) (W & D2 & Y & E2). split; [exact W|]. split; [congruence|]. exists (X ++ Y).
  rewrite E, E2, app_assoc. reflexivity.
Qed.
Lemma after_refl p : wf p -> after p p.
Proof. intros W. split; [exact W|]. split; [reflexivity|]. exists []. reflexivity. Qed.
Lemma ext_after p tr p' : ext p tr p' -> wf p' -> after p p'.
Proof.
  intros [_ E _ (c & new & H & _)] W. split; [exact W|]. split; [exact E|]. rewrite H. apply sig_app_suffix.
Qed.

Definition runs {A} (d : nat) (p : pst) (m : res A) (st : A -> pst) (Q : A -> sks -> Prop) : Prop :=
  exists a tr, m = Done a /\ ext p tr (st a) /\ wf (st a) /\ Forall (tree_ok d) tr /\ Q a (sig (p_rest (st a))).
Definition idp (p : pst) : pst := p.

Lemma runs_ret {A} d p (a : A) st (Q : A -> sks -> Prop) :
  st a = p -> wf p -> Q a (sig (p_rest p)) -> runs d p (Done a) st Q.
Proof. intros E H1 H2. exists a, []. subst p. split; [reflexivity|]. split; [apply ext_refl|]. auto. Qed.

Lemma runs_mono {A} d p (m : res A) st (Q R : A -> sks -> Prop) :
  runs d p m st Q -> (forall a, after p (st a) -> Q a (sig (p_rest (st a))) -> R a (sig (p_rest (st a)))) -> runs d p m st R.
Proof.
  intros (a & tr & H1 & H2 & H3 & H4 & H5) HR. exists a, tr. split; [exact H1|]. split; [exact H2|].
  pose proof (ext_after _ _ _ H2 H3). auto.
Qed.

Lemma runs_weaken {A} d p (m : res A) st Q : runs (S d) p m st Q -> runs d p m st Q.
Proof.
  intros (a & tr & H1 & H2 & H3 & H4 & H5). exists a, tr. split; [exact H1|]. split; [exact H2|]. split; [exact H3|].
  split; [|exact H5]. eapply Forall_impl; [|exact H4]. intros t. apply tree_ok_weaken.
Qed.

Lemma runs_bind {A B} d p (m : res A) (f : A -> res B) st st' Q R :
  runs d p m st Q ->
  (forall a, after p (st a) -> Q a (sig (p_rest (st a))) -> runs d (st a) (f a) st' R) ->
  runs d p (bind m f) st' R.
Proof.
  intros (a & tr & -> & H2 & H3 & H4 & H5) HF. simpl.
  destruct (HF a) as (a' & tr' & E1 & E2 & E3 & E4 & E5); auto; [eapply ext_after; eauto|].
  exists a', (tr ++ tr'). split; [exact E1|]. split; [eapply ext_trans; eauto|]. split; [exact E3|].
  split; [apply Forall_app; auto|exact E5].
Qed.

Lemma runs_let {B} d p (x : bool * pst) (f : bool -> pst -> res B) st' (Q : bool -> sks -> Prop) R :
  runs d p (Done x) snd (fun a => Q (fst a)) ->
  (forall b p', after p p' -> Q b (sig (p_rest p')) -> runs d p' (f b p') st' R) ->
  runs d p (let (b, p') := x in f b p') st' R.
Proof.
  intros H1 H2. change (let (b, p') := x in f b p') with (bind (Done x) (fun x => let (b, p') := x in f b p')).
  eapply runs_bind; [exact H1|]. intros [b p'] ? ?. simpl in *. apply H2; auto.
Qed.

(** An open node: from the event that opened it at [p0] the parser came to [pc]. *)
Definition runsN (din dout : nat) (p0 pc : pst) (m : res pst) (Q : sks -> Prop) : Prop :=
  forall tr, ext (snd (start p0)) tr pc -> Forall (tree_ok din) tr -> wf pc ->
    runs dout p0 m idp (fun _ => Q).

Lemma runs_start dout din p (f : nat -> pst -> res pst) Q :
  wf p ->
  (forall p1, after p p1 -> sig (p_rest p1) = sig (p_rest p) -> runsN din dout p p1 (f (length (p_events p)) p1) Q) ->
  runs dout p (let (m, p') := start p in f m p') idp (fun _ => Q).
Proof.
  intros HW H. assert (wf (snd (start p))) as W1 by (destruct HW; split; auto).
  simpl. apply (H (snd (start p))) with (tr := []); auto; [|apply ext_refl].
  split; [exact W1|]. split; [reflexivity|]. exists []. reflexivity.
Qed.

Lemma runsN_bind {A} din dout p0 pc (m : res A) (f : A -> res pst) st Q R :
  runs din pc m st Q ->
  (forall a, after pc (st a) -> Q a (sig (p_rest (st a))) -> runsN din dout p0 (st a) (f a) R) ->
  runsN din dout p0 pc (bind m f) R.
Proof.
  intros (a & tr & -> & H2 & H3 & H4 & H5) HF tr0 E0 F0 W0. simpl.
  assert (runsN din dout p0 (st a) (f a) R) as HN by (apply HF; auto; eapply ext_after; eauto).
  apply (HN (tr0 ++ tr)); auto; [eapply ext_trans; eauto|apply Forall_app; auto].
Qed.

Lemma runsN_let din dout p0 pc (x : bool * pst) (f : bool -> pst -> res pst) (Q : bool -> sks -> Prop) R :
  runs din pc (Done x) snd (fun a => Q (fst a)) ->
  (forall b p', after pc p' -> Q b (sig (p_rest p')) -> runsN din dout p0 p' (f b p') R) ->
  runsN din dout p0 pc (let (b, p') := x in f b p') R.
Proof.
  intros H1 H2. change (let (b, p') := x in f b p') with (bind (Done x) (fun x => let (b, p') := x in f b p')).
  eapply runsN_bind; [exact H1|]. intros [b p'] ? ?. simpl in *. apply H2; auto.
Qed.

Lemma set_nth_app {A} (l : list A) x y r : set_nth (length l) y (l ++ x :: r) = l ++ y :: r.
Proof. induction l; simpl; congruence. Qed.

Lemma runsN_complete din dout p0 pc k (Q : sks -> Prop) :
  k <> TOMBSTONE -> (din = dout + weight k)%nat -> (din <= MAX_RECURSION_DEPTH)%nat -> Q (sig (p_rest pc)) ->
  runsN din dout p0 pc (complete (length (p_events p0)) k pc) Q.
Proof.
  intros Hk Hd Hm HQ tr HE HF HW. destruct HE as [e1 e2 e3 (c & new & e4 & e5 & e6 & e7 & e8)]. simpl in *.
  unfold complete. rewrite e3, <- app_assoc. simpl.
  rewrite nth_error_app2, Nat.sub_diag by lia. simpl. rewrite set_nth_app.
  eexists _, [PNd k tr]. split; [reflexivity|]. unfold idp. simpl. split; [|split; [|split]].
  - split; simpl; auto.
    + rewrite <- app_assoc. unfold flats. simpl. rewrite !app_nil_r. reflexivity.
    + exists c, new. rewrite app_nil_r. repeat split; auto.
  - destruct HW. split; auto.
  - constructor; auto. eapply tree_ok_node; eauto.
  - exact HQ.
Qed.

(** Loops: every round that goes on uses up at least one significant token. *)
Lemma sig_le ts : (length (sig ts) <= length ts)%nat.
Proof. induction ts as [|t ts IH]; simpl; [lia|]. destruct (triv t); simpl; lia. Qed.

Lemma loop_runs d (body : pst -> res (bool * pst)) (I Q : sks -> Prop) p :
  (forall p', after p p' -> I (sig (p_rest p')) ->
     runs d p' (body p') snd (fun a K => if fst a then (length K < length (sig (p_rest p')))%nat /\ I K else Q K)) ->
  wf p -> I (sig (p_rest p)) -> runs d p (loop body p) idp (fun _ => Q).
Proof.
  intros HB HW HI. unfold loop. pose proof (sig_le (p_rest p)) as HL.
  assert (length (sig (p_rest p)) < S (length (p_rest p)))%nat as HL' by lia. clear HL.
  remember (S (length (p_rest p))) as fuel eqn:E. clear E.
  assert (after p p) as HA by (apply after_refl; exact HW).
  assert (forall q, after p q -> I (sig (p_rest q)) -> (length (sig (p_rest q)) < fuel)%nat ->
    runs d q (loop_ fuel body q) idp (fun _ => Q)) as HG; [|apply HG; auto].
  clear HI HL'. induction fuel as [|fuel IH]; intros q HAq HI HL; [lia|]. cbn [loop_].
  destruct (HB q HAq HI) as ([b p'] & tr & H1 & H2 & H3 & H4 & H5). rewrite H1. simpl in *.
  destruct b.
  - destruct H5 as [H5 H6]. destruct (IH p') as (a & tr' & E1 & E2 & E3 & E4 & E5); auto.
    { eapply after_trans; [exact HAq|]. eapply ext_after; eauto. } { lia. }
    exists a, (tr ++ tr'). split; [exact E1|]. split; [eapply ext_trans; eauto|]. split; [exact E3|].
    split; [apply Forall_app; auto|exact E5].
  - exists p', tr. split; [reflexivity|]. split; [exact H2|]. auto.
Qed.

(** The end of the text is always in sight. *)
Definition wk (K : sks) : Prop :=
  exists K' j, K = K' ++ [(EOF, j)] /\ Forall (fun x => fst x <> EOF /\ plain_kind (fst x) = true) K'.
Lemma sig_ends ts : ends_eof ts -> wk (sig ts).
Proof.
  intros (r & e & -> & H2 & H3). induction H3 as [|t r [Ht Hp] _ IH]; simpl.
  - unfold triv. rewrite H2. simpl. exists [], false. auto.
  - destruct IH as (K & j & E & HK). destruct (triv t); [exists K, j; auto|]. exists ((tkind t, joint (r ++ [e])) :: K), j.
    rewrite E. split; [reflexivity|]. constructor; auto.
Qed.
Lemma wf_wk p : wf p -> wk (sig (p_rest p)).
Proof. intros H. apply sig_ends, H. Qed.
Lemma wk_cons k j r : wk ((k, j) :: r) -> (k = EOF /\ r = []) \/ (k <> EOF /\ plain_kind k = true /\ wk r).
Proof.
  intros (K & j' & E & HK). destruct K as [|x K].
  - inversion E; subst. auto.
  - simpl in E. inversion E; subst. inversion HK as [|? ? [H1 H2] H3]; subst. right. simpl in *. repeat split; auto.
    exists K, j'. auto.
Qed.
Lemma wk_not_nil : ~ wk [].
Proof. intros (K & j & E & _). destruct K; discriminate. Qed.
