(** What version sort means: numbers by value, and equality up to the separators. *)
From Coq Require Import String Ascii List NArith Bool Arith Lia ZifyBool.
From Verif Require Import Base NumberSpec DateTimeProofs VersionSortModel VersionSortProofs.
Import ListNotations.
Open Scope N_scope.
Open Scope list_scope.

Definition digits (w : str) : Prop := Forall (fun c => 48 <= c <= 57) w.
(** No run of digits in the text denotes a number too large for 64 bits. *)
Definition numbers_fit (s : str) : Prop := forall p w r, s = p ++ w ++ r -> digits w -> positional 10 w < 2 ^ 64.
Lemma numbers_fit_tail a s : numbers_fit (a ++ s) -> numbers_fit s.
Proof. intros H p w r -> Hw. apply (H (a ++ p) w r); auto. rewrite <- !app_assoc. reflexivity. Qed.

(** * Consuming chunks *)
Definition source_of (c : chunk) : str :=
  match c with Underscore => [95] | Hyphen => [45] | VersionOp op => op | Str s => s | Number _ _ s => s end.
Lemma starts_with_spec p s : starts_with p s = true <-> exists r, s = p ++ r.
Proof.
  revert s; induction p as [|x p IH]; intros s; simpl.
  - split; eauto.
  - destruct s as [|y s]; [split; [discriminate|intros (r & E); discriminate]|]. rewrite andb_true_iff, IH. split.
    + intros [E (r & ->)]. apply N.eqb_eq in E. subst. eauto.
    + intros (r & E). inversion E; subst. split; [apply N.eqb_refl|eauto].
Qed.
Lemma op_spec s op : check_version_operator_at s = Some op -> In op version_ops /\ exists r, s = op ++ r.
Proof. unfold check_version_operator_at. intros H. apply find_some in H as [H1 H2]. apply starts_with_spec in H2. auto. Qed.
Lemma op_nonempty op : In op version_ops -> op <> [].
Proof. unfold version_ops. cbn [map In]. intros H E. subst. repeat (destruct H as [H|H]; [discriminate|]). contradiction. Qed.
Definition op_char (c : char) : bool := existsb (N.eqb c) [33; 60; 61; 62; 94; 126].
Lemma op_chars op : In op version_ops -> Forall (fun c => op_char c = true) op.
Proof. intros H. assert (K : forallb (fun op => forallb op_char op) version_ops = true) by (vm_compute; reflexivity).
  rewrite forallb_forall in K. apply K in H. rewrite forallb_forall in H. apply Forall_forall. exact H. Qed.
Lemma skipn_app_len {A} (a b : list A) : skipn (length a) (a ++ b) = b.
Proof. rewrite skipn_app, skipn_all, Nat.sub_diag. reflexivity. Qed.
Lemma str_tail_spec s : fst (str_chunk_tail s) ++ snd (str_chunk_tail s) = s.
Proof.
  induction s as [|c s IH]; [reflexivity|]. cbn [str_chunk_tail]. destruct (N.eqb c 95 || N.eqb c 45); [reflexivity|]. destruct (is_ascii_digit c); [reflexivity|].
  destruct (check_version_operator_at (c :: s)); [reflexivity|]. destruct (str_chunk_tail s) as [a r]. simpl in *. congruence.
Qed.
Lemma take_drop {A} (p : A -> bool) s : take_while p s ++ drop_while p s = s.
Proof. induction s as [|c s IH]; [reflexivity|]. simpl. destruct (p c); simpl; congruence. Qed.
Lemma take_all {A} (p : A -> bool) s : Forall (fun c => p c = true) (take_while p s).
Proof. induction s as [|c s IH]; simpl; [constructor|]. destruct (p c) eqn:E; constructor; auto. Qed.
Lemma take_digits s : digits (take_while is_ascii_digit s).
Proof. eapply Forall_impl; [|apply take_all]. cbn. intros c. rewrite digit_range. auto. Qed.

Lemma next_source s c r : next_chunk s = (Some c, r) -> s = source_of c ++ r /\ source_of c <> [].
Proof.
  destruct s as [|x s]; cbn [next_chunk]; [discriminate|].
  destruct (N.eqb_spec x 95) as [->|_]; [intros K; inversion K; split; [reflexivity|discriminate]|].
  destruct (N.eqb_spec x 45) as [->|_]; [intros K; inversion K; split; [reflexivity|discriminate]|].
  destruct (is_ascii_digit x) eqn:E.
  - unfold parse_numeric_chunk. destruct (parse_usize _); simpl; [|discriminate]. intros K. inversion K; subst. cbn [source_of].
    rewrite E. split; [|discriminate]. cbn [app]. rewrite take_drop. reflexivity.
  - destruct (check_version_operator_at (x :: s)) as [op|] eqn:E2.
    + intros K; inversion K; subst. cbn [source_of]. apply op_spec in E2 as [H1 (r & E2)]. split; [|apply op_nonempty; auto]. rewrite E2. rewrite skipn_app_len. reflexivity.
    + pose proof (str_tail_spec s) as K. destruct (str_chunk_tail s) as [a r']. intros H; inversion H; subst. simpl in *. split; [congruence|discriminate].
Qed.
Lemma next_none s r : next_chunk s = (None, r) -> numbers_fit s -> s = [].
Proof.
  destruct s as [|x s]; auto. cbn [next_chunk]. destruct (N.eqb x 95); [discriminate|]. destruct (N.eqb x 45); [discriminate|].
  destruct (is_ascii_digit x).
  - unfold parse_numeric_chunk, parse_usize. intros H F.
    assert (K : positional 10 (take_while is_ascii_digit (x :: s)) < 2 ^ 64).
    { apply (F [] (take_while is_ascii_digit (x :: s)) (drop_while is_ascii_digit (x :: s))); [cbn [app]; rewrite take_drop; reflexivity|apply take_digits]. }
    apply N.ltb_lt in K. rewrite K in H. discriminate.
  - destruct (check_version_operator_at (x :: s)); [discriminate|]. destruct (str_chunk_tail s). discriminate.
Qed.
Lemma fuel_enough : forall n m s, (length s <= n)%nat -> (length s <= m)%nat -> chunks_fuel n s = chunks_fuel m s.
Proof.
  induction n as [|n IH]; intros m s Hn Hm.
  - destruct s; [|simpl in Hn; lia]. destruct m; reflexivity.
  - destruct m as [|m].
    + destruct s; [reflexivity|simpl in Hm; lia].
    + cbn [chunks_fuel]. destruct (next_chunk s) as [[c|] r] eqn:E; auto. f_equal. apply next_source in E as [-> E].
      rewrite app_length in *. destruct (source_of c); [contradiction|]. simpl in *. apply IH; lia.
Qed.
Lemma chunks_next s c r : next_chunk s = (Some c, r) -> chunks s = c :: chunks r.
Proof.
  intros H. pose proof (next_source _ _ _ H) as [E1 E2]. unfold chunks. destruct s as [|x s]; [discriminate|]. cbn [length chunks_fuel]. rewrite H. f_equal.
  apply fuel_enough; auto. assert (K : length (x :: s) = length (source_of c ++ r)) by congruence. rewrite app_length in K. destruct (source_of c); [contradiction|]. simpl in *. lia.
Qed.
Lemma chunks_text s : numbers_fit s -> concat (map source_of (chunks s)) = s.
Proof.
  remember (length s) as n eqn:En. revert s En. induction n as [n IH] using lt_wf_ind. intros s -> HF.
  destruct (next_chunk s) as [[c|] r] eqn:E.
  - rewrite (chunks_next _ _ _ E). apply next_source in E as [-> E]. simpl. rewrite (IH (length r)); auto.
    + rewrite app_length. destruct (source_of c); [contradiction|]. simpl. lia.
    + eapply numbers_fit_tail; eauto.
  - apply next_none in E; auto. subst. reflexivity.
Qed.

(** * Numbers by value *)
Definition starts_digit (s : str) : Prop := match s with c :: _ => 48 <= c <= 57 | [] => False end.
Definition ends_digit (s : str) : Prop := starts_digit (rev s).
Lemma starts_digit_iff c s : starts_digit (c :: s) <-> is_ascii_digit c = true.
Proof. rewrite digit_range. simpl. reflexivity. Qed.
Lemma starts_with_app op p q : In op version_ops -> starts_digit q -> starts_with op (p ++ q) = starts_with op p.
Proof.
  intros H Q. apply op_chars in H. revert p. induction H as [|x op Hx Hop IH]; intros p; [reflexivity|].
  destruct p as [|y p].
  - destruct q as [|d q]; [contradiction|]. simpl in *. unfold op_char in Hx. cbn [existsb] in Hx. replace (N.eqb x d) with false by lia. reflexivity.
  - simpl. rewrite IH. reflexivity.
Qed.
Lemma check_op_app p q : starts_digit q -> check_version_operator_at (p ++ q) = check_version_operator_at p.
Proof.
  intros Q. unfold check_version_operator_at.
  assert (K : forall l, (forall o, In o l -> In o version_ops) -> find (fun op => starts_with op (p ++ q)) l = find (fun op => starts_with op p) l).
  { induction l as [|o l IH]; intros H; [reflexivity|]. simpl. rewrite starts_with_app by (auto; apply H; left; reflexivity). rewrite IH; auto. intros; apply H; right; auto. }
  apply K. auto.
Qed.
Lemma str_tail_app p q : starts_digit q -> str_chunk_tail (p ++ q) = (fst (str_chunk_tail p), snd (str_chunk_tail p) ++ q).
Proof.
  intros Q. induction p as [|c p IH].
  - cbn [app]. destruct q as [|d q]; [contradiction|]. cbn [str_chunk_tail]. replace (N.eqb d 95 || N.eqb d 45) with false by (simpl in Q; lia).
    apply starts_digit_iff in Q. rewrite Q. reflexivity.
  - cbn [app str_chunk_tail]. destruct (N.eqb c 95 || N.eqb c 45); [reflexivity|]. destruct (is_ascii_digit c); [reflexivity|].
    rewrite (check_op_app (c :: p) q Q : check_version_operator_at (c :: p ++ q) = _). destruct (check_version_operator_at (c :: p)); [reflexivity|]. rewrite IH. destruct (str_chunk_tail p). reflexivity.
Qed.
Lemma ends_digit_cons c p : p <> [] -> ends_digit (c :: p) -> ends_digit p.
Proof. unfold ends_digit. intros HN H. simpl in H. destruct (rev p) eqn:E; auto. apply HN. rewrite <- (rev_involutive p), E. reflexivity. Qed.
Lemma not_ends_tail a p : p <> [] -> ~ ends_digit (a ++ p) -> ~ ends_digit p.
Proof. unfold ends_digit. rewrite rev_app_distr. intros HN H K. apply H. destruct (rev p) eqn:E; [contradiction|]. exact K. Qed.
Lemma digit_run_app p q : ~ ends_digit p -> p <> [] ->
  take_while is_ascii_digit (p ++ q) = take_while is_ascii_digit p /\ drop_while is_ascii_digit (p ++ q) = drop_while is_ascii_digit p ++ q /\ drop_while is_ascii_digit p <> [].
Proof.
  induction p as [|c p IH]; intros HE HN; [contradiction|]. simpl. destruct (is_ascii_digit c) eqn:E.
  - assert (HP : p <> []) by (intros ->; apply HE; unfold ends_digit; simpl; apply digit_range; auto).
    destruct IH as (E1 & E2 & E3); [apply (not_ends_tail [c]); auto|auto|]. rewrite E1, E2. auto.
  - repeat split; auto; discriminate.
Qed.
Lemma next_app p q : starts_digit q -> ~ ends_digit p -> p <> [] -> next_chunk (p ++ q) = (fst (next_chunk p), snd (next_chunk p) ++ q).
Proof.
  intros Q E HN. destruct p as [|c p]; [contradiction|]. cbn [app next_chunk]. destruct (N.eqb c 95); [reflexivity|]. destruct (N.eqb c 45); [reflexivity|].
  destruct (is_ascii_digit c).
  - unfold parse_numeric_chunk. destruct (digit_run_app (c :: p) q E HN) as (E1 & E2 & _). cbn [app] in E1, E2. rewrite E1, E2. reflexivity.
  - rewrite (check_op_app (c :: p) q Q : check_version_operator_at (c :: p ++ q) = _). destruct (check_version_operator_at (c :: p)) as [op|] eqn:EO.
    + cbn [fst snd]. f_equal. apply op_spec in EO as [_ (r & EO)]. rewrite EO. change (c :: p ++ q) with ((c :: p) ++ q). rewrite EO, <- app_assoc, !skipn_app_len. reflexivity.
    + rewrite str_tail_app by auto. destruct (str_chunk_tail p). reflexivity.
Qed.
Lemma chunks_prefix p q : starts_digit q -> ~ ends_digit p -> numbers_fit p -> chunks (p ++ q) = chunks p ++ chunks q.
Proof.
  remember (length p) as n eqn:En. revert p En. induction n as [n IH] using lt_wf_ind. intros p -> Q HE HF.
  destruct p as [|c p]; [reflexivity|]. pose proof (next_app (c :: p) q Q HE) as K. specialize (K ltac:(discriminate)).
  destruct (next_chunk (c :: p)) as [[k|] r] eqn:E.
  - cbn [fst snd] in K. rewrite (chunks_next _ _ _ K), (chunks_next _ _ _ E). cbn [app]. f_equal. apply next_source in E as [E1 E2].
    rewrite E1 in *. apply (IH (length r)); auto.
    + rewrite app_length. destruct (source_of k); [contradiction|]. simpl. lia.
    + destruct r; [unfold ends_digit; simpl; auto|]. eapply not_ends_tail; eauto. discriminate.
    + eapply numbers_fit_tail; eauto.
  - apply next_none in E; auto. discriminate.
Qed.
Lemma digit_run w r : digits w -> ~ starts_digit r -> take_while is_ascii_digit (w ++ r) = w /\ drop_while is_ascii_digit (w ++ r) = r.
Proof.
  intros Hw Hr. induction Hw as [|c w Hc Hw [IH1 IH2]].
  - destruct r as [|d r]; [auto|]. rewrite starts_digit_iff in Hr. cbn [app take_while drop_while]. destruct (is_ascii_digit d); [exfalso; auto|auto].
  - cbn [app take_while drop_while]. apply digit_range in Hc. rewrite Hc, IH1, IH2. auto.
Qed.
Definition leading_zeros (w : str) : N := N.of_nat (length (take_while (N.eqb 48) w)).
Lemma number_chunk w r : w <> [] -> digits w -> ~ starts_digit r -> positional 10 w < 2 ^ 64 ->
  chunks (w ++ r) = Number (positional 10 w) (leading_zeros w) w :: chunks r.
Proof.
  intros HN Hw Hr HF. apply chunks_next. destruct w as [|c w]; [contradiction|]. inversion Hw as [|? ? Hc _]; subst. cbn [app next_chunk].
  replace (N.eqb c 95) with false by lia. replace (N.eqb c 45) with false by lia. apply digit_range in Hc. rewrite Hc.
  unfold parse_numeric_chunk, parse_usize. destruct (digit_run (c :: w) r Hw Hr) as [E1 E2]. cbn [app] in E1, E2. rewrite E1, E2.
  apply N.ltb_lt in HF. rewrite HF. reflexivity.
Qed.
Lemma lex_app {A} (cmp : A -> A -> comparison) p a b : (forall x, cmp x x = Eq) -> lex cmp (p ++ a) (p ++ b) = lex cmp a b.
Proof. intros H. induction p as [|x p IH]; [reflexivity|]. simpl. rewrite H. exact IH. Qed.
Lemma key_refl : forall x, lex N.compare x x = Eq.
Proof. intros x. apply (lex_total _ N_total). reflexivity. Qed.
Lemma starts_digit_app w r : w <> [] -> digits w -> starts_digit (w ++ r).
Proof. intros HN H. destruct H; [contradiction|]. exact H. Qed.
Lemma version_sort_number p w1 w2 r1 r2 : ~ ends_digit p -> numbers_fit p -> w1 <> [] -> w2 <> [] -> digits w1 -> digits w2 -> ~ starts_digit r1 -> ~ starts_digit r2 ->
  positional 10 w2 < 2 ^ 64 -> positional 10 w1 < positional 10 w2 -> version_sort (p ++ w1 ++ r1) (p ++ w2 ++ r2) = Lt.
Proof.
  intros HP HF N1 N2 D1 D2 S1 S2 F2 HL. rewrite version_sort_keys.
  rewrite (chunks_prefix p (w1 ++ r1)), (chunks_prefix p (w2 ++ r2)), (number_chunk w1 r1), (number_chunk w2 r2) by (auto using starts_digit_app; lia).
  unfold keys, key_cmp. rewrite !map_app, (lex_app (lex N.compare)) by apply key_refl.
  cbn [map lex key].
  rewrite !N.compare_refl. apply N.compare_lt_iff in HL. rewrite HL. reflexivity.
Qed.

(** * Equality *)
Definition norm_sep (c : char) : char := if N.eqb c 45 then 95 else c.
Definition same_but_separators (a b : str) : Prop := map norm_sep a = map norm_sep b.

Lemma zeros_split w : w = repeat 48 (length (take_while (N.eqb 48) w)) ++ drop_while (N.eqb 48) w.
Proof. induction w as [|c w IH]; [reflexivity|]. cbn [take_while drop_while]. destruct (N.eqb_spec 48 c) as [<-|H]; [cbn [length repeat app]; congruence|reflexivity]. Qed.
Lemma positional_len_inj : forall a b, digits a -> digits b -> length a = length b -> positional 10 a = positional 10 b -> a = b.
Proof.
  induction a as [|x a IH]; intros [|y b] Ha Hb HL HE; try discriminate; auto. inversion Ha; inversion Hb; subst. simpl in HL.
  rewrite !positional_cons in HE by auto. pose proof (positional_bound10 a ltac:(assumption)) as B1. pose proof (positional_bound10 b ltac:(assumption)) as B2.
  assert (HL' : length a = length b) by lia. rewrite HL' in *.
  assert (x = y) by nia. subst. f_equal. apply IH; auto. lia.
Qed.
Lemma drop_head {A} (p : A -> bool) w : match drop_while p w with c :: _ => p c = false | [] => True end.
Proof. induction w as [|c w IH]; simpl; auto. destruct (p c) eqn:E; auto. Qed.
Lemma canonical_len : forall a b, digits a -> digits b -> match a with c :: _ => c <> 48 | [] => True end -> match b with c :: _ => c <> 48 | [] => True end ->
  positional 10 a = positional 10 b -> (length a <= length b)%nat.
Proof.
  intros a b Ha Hb Za Zb HE. destruct a as [|c a]; [simpl; lia|]. inversion Ha; subst. rewrite positional_cons in HE by auto. pose proof (positional_bound10 b Hb) as HB.
  assert (K : 10 ^ N.of_nat (length a) < 10 ^ N.of_nat (length b)) by nia. apply N.pow_lt_mono_r_iff in K; [|lia]. simpl. lia.
Qed.
Lemma digits_drop p w : digits w -> digits (drop_while p w).
Proof. intros H. rewrite <- (take_drop p w) in H. apply Forall_app in H. apply H. Qed.
Lemma number_source a b : digits a -> digits b -> positional 10 a = positional 10 b -> leading_zeros a = leading_zeros b -> a = b.
Proof.
  intros Ha Hb HE HZ. unfold leading_zeros in HZ. apply Nnat.Nat2N.inj in HZ.
  pose proof (zeros_split a) as Ea. pose proof (zeros_split b) as Eb. rewrite HZ in Ea.
  pose proof (drop_head (N.eqb 48) a) as Za. pose proof (drop_head (N.eqb 48) b) as Zb.
  pose proof (digits_drop (N.eqb 48) a Ha) as Da. pose proof (digits_drop (N.eqb 48) b Hb) as Db.
  revert Ea Eb Za Zb Da Db. generalize (drop_while (N.eqb 48) a) (drop_while (N.eqb 48) b) (length (take_while (N.eqb 48) b)). intros a' b' n -> -> Za Zb Da Db.
  rewrite !positional_app, !positional_zeros in HE by auto using zeros_digits. cbn [N.mul N.add] in HE.
  assert (Za' : match a' with c :: _ => c <> 48 | [] => True end) by (destruct a'; auto; lia).
  assert (Zb' : match b' with c :: _ => c <> 48 | [] => True end) by (destruct b'; auto; lia).
  f_equal. apply positional_len_inj; auto. pose proof (canonical_len a' b' Da Db Za' Zb' HE). pose proof (canonical_len b' a' Db Da Zb' Za' (eq_sym HE)). lia.
Qed.
Definition good_chunk (c : chunk) : Prop :=
  wf_chunk c /\ match c with Number v z s => digits s /\ v = positional 10 s /\ z = leading_zeros s | _ => True end.
Lemma next_good s c r : next_chunk s = (Some c, r) -> good_chunk c.
Proof.
  intros H. split; [eapply next_wf; eauto|]. destruct c as [| | | |v z src]; auto.
  destruct s as [|x s]; cbn [next_chunk] in H; [discriminate|]. destruct (N.eqb x 95); [discriminate|]. destruct (N.eqb x 45); [discriminate|].
  destruct (is_ascii_digit x).
  - unfold parse_numeric_chunk, parse_usize in H. destruct (_ <? 2 ^ 64); [|discriminate]. cbn [option_map] in H. inversion H; subst. split; [apply (take_digits (x :: s))|]. split; reflexivity.
  - destruct (check_version_operator_at (x :: s)); [discriminate|]. destruct (str_chunk_tail s). discriminate.
Qed.
Lemma chunks_good : forall fuel s, Forall good_chunk (chunks_fuel fuel s).
Proof.
  induction fuel as [|f IH]; intros s; cbn [chunks_fuel]; [constructor|]. destruct (next_chunk s) as [[c|] r] eqn:E; [|constructor]. constructor; auto. eapply next_good; eauto.
Qed.
Lemma key_source a b : good_chunk a -> good_chunk b -> key a = key b -> zeros_of a = zeros_of b -> map norm_sep (source_of a) = map norm_sep (source_of b).
Proof.
  intros [Wa Ga] [Wb Gb] HK HZ. destruct a as [| |opa|sa|va za srca], b as [| |opb|sb|vb zb srcb]; cbn [key zeros_of source_of] in *; try discriminate; try reflexivity; try congruence.
  - inversion HK; subst. destruct Wa as (x & r & E & H). inversion E; subst. discriminate.
  - inversion HK; subst. destruct Wb as (x & r & E & H). inversion E; subst. discriminate.
  - inversion HK. destruct Ga as (D1 & -> & ->), Gb as (D2 & -> & ->). f_equal. apply number_source; auto.
Qed.
Lemma keys_sources : forall a b, Forall good_chunk a -> Forall good_chunk b -> keys a = keys b -> zeros a = zeros b ->
  map norm_sep (concat (map source_of a)) = map norm_sep (concat (map source_of b)).
Proof.
  induction a as [|x a IH]; intros [|y b] Ha Hb HK HZ; try discriminate; auto. inversion Ha; inversion Hb; subst. unfold keys, zeros in *. cbn [map] in *.
  inversion HK; inversion HZ. cbn [concat]. rewrite !map_app. f_equal; [apply key_source; auto|apply IH; auto].
Qed.
Lemma version_sort_eq_text a b : numbers_fit a -> numbers_fit b -> version_sort a b = Eq -> same_but_separators a b.
Proof.
  intros Fa Fb H. rewrite version_sort_keys in H. destruct key_cmp_total as (HE & _). destruct (lex_total _ N_total) as (HE' & _).
  destruct (key_cmp _ _) eqn:E1; try discriminate. apply HE in E1. destruct (lex _ _ _) eqn:E2; try discriminate. apply HE' in E2.
  unfold same_but_separators. rewrite <- (chunks_text a Fa), <- (chunks_text b Fb). apply keys_sources; auto; apply chunks_good.
Qed.

Lemma norm_inv x y : norm_sep x = norm_sep y -> x = y \/ ((x = 45 \/ x = 95) /\ (y = 45 \/ y = 95)).
Proof. unfold norm_sep. destruct (N.eqb_spec x 45), (N.eqb_spec y 45); lia. Qed.
Lemma norm_op c x y : op_char c = true -> norm_sep x = norm_sep y -> N.eqb c x = N.eqb c y.
Proof. intros H E. apply norm_inv in E as [->|[E1 E2]]; auto. unfold op_char in H. cbn [existsb] in H. lia. Qed.
Lemma starts_with_sim op : In op version_ops -> forall a b, same_but_separators a b -> starts_with op a = starts_with op b.
Proof.
  intros H. apply op_chars in H. induction H as [|c op Hc Hop IH]; intros a b E; [reflexivity|]. unfold same_but_separators in E.
  destruct a as [|x a], b as [|y b]; try discriminate; auto. cbn [map] in E. inversion E. simpl. rewrite (norm_op c x y) by auto. rewrite (IH a b); auto.
Qed.
Lemma check_op_sim a b : same_but_separators a b -> check_version_operator_at a = check_version_operator_at b.
Proof.
  intros H. unfold check_version_operator_at.
  assert (K : forall l, (forall o, In o l -> In o version_ops) -> find (fun op => starts_with op a) l = find (fun op => starts_with op b) l).
  { induction l as [|o l IH]; intros HI; [reflexivity|]. simpl. rewrite (starts_with_sim o) with (b := b) by (auto; apply HI; left; reflexivity). rewrite IH; auto. intros; apply HI; right; auto. }
  apply K. auto.
Qed.
Lemma is_sep_sim x y : norm_sep x = norm_sep y -> (N.eqb x 95 || N.eqb x 45) = (N.eqb y 95 || N.eqb y 45).
Proof. intros E. apply norm_inv in E as [->|[[->| ->] [->| ->]]]; reflexivity. Qed.
Lemma str_tail_sim : forall a b, same_but_separators a b -> fst (str_chunk_tail a) = fst (str_chunk_tail b) /\ same_but_separators (snd (str_chunk_tail a)) (snd (str_chunk_tail b)).
Proof.
  induction a as [|x a IH]; intros [|y b] H; unfold same_but_separators in H; try discriminate; [auto|]. cbn [str_chunk_tail]. rewrite (check_op_sim _ _ H).
  cbn [map] in H. inversion H. rewrite (is_sep_sim x y) by auto. destruct (N.eqb y 95 || N.eqb y 45) eqn:ES; [split; auto|].
  assert (x = y). { apply norm_inv in H1 as [->|[_ [->| ->]]]; auto; discriminate. } subst.
  destruct (is_ascii_digit y); [split; auto|]. destruct (check_version_operator_at (y :: b)); [split; auto|].
  destruct (IH b H2) as [E1 E2]. destruct (str_chunk_tail a), (str_chunk_tail b). cbn [fst snd] in *. subst. auto.
Qed.
Lemma take_sim : forall a b, same_but_separators a b -> take_while is_ascii_digit a = take_while is_ascii_digit b /\ same_but_separators (drop_while is_ascii_digit a) (drop_while is_ascii_digit b).
Proof.
  induction a as [|x a IH]; intros [|y b] H; unfold same_but_separators in H; try discriminate; [split; reflexivity|]. cbn [map] in H. inversion H. cbn [take_while drop_while].
  destruct (norm_inv x y H1) as [->|[[->| ->] [->| ->]]]; [|split; auto..]. destruct (is_ascii_digit y); [|split; auto]. destruct (IH b H2) as [-> E2]. auto.
Qed.
Definition okey (o : option chunk) : option (str * N) := option_map (fun c => (key c, zeros_of c)) o.
Lemma next_sim a b : same_but_separators a b -> okey (fst (next_chunk a)) = okey (fst (next_chunk b)) /\ same_but_separators (snd (next_chunk a)) (snd (next_chunk b)).
Proof.
  intros H. pose proof H as H0. unfold same_but_separators in H. destruct a as [|x a], b as [|y b]; try discriminate; [split; reflexivity|]. cbn [map] in H. inversion H.
  cbn [next_chunk]. destruct (norm_inv x y H2) as [->|K].
  - destruct (N.eqb y 95); [split; auto|]. destruct (N.eqb y 45); [split; auto|]. destruct (is_ascii_digit y).
    + unfold parse_numeric_chunk. destruct (take_sim _ _ H0) as [E1 E2]. rewrite E1. split; auto.
    + rewrite (check_op_sim _ _ H0). destruct (check_version_operator_at (y :: b)) as [op|].
      * split; auto. cbn [snd]. unfold same_but_separators in *. rewrite <- !skipn_map, H0. reflexivity.
      * destruct (str_tail_sim a b H3) as [E1 E2]. destruct (str_chunk_tail a), (str_chunk_tail b). cbn [fst snd] in *. subst. auto.
  - destruct K as [[->| ->] [->| ->]]; cbn; split; auto.
Qed.
Lemma chunks_sim : forall n m a b, same_but_separators a b -> n = m -> keys (chunks_fuel n a) = keys (chunks_fuel m b) /\ zeros (chunks_fuel n a) = zeros (chunks_fuel m b).
Proof.
  induction n as [|n IH]; intros m a b H <-; [split; reflexivity|]. cbn [chunks_fuel]. destruct (next_sim a b H) as [E1 E2].
  destruct (next_chunk a) as [[c|] r], (next_chunk b) as [[c'|] r']; cbn [fst snd okey option_map] in *; try discriminate; [|split; reflexivity].
  inversion E1. destruct (IH n r r' E2 eq_refl) as [E3 E4]. unfold keys, zeros in *. cbn [map]. rewrite E3, E4. split; congruence.
Qed.
Lemma version_sort_text_eq a b : same_but_separators a b -> version_sort a b = Eq.
Proof.
  intros H. rewrite version_sort_keys. destruct key_cmp_total as (HE & _). destruct (lex_total _ N_total) as (HE' & _).
  assert (HL : length a = length b) by (unfold same_but_separators in H; rewrite <- (map_length norm_sep a), H, map_length; reflexivity).
  destruct (chunks_sim (length a) (length b) a b H HL) as [E1 E2]. unfold chunks. rewrite E1, E2.
  rewrite (proj2 (HE _ _) eq_refl), (proj2 (HE' _ _) eq_refl). reflexivity.
Qed.
