(** The recursion of the parser, for every text whatsoever. *)
From Coq Require Import String Ascii List NArith Bool Arith Lia.
From Verif Require Import Base SyntaxKind TextModel LexerModel ParserModel.
Import ListNotations.
Open Scope N_scope.
Open Scope list_scope.

(** [m] does not run out of stack, and ends at nesting depth [d] if it ends. *)
Definition flat_at {A} (st : A -> nat) (d : nat) (m : res A) : Prop :=
  m <> Deep /\ forall a, m = Done a -> st a = d.
Notation at_depth := (flat_at p_depth).
Notation at_depth2 := (flat_at (fun x => p_depth (snd x))).
Notation no_deep m := (m <> Deep).

Lemma fa_done {A} (st : A -> nat) a d : st a = d -> flat_at st d (Done a).
Proof. intros H. split; [discriminate|]. intros b E. inversion E; subst. reflexivity. Qed.
Lemma fa_panic {A} (st : A -> nat) d : flat_at st d Panic.
Proof. split; discriminate. Qed.
Lemma fa_diverge {A} (st : A -> nat) d : flat_at st d Diverge.
Proof. split; discriminate. Qed.
Lemma fa_bind {A B} (st : A -> nat) (st' : B -> nat) d d' m f :
  flat_at st d m -> (forall a, st a = d -> flat_at st' d' (f a)) -> flat_at st' d' (bind m f).
Proof. intros [H1 H2] HF. destruct m as [a| | |]; simpl; [apply HF; auto|apply fa_panic|apply fa_diverge|contradiction]. Qed.
Lemma fa_bind0 {A B} (st' : B -> nat) d' (m : res A) f :
  no_deep m -> (forall a, flat_at st' d' (f a)) -> flat_at st' d' (bind m f).
Proof. intros H1 HF. destruct m as [a| | |]; simpl; [apply HF; auto|apply fa_panic|apply fa_diverge|contradiction]. Qed.

Lemma do_bump_depth k n p : p_depth (do_bump k n p) = p_depth p.
Proof. unfold do_bump. destruct (nth_split n (p_rest p)). reflexivity. Qed.
Lemma eat_depth k p : p_depth (snd (eat k p)) = p_depth p.
Proof. unfold eat. destruct (negb (at_ k p)); [reflexivity|]. apply do_bump_depth. Qed.
Lemma eat_ts_depth s p : p_depth (snd (eat_ts s p)) = p_depth p.
Proof. unfold eat_ts. destruct (negb _); [reflexivity|]. apply do_bump_depth. Qed.
Lemma bump_any_depth p : p_depth (bump_any p) = p_depth p.
Proof. unfold bump_any. destruct (kind_eqb _ _); [reflexivity|]. apply do_bump_depth. Qed.
Lemma bump_remap_depth k p : p_depth (bump_remap k p) = p_depth p.
Proof. unfold bump_remap. destruct (kind_eqb _ _); [reflexivity|]. apply do_bump_depth. Qed.
Lemma current_range_deep p : no_deep (current_range p).
Proof. unfold current_range. destruct (p_rest p); discriminate. Qed.
Lemma complete_depth m k p d : p_depth p = d -> at_depth d (complete m k p).
Proof. intros H. unfold complete. destruct (nth_error _ _) as [[| | |]|]; first [apply fa_panic|apply fa_done; exact H]. Qed.
Lemma p_bump_depth k p d : p_depth p = d -> at_depth d (p_bump k p).
Proof.
  intros H. unfold p_bump. pose proof (eat_depth k p) as E. destruct (eat k p) as [[] q]; [apply fa_done; simpl in E; congruence|apply fa_panic].
Qed.

Lemma loop_depth body d p : (forall q, p_depth q = d -> at_depth2 d (body q)) -> p_depth p = d -> at_depth d (loop body p).
Proof.
  intros HB. unfold loop. generalize (S (length (p_rest p))). intros fuel. revert p. induction fuel as [|fuel IH]; intros p HD; [apply fa_diverge|].
  cbn [loop_]. destruct (HB p HD) as [H1 H2]. destruct (body p) as [[[] q]| | |].
  - apply IH. apply (H2 _ eq_refl).
  - apply fa_done. apply (H2 _ eq_refl).
  - apply fa_panic.
  - apply fa_diverge.
  - contradiction.
Qed.

Lemma while_eat_depth k p d : p_depth p = d -> at_depth d (while_eat k p).
Proof. intros H. apply loop_depth; auto. intros q Hq. apply fa_done. rewrite eat_depth. exact Hq. Qed.
Lemma leading_depth p d : p_depth p = d -> at_depth d (leading_comments p).
Proof. intros H. apply loop_depth; auto. intros q Hq. apply fa_done. rewrite eat_ts_depth. exact Hq. Qed.
Lemma trailing_depth p d : p_depth p = d -> at_depth d (trailing_comment p).
Proof. apply while_eat_depth. Qed.
Lemma skip_until_depth s p d : p_depth p = d -> at_depth d (skip_until s p).
Proof. intros H. apply loop_depth; auto. intros q Hq. destruct (at_ts s q); apply fa_done; auto. cbn [snd]. rewrite bump_any_depth. exact Hq. Qed.
Lemma peek_deep p : no_deep (peek_leading_comments p).
Proof.
  unfold peek_leading_comments. generalize (S (length (p_rest p))). intros fuel. generalize 0%nat.
  induction fuel as [|fuel IH]; intros n; cbn [peek_loop]; [discriminate|]. destruct (nth_at _ _ _); [apply IH|].
  destruct (_ && _); [apply IH|discriminate].
Qed.
Lemma dangling_len_deep p : no_deep (dangling_comment_group_len p).
Proof.
  unfold dangling_comment_group_len. destruct (negb _); [discriminate|]. generalize (S (length (p_rest p))). intros fuel. generalize 0%nat.
  induction fuel as [|fuel IH]; intros n; cbn [dangling_len_loop]; [discriminate|]. destruct (negb _); [discriminate|].
  destruct (nth_at_ts _ _ _); [discriminate|]. destruct (negb _); [discriminate|]. apply IH.
Qed.

(** Go through a function body: binds, conditionals and calls with a known lemma. *)
Ltac fstep :=
  match goal with
  | |- flat_at _ _ (bind (current_range _) _) => apply fa_bind0; [apply current_range_deep|]; intros ?r
  | |- flat_at _ _ (bind (peek_leading_comments _) _) => apply fa_bind0; [apply peek_deep|]; intros ?n
  | |- flat_at _ _ (bind (dangling_comment_group_len _) _) => apply fa_bind0; [apply dangling_len_deep|]; intros ?g
  | |- flat_at _ _ (if ?b then _ else _) => destruct b
  | |- flat_at _ _ (let (_, _) := start ?p in _) => cbn [start]
  | |- flat_at _ _ (let (_, _) := eat ?k ?p in _) =>
      let E := fresh in pose proof (eat_depth k p) as E; destruct (eat k p) as [? ?]; cbn [snd] in E
  | |- flat_at _ _ Panic => apply fa_panic
  | |- flat_at _ _ Diverge => apply fa_diverge
  | |- flat_at _ _ (break _) => apply fa_done
  | |- flat_at _ _ (again _) => apply fa_done
  | |- flat_at _ _ (Done _) => apply fa_done
  | |- flat_at _ _ (complete _ _ _) => apply complete_depth
  | |- flat_at _ _ (loop _ _) => apply loop_depth; [intros|]
  | |- flat_at _ _ (bind (let (_, _) := start ?p in _) _) => cbn [start]
  | |- flat_at p_depth ?d (bind ?m _) =>
      match type of m with
      | res pst => eapply (fa_bind p_depth) with (d := d); [|intros]
      end
  | |- flat_at (fun x => p_depth (snd x)) ?d (bind ?m _) =>
      match type of m with
      | res pst => eapply (fa_bind p_depth) with (d := d); [|intros]
      end
  end.
Ltac fdone := cbn [snd p_depth push_event p_error] in *; rewrite ?bump_any_depth, ?bump_remap_depth, ?eat_depth in *;
  cbn [snd p_depth push_event p_error] in *; congruence.

Lemma invalid_line_depth k p d : p_depth p = d -> at_depth d (invalid_line k p).
Proof. intros H. unfold invalid_line. fstep. apply skip_until_depth. fdone. Qed.
Lemma comma_depth p d : p_depth p = d -> at_depth d (comma p).
Proof.
  intros H. unfold comma. repeat first [apply leading_depth | apply trailing_depth | fstep]; fdone.
Qed.
Lemma bump_any_times_depth n p : p_depth (bump_any_times n p) = p_depth p.
Proof. revert p. induction n as [|n IH]; intros p; [reflexivity|]. cbn [bump_any_times]. rewrite IH. apply bump_any_depth. Qed.
Lemma dangling_depth p d : p_depth p = d -> at_depth d (dangling_comment_groups p).
Proof.
  intros H. unfold dangling_comment_groups. fstep; [|exact H]. eapply fa_bind; [apply while_eat_depth; eassumption|]. intros q1 H1.
  fstep. destruct g as [n|].
  - fstep. eapply fa_bind; [apply complete_depth; rewrite bump_any_times_depth; exact H1|]. intros q2 H2. fstep. exact H2.
  - fstep. exact H1.
Qed.
Lemma push_synthetic_depth k a b p d : p_depth p = d -> at_depth d (push_synthetic k a b p).
Proof. intros H. unfold push_synthetic. repeat fstep. exact H. Qed.
Lemma bump_float_depth p d : p_depth p = d -> at_depth d (bump_float_key p).
Proof.
  intros H. unfold bump_float_key. fstep; [apply fa_panic|]. destruct (text_slice _ _ _); [|apply fa_panic].
  fstep; [repeat fstep; fdone|]. destruct (split_dot _) as [|x [|y [|? ?]]]; try apply fa_panic.
  fstep; [apply push_synthetic_depth; exact H|]. fstep; [apply push_synthetic_depth; assumption|].
  fstep; [apply push_synthetic_depth; assumption|]. destruct (p_rest a1); [apply fa_panic|]. fstep. assumption.
Qed.
Lemma eat_key_depth p d : p_depth p = d -> at_depth2 d (eat_key p).
Proof.
  intros H. unfold eat_key. destruct (p_current p); repeat first [apply p_bump_depth | apply bump_float_depth | fstep]; fdone.
Qed.
Lemma dotted_keys_depth fuel d : forall he p, p_depth p = d -> at_depth2 d (dotted_keys fuel he p).
Proof.
  induction fuel as [|fuel IH]; intros he p H; [apply fa_diverge|]. cbn [dotted_keys].
  eapply fa_bind; [apply eat_key_depth; exact H|]. intros [ok q] HQ. cbn [snd] in HQ. fstep. fstep; [fstep; fdone|].
  fstep; [repeat fstep; fdone|]. apply IH. congruence.
Qed.
Lemma eat_keys_depth p d : p_depth p = d -> at_depth2 d (eat_keys p).
Proof. intros H. unfold eat_keys. destruct (nth_at _ _ _); [apply dotted_keys_depth|apply eat_key_depth]; exact H. Qed.
Lemma keys_depth p d : p_depth p = d -> at_depth d (keys p).
Proof.
  intros H. unfold keys. fstep. eapply fa_bind; [apply eat_keys_depth; exact H|]. intros [ok q] HQ. apply complete_depth. exact HQ.
Qed.
Lemma keys_or_bomb_depth p d : p_depth p = d -> at_depth d (keys_or_bomb p).
Proof.
  intros H. unfold keys_or_bomb. fstep. eapply fa_bind; [apply eat_keys_depth; exact H|]. intros [ok q] HQ. fstep; [|apply fa_panic].
  apply complete_depth. exact HQ.
Qed.
Lemma literal_depth p d : p_depth p = d -> at_depth d (parse_literal_value p).
Proof. intros H. unfold parse_literal_value. repeat first [apply leading_depth | apply trailing_depth | apply p_bump_depth | fstep]; fdone. Qed.
Lemma invalid_value_depth n p d : p_depth p = d -> at_depth d (parse_invalid_value n p).
Proof.
  intros H. unfold parse_invalid_value. fstep. fstep.
  - fstep; [apply leading_depth|fstep]; fdone.
  - fstep. eapply (fa_bind (fun x => p_depth (snd x))).
    + generalize (S (length (p_rest a))). intros fuel. revert r a H0. induction fuel as [|fuel IH]; intros r a H0; [apply fa_diverge|].
      cbn [invalid_value_loop]. fstep; [apply fa_done; exact H0|]. fstep. apply IH. fdone.
    + intros [r' q] HQ. cbn [snd] in HQ. fstep; [apply trailing_depth; fdone|]. apply complete_depth. assumption.
Qed.
Lemma too_deep_depth p d : p_depth p = d -> at_depth d (skip_too_deep_value p).
Proof.
  intros H. unfold skip_too_deep_value. fstep. fstep; [apply leading_depth; fdone|].
  fstep. eapply (fa_bind (fun x => p_depth (snd x))).
  - generalize (S (length (p_rest a))) 0%nat. intros fuel. revert r a H0. induction fuel as [|fuel IH]; intros r a H0 n; [apply fa_diverge|].
    cbn [skip_deep_loop]. destruct (p_current a); try (fstep; apply IH; fdone); try (apply fa_done; exact H0).
    all: fstep; destruct n as [|[|n]]; [apply fa_panic|apply fa_done; fdone|apply IH; fdone].
  - intros [r' q] HQ. cbn [snd] in HQ. fstep; [apply trailing_depth; fdone|]. apply complete_depth. assumption.
Qed.
Lemma nested_depth inner p d : p_depth p = d ->
  ((d < MAX_RECURSION_DEPTH)%nat -> forall q, p_depth q = S d -> at_depth (S d) (inner q)) -> at_depth d (parse_nested inner p).
Proof.
  intros H HI. unfold parse_nested. destruct (Nat.leb_spec MAX_RECURSION_DEPTH (p_depth p)); [apply too_deep_depth; exact H|].
  eapply fa_bind; [apply HI; [lia|simpl; congruence]|]. intros q HQ. unfold exit_nested. rewrite HQ. apply fa_done. reflexivity.
Qed.
Lemma key_as_value_depth n p d : p_depth p = d -> at_depth d (key_as_value n p).
Proof.
  intros H. unfold key_as_value. repeat first [apply leading_depth | apply trailing_depth | apply keys_or_bomb_depth | fstep]; fdone.
Qed.
Lemma invalid_token_depth p d : p_depth p = d -> at_depth d (invalid_token p).
Proof. intros H. unfold invalid_token. repeat fstep. exact H. Qed.

Definition flat_value (d : nat) (v : pst -> res pst) : Prop := forall p, p_depth p = d -> at_depth d (v p).

Lemma key_value_depth d v p : flat_value d v -> p_depth p = d -> at_depth d (key_value v p).
Proof.
  intros HV H. unfold key_value. repeat first [apply leading_depth | apply trailing_depth | apply keys_depth | apply invalid_token_depth | apply HV | fstep]; fdone.
Qed.
Lemma vwcg_depth d v p : flat_value d v -> p_depth p = d -> at_depth d (value_with_comma_group v p).
Proof.
  intros HV H. unfold value_with_comma_group. repeat first [apply comma_depth | apply HV | fstep]; fdone.
Qed.
Lemma kvwcg_depth d v p : flat_value d v -> p_depth p = d -> at_depth d (key_value_with_comma_group v p).
Proof.
  intros HV H. unfold key_value_with_comma_group. repeat first [apply comma_depth | apply key_value_depth; [exact HV|] | fstep]; fdone.
Qed.
Lemma kvg_depth d v p : flat_value d v -> p_depth p = d -> at_depth d (key_value_group v p).
Proof.
  intros HV H. unfold key_value_group. repeat first [apply comma_depth | apply key_value_depth; [exact HV|] | fstep]; fdone.
Qed.
Lemma bracketed_depth d open close ends g e node p : flat_value d g -> p_depth p = d -> at_depth d (bracketed open close ends g e node p).
Proof.
  intros HV H. unfold bracketed.
  repeat first [apply leading_depth | apply trailing_depth | apply while_eat_depth | apply dangling_depth | apply HV | fstep]; fdone.
Qed.

Lemma value_depth stack d : (MAX_RECURSION_DEPTH < stack + d)%nat -> (d <= MAX_RECURSION_DEPTH)%nat -> flat_value d (value stack).
Proof.
  revert d. induction stack as [|stack IH]; intros d HS HD p H; [lia|]. cbn [value]. fstep.
  destruct (nth_kind n p); try (apply literal_depth; exact H); try (apply invalid_value_depth; exact H); try (apply key_as_value_depth; exact H).
  - apply nested_depth; auto. intros HL q HQ. apply bracketed_depth; auto. intros q2 H2. apply vwcg_depth; auto. apply IH; lia.
  - apply nested_depth; auto. intros HL q HQ. apply bracketed_depth; auto. intros q2 H2. apply kvwcg_depth; auto. apply IH; lia.
Qed.
Lemma section_lines_depth d v p : flat_value d v -> p_depth p = d -> at_depth d (section_lines v p).
Proof.
  intros HV H. unfold section_lines.
  repeat first [apply while_eat_depth | apply dangling_depth | apply invalid_line_depth | apply kvg_depth; [exact HV|] | fstep]; fdone.
Qed.
Lemma section_depth d open close e node v p : flat_value d v -> p_depth p = d -> at_depth d (section open close e node v p).
Proof.
  intros HV H. unfold section.
  repeat first [apply leading_depth | apply trailing_depth | apply keys_depth | apply invalid_line_depth | apply section_lines_depth; [exact HV|] | fstep]; fdone.
Qed.
Lemma unknown_depth p d : p_depth p = d -> at_depth d (unknown_line p).
Proof.
  intros H. unfold unknown_line. repeat first [apply leading_depth | apply trailing_depth | apply skip_until_depth | fstep]; fdone.
Qed.
Lemma root_depth d v p : flat_value d v -> p_depth p = d -> at_depth d (root v p).
Proof.
  intros HV H. unfold root.
  repeat first [apply while_eat_depth | apply section_lines_depth; [exact HV|] | apply section_depth; [exact HV|] | apply unknown_depth | fstep]; fdone.
Qed.

(** The tree builder does not recurse. *)
Lemma do_token_deep k n b : no_deep (do_token k n b).
Proof. unfold do_token. repeat match goal with |- context [match ?x with _ => _ end] => destruct x end; discriminate. Qed.
Lemma bind_deep {A B} (m : res A) (f : A -> res B) : no_deep m -> (forall a, no_deep (f a)) -> no_deep (bind m f).
Proof. intros H1 H2. destruct m; simpl; auto; discriminate. Qed.
Lemma eat_trivias_deep b : no_deep (eat_trivias b).
Proof.
  unfold eat_trivias. generalize (S (length (b_rest b))). intros fuel. revert b. induction fuel as [|fuel IH]; intros b; [discriminate|].
  cbn [eat_trivias_]. destruct (b_rest b); [discriminate|]. destruct (negb _); [discriminate|]. apply bind_deep; [apply do_token_deep|apply IH].
Qed.
Lemma b_steps_deep ss b : no_deep (b_steps ss b).
Proof.
  revert b. induction ss as [|s ss IH]; intros b; [discriminate|]. cbn [b_steps]. apply bind_deep; [|apply IH].
  destruct s; unfold b_token, b_enter, b_exit; try discriminate; destruct (b_state b); try discriminate;
    apply bind_deep; intros; try apply eat_trivias_deep; try apply do_token_deep; discriminate.
Qed.
Lemma build_deep source ts ss : no_deep (build_green_tree source ts ss).
Proof.
  unfold build_green_tree, intersperse_trivia. apply bind_deep.
  - apply bind_deep; [apply b_steps_deep|]. intros b. destruct (b_state b); try discriminate.
    apply bind_deep; [apply eat_trivias_deep|discriminate].
  - intros st. apply bind_deep.
    + generalize (MkG [] [] []). induction st as [|s st IH]; intros g; [discriminate|]. cbn [g_steps]. apply bind_deep; [|apply IH].
      destruct s; simpl; try discriminate. destruct (g_parents g) as [|[? ?] ?]; discriminate.
    + intros g. unfold g_finish. destruct (g_children g) as [|[|] [|]]; discriminate.
Qed.

Lemma parse_deep seg stack source : (MAX_RECURSION_DEPTH < stack)%nat -> no_deep (parse seg stack source).
Proof.
  intros HS. unfold parse. destruct (lex seg source); [|discriminate].
  destruct (root_depth 0 (value stack) (parser_new source (tokens l))) as [H1 _]; auto.
  { apply value_depth; [lia|apply Nat.le_0_l]. }
  apply bind_deep; [exact H1|]. intros p. destruct (finish p). apply bind_deep; [apply build_deep|]. intros [? ?]. discriminate.
Qed.
