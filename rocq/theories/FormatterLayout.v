(** What the formatter writes, as a grammar: the proof that every step of the model writes a layout of what it
    is given.  The theorems about formatted documents are read off this grammar. *)
From Coq Require Import String Ascii List NArith Bool Arith Lia.
From Verif Require Import Base SyntaxKind TextModel LexerModel LexerSpec TomlTextModel ParserModel ParserBuild AstModel
  FormatPieces DateTimeModel FormatterModel.
Import ListNotations.
Open Scope N_scope.
Open Scope list_scope.

(** * Induction over values *)
Section Induction.
Context (P : fval -> Prop).
Definition group_all (Q : fval -> Prop) (g : group (item fval)) : Prop :=
  match g with GD _ _ => True | GI _ its => Forall (fun i => Q (ival i)) its end.
Context (HL : forall lead k tok tc, P (FLit lead k tok tc))
  (HB : forall table lead otc gs tc, Forall (group_all P) gs -> P (FBox table lead otc gs tc)).
Fixpoint fval_ind' (v : fval) : P v :=
  match v with
  | FLit lead k tok tc => HL lead k tok tc
  | FBox table lead otc gs tc => HB table lead otc gs tc
      ((fix go (gs : list (group (item fval))) : Forall (group_all P) gs :=
        match gs with
        | [] => Forall_nil _
        | g :: gs' => Forall_cons g
            (match g return group_all P g with
             | GD _ _ => I
             | GI b its => (fix gi (its : list (item fval)) : Forall (fun i => P (ival i)) its :=
                 match its with
                 | [] => Forall_nil _
                 | i :: its' => Forall_cons i (match i return P (ival i) with Item _ _ _ v _ => fval_ind' v end) (gi its')
                 end) its
             end) (go gs')
        end) gs)
  end.
End Induction.

(** * The documents the parser makes *)
Definition key_kind (k : kind) : bool := existsb (kind_eqb k) [BARE_KEY; BASIC_STRING; LITERAL_STRING].
Definition wf_keys (ks : list fkey) : bool := nonempty ks && forallb (fun k => key_kind (fst k)) ks.
Definition wf_item (table : bool) (i : item fval) : bool :=
  match i with
  | Item lead ks _ v _ =>
      if table then wf_keys ks && negb (nonempty (vlead v)) else negb (nonempty ks) && negb (nonempty lead)
  end.
(** A group has a comment or an item; an item of a table has a key and nothing between the equals sign and the value. *)
Definition literal_kind (k : kind) : bool :=
  existsb (kind_eqb k) [BASIC_STRING; MULTI_LINE_BASIC_STRING; LITERAL_STRING; MULTI_LINE_LITERAL_STRING; INTEGER_DEC;
    INTEGER_BIN; INTEGER_OCT; INTEGER_HEX; FLOAT; BOOLEAN; OFFSET_DATE_TIME; LOCAL_DATE_TIME; LOCAL_DATE; LOCAL_TIME].
Fixpoint wf_value (v : fval) : bool :=
  match v with
  | FLit _ k _ _ => literal_kind k
  | FBox table _ _ gs _ =>
      forallb (fun g => match g with
        | GD _ cs => nonempty cs
        | GI _ its => nonempty its && forallb (fun i => match i with Item l ks r v c => wf_item table (Item l ks r v c) && wf_value v end) its
        end) gs
  end.
Definition wf_group (g : group (item fval)) : bool :=
  match g with
  | GD _ cs => nonempty cs
  | GI _ its => nonempty its && forallb (fun i => wf_item true i && wf_value (ival i)) its
  end.
Definition wf_table (t : ftable) : bool := wf_keys (t_keys t) && forallb wf_group (t_groups t).
Definition wf_doc (d : fdoc) : bool := forallb wf_group (d_groups d) && forallb wf_table (d_tables d).

(** * The grammar of layouts *)
Section Layout.
(** [le] is a line ending, [limit] the most blank lines in a row; [rc], [rk] and [rl] relate a comment, a key and
    a literal to what is written for it. *)
Context (le : str) (limit : N) (rc : str -> str -> Prop) (rk : fkey -> piece -> Prop) (rl : kind -> str -> piece -> Prop).

Definition blank_text (s : str) : Prop := s <> [] /\ Forall (fun c => c = 32 \/ c = 9) s.
Definition blanks (ps : list piece) : Prop := Forall (fun p => fst p = WHITESPACE /\ blank_text (snd p)) ps.
Definition nl : piece := (LINE_BREAK, le).
Definition comma_piece : piece := (COMMA, [44]).
Inductive comment_lines : list str -> list piece -> Prop :=
| cl_nil : comment_lines [] []
| cl_cons c cs c' b ps : blanks b -> rc c c' -> comment_lines cs ps ->
    comment_lines (c :: cs) (b ++ (COMMENT, c') :: nl :: ps).
Inductive dangling : list str -> list piece -> Prop :=
| dg_one c c' b : blanks b -> rc c c' -> dangling [c] (b ++ [(COMMENT, c')])
| dg_cons c cs c' b ps : blanks b -> rc c c' -> dangling cs ps -> dangling (c :: cs) (b ++ (COMMENT, c') :: nl :: ps).
Inductive tail : option str -> list piece -> Prop :=
| tail_none : tail None []
| tail_some c c' b : blanks b -> rc c c' -> tail (Some c) (b ++ [(COMMENT, c')]).
Inductive lay_keys : list fkey -> list piece -> Prop :=
| lk_one k p : rk k p -> lay_keys [k] [p]
| lk_cons k p ks ps : rk k p -> lay_keys ks ps -> lay_keys (k :: ks) (p :: (DOT, [46]) :: ps).
Inductive lay_comma : bool -> option fcomma -> list piece -> Prop :=
| lc_none h : lay_comma h None []
| lc_plain tc pt : tail tc pt -> lay_comma false (Some (Comma [] tc)) (comma_piece :: pt)
| lc_line tc b pt : blanks b -> tail tc pt -> lay_comma true (Some (Comma [] tc)) (nl :: b ++ comma_piece :: pt)
| lc_lead h c cs pl tc b pt : comment_lines (c :: cs) pl -> blanks b -> tail tc pt ->
    lay_comma h (Some (Comma (c :: cs) tc)) (nl :: pl ++ b ++ comma_piece :: pt).
Definition separator (written : bool) (blank : N) : list piece :=
  if written then repeat nl (S (N.to_nat (N.min blank limit))) else [].
(** An item that can be on one line with others: there is no comment of its own *)
Definition quiet (i : item fval) : Prop :=
  match i with Item lead _ _ v c => lead = [] /\ vtc v = None /\ (c = None \/ c = Some (Comma [] None)) end.

Inductive lay_value : fval -> list piece -> Prop :=
| lay_lit lead k tok tc pl b p pt : comment_lines lead pl -> blanks b -> rl k tok p -> tail tc pt ->
    lay_value (FLit lead k tok tc) (pl ++ b ++ p :: pt)
| lay_multi table lead otc gs tc pl b po pg b' pt : comment_lines lead pl -> blanks b -> tail otc po ->
    lay_groups false gs pg -> blanks b' -> tail tc pt ->
    lay_value (FBox table lead otc gs tc) (pl ++ b ++ open_piece table :: po ++ nl :: pg ++ nl :: b' ++ close_piece table :: pt)
| lay_single table lead gs tc pl b b1 pg b2 pt : comment_lines lead pl -> blanks b -> blanks b1 ->
    forallb (fun g => match g with GD _ _ => false | GI _ _ => true end) gs = true ->
    Forall quiet (items_of gs) -> lay_line (items_of gs) pg -> blanks b2 -> tail tc pt ->
    lay_value (FBox table lead None gs tc) (pl ++ b ++ open_piece table :: b1 ++ pg ++ b2 ++ close_piece table :: pt)
with lay_item : item fval -> list piece -> Prop :=
| lay_plain raw v c ps : lay_value v ps -> lay_item (Item [] [] raw v c) ps
| lay_kv lead ks raw v c pl b pk b1 b2 pv : comment_lines lead pl -> blanks b -> lay_keys ks pk -> blanks b1 -> blanks b2 ->
    lay_value v pv -> lay_item (Item lead ks raw v c) (pl ++ b ++ pk ++ b1 ++ (EQUAL, [61]) :: b2 ++ pv)
with lay_lines : list (item fval) -> list piece -> Prop :=
| ll_one i pi pc : lay_item i pi -> lay_comma (is_some (vtc (ival i))) (icomma i) pc -> lay_lines [i] (pi ++ pc)
| ll_cons i its pi pc ps : lay_item i pi -> lay_comma (is_some (vtc (ival i))) (icomma i) pc -> lay_lines its ps ->
    lay_lines (i :: its) (pi ++ pc ++ nl :: ps)
with lay_groups : bool -> list (group (item fval)) -> list piece -> Prop :=
| lg_nil w : lay_groups w [] []
| lg_dangling w b cs gs pc ps : dangling cs pc -> lay_groups true gs ps -> lay_groups w (GD b cs :: gs) (separator w b ++ pc ++ ps)
| lg_items w b its gs pi ps : lay_lines its pi -> lay_groups true gs ps -> lay_groups w (GI b its :: gs) (separator w b ++ pi ++ ps)
with lay_line : list (item fval) -> list piece -> Prop :=
| ls_nil : lay_line [] []
| ls_one i pi : lay_item i pi -> lay_line [i] pi
| ls_cons i its pi b ps : lay_item i pi -> blanks b -> its <> [] -> lay_line its ps -> lay_line (i :: its) (pi ++ comma_piece :: b ++ ps).

(** The lines of key/values of a table or of the root *)
Inductive lay_line_comma : bool -> option fcomma -> list piece -> Prop :=
| lt_none h : lay_line_comma h None []
| lt_dropped h : lay_line_comma h (Some (Comma [] None)) []
| lt_tail tc pt : tail (Some tc) pt -> lay_line_comma false (Some (Comma [] (Some tc))) pt
| lt_line tc b pt : blanks b -> tail (Some tc) pt -> lay_line_comma true (Some (Comma [] (Some tc))) (nl :: b ++ comma_piece :: pt)
| lt_lead h c cs pl tc b pt : comment_lines (c :: cs) pl -> blanks b -> tail tc pt ->
    lay_line_comma h (Some (Comma (c :: cs) tc)) (nl :: pl ++ b ++ comma_piece :: pt).
Inductive lay_kvs : list (item fval) -> list piece -> Prop :=
| lkv_one i pi pc : lay_item i pi -> lay_line_comma (is_some (vtc (ival i))) (icomma i) pc -> lay_kvs [i] (pi ++ pc)
| lkv_cons i its pi pc ps : lay_item i pi -> lay_line_comma (is_some (vtc (ival i))) (icomma i) pc -> lay_kvs its ps ->
    lay_kvs (i :: its) (pi ++ pc ++ nl :: ps).
Inductive lay_blocks : bool -> list (group (item fval)) -> list piece -> Prop :=
| lb_nil w : lay_blocks w [] []
| lb_dangling w b cs gs pc ps : dangling cs pc -> lay_blocks true gs ps -> lay_blocks w (GD b cs :: gs) (separator w b ++ pc ++ ps)
| lb_items w b its gs pi ps : lay_kvs its pi -> lay_blocks true gs ps -> lay_blocks w (GI b its :: gs) (separator w b ++ pi ++ ps).
Definition brackets (array : bool) (p : piece) : list piece := if array then [p; p] else [p].
Inductive lay_table : ftable -> list piece -> Prop :=
| lay_t a lead ks tc gs blank pl b pk pt pg : comment_lines lead pl -> blanks b -> lay_keys ks pk -> tail tc pt -> lay_blocks false gs pg ->
    lay_table (FTable a lead ks tc gs blank)
      (pl ++ b ++ brackets a (BRACKET_START, [91]) ++ pk ++ brackets a (BRACKET_END, [93]) ++ pt
       ++ (match gs with [] => [] | _ => nl :: pg end)).
Inductive lay_tables (gap : ftable -> ftable -> nat) : list ftable -> list piece -> Prop :=
| lts_one t ps : lay_table t ps -> lay_tables gap [t] ps
| lts_cons t t' ts pt ps : lay_table t pt -> lay_tables gap (t' :: ts) ps ->
    lay_tables gap (t :: t' :: ts) (pt ++ nl :: repeat nl (gap t t') ++ ps).
(** [rgap]: the blank lines between the key/values of the root and the first table *)
Inductive lay_root (gap : ftable -> ftable -> nat) (rgap : list (group (item fval)) -> ftable -> nat) : fdoc -> list piece -> Prop :=
| lr_no_table gs ps : lay_blocks false gs ps -> lay_root gap rgap (FDoc gs []) ps
| lr_tables gs t ts pg ps : lay_blocks false gs pg -> lay_tables gap (t :: ts) ps ->
    lay_root gap rgap (FDoc gs (t :: ts)) (pg ++ (match gs with [] => [] | _ => nl :: repeat nl (rgap gs t) end) ++ ps).
End Layout.

Scheme lay_value_mut := Induction for lay_value Sort Prop
  with lay_item_mut := Induction for lay_item Sort Prop
  with lay_lines_mut := Induction for lay_lines Sort Prop
  with lay_groups_mut := Induction for lay_groups Sort Prop
  with lay_line_mut := Induction for lay_line Sort Prop.
Combined Scheme lay_mutind from lay_value_mut, lay_item_mut, lay_lines_mut, lay_groups_mut, lay_line_mut.

(** * Every step writes a layout *)
Section Writes.
Context (cfg : defs) (gr : str -> N) (dir : str -> option str).
Definition rcomment (c c' : str) : Prop := exists strip, comment_text cfg dir strip c = Some c'.
Definition rkey (k : fkey) (p : piece) : Prop := key_piece cfg k = Some p.
Definition rliteral (k : kind) (tok : str) (p : piece) : Prop := literal_piece cfg k tok = Some p.
Let le := f_line_ending cfg.
Let limit := f_group_blank_lines_limit cfg.

(** Comments are written, and values may be split *)
Definition usual (f : fmt) : Prop := f_skip_comment f = false /\ f_single_line f = false.
Definition wrote (f : fmt) (ps : list piece) (f' : fmt) : Prop :=
  usual f' /\ f_buf f' = f_buf f ++ ps.
Definition wr (m : fm) (P : list piece -> Prop) : Prop :=
  forall f f', usual f -> m f = Some f' -> exists ps, wrote f ps f' /\ P ps.

Lemma wr_weak m (P Q : list piece -> Prop) : wr m P -> (forall ps, P ps -> Q ps) -> wr m Q.
Proof. intros H HQ f f' U E. destruct (H f f' U E) as (ps & W & HP). eauto. Qed.
Lemma wr_ret : wr m_ret (fun ps => ps = []).
Proof. intros f f' U E. injection E as <-. exists []. split; [split; [exact U|now rewrite app_nil_r]|reflexivity]. Qed.
Definition then_ (P Q : list piece -> Prop) (ps : list piece) : Prop := exists x y, ps = x ++ y /\ P x /\ Q y.
Lemma wr_seq a b P Q : wr a P -> wr b Q -> wr (a ;; b) (then_ P Q).
Proof.
  intros HA HB f f' U E. unfold m_seq in E. destruct (a f) as [g|] eqn:Ea; [|discriminate].
  destruct (HA f g U Ea) as (x & (Ug & Bg) & Px). destruct (HB g f' Ug E) as (y & (Uf & Bf) & Qy).
  exists (x ++ y). split; [split; [exact Uf|now rewrite Bf, Bg, app_assoc]|]. exists x, y. auto.
Qed.
Lemma wr_panic P : wr (fun _ => None) P.
Proof. intros f f' _ E. discriminate. Qed.
Lemma wr_nothing m (P : list piece -> Prop) : (forall f f', m f = Some f' -> f_skip_comment f' = f_skip_comment f /\ f_single_line f' = f_single_line f /\ f_buf f' = f_buf f) ->
  P [] -> wr m P.
Proof.
  intros H HP f f' [U1 U2] E. destruct (H f f' E) as (A & B & C). exists [].
  split; [split; [split; congruence|rewrite app_nil_r; congruence]|exact HP].
Qed.
Lemma wr_write k s : k <> WHITESPACE -> wr (write k s) (fun ps => ps = [(k, s)]).
Proof.
  intros Hk f f' U E. injection E as <-. exists [(k, s)]. split; [|reflexivity]. split; [exact U|].
  cbn [f_buf]. rewrite (proj2 (kind_eqb_neq k WHITESPACE) Hk), orb_true_r. reflexivity.
Qed.
Lemma wr_blank s : Forall (fun c => c = 32 \/ c = 9) s -> wr (write WHITESPACE s) blanks.
Proof.
  intros Hs f f' U E. injection E as <-. destruct s as [|c s].
  - exists []. split; [split; [exact U|cbn; now rewrite app_nil_r]|constructor].
  - exists [(WHITESPACE, c :: s)]. split; [split; [exact U|reflexivity]|].
    apply Forall_cons; [|constructor]. split; [reflexivity|]. split; [discriminate|exact Hs].
Qed.
Lemma wr_spaces n : wr (write_spaces n) blanks.
Proof. apply wr_blank. unfold spaces. induction (N.to_nat n); cbn; constructor; auto. Qed.
Lemma wr_when c m P : wr m P -> wr (m_when c m) (fun ps => if c then P ps else ps = []).
Proof. intros H. destruct c; [exact H|exact wr_ret]. Qed.

Lemma wr_line : wr (write_line_ending cfg) (fun ps => ps = [nl le]).
Proof. apply wr_write. discriminate. Qed.
Lemma wr_m_iter {A} (g : A -> fm) (p : list piece) l : (forall a, wr (g a) (fun ps => ps = p)) ->
  wr (m_iter g l) (fun ps => ps = concat (repeat p (length l))).
Proof.
  intros H. induction l as [|a l IH]; [exact wr_ret|].
  cbn. eapply wr_weak; [eapply wr_seq; [apply H|exact IH]|]. intros ps (x & y & -> & -> & ->). reflexivity.
Qed.
Lemma concat_single {A} (p : A) n : concat (repeat [p] n) = repeat p n.
Proof. induction n; cbn; congruence. Qed.
Lemma wr_blank_lines n : wr (write_blank_lines cfg n) (fun ps => ps = repeat (nl le) (S (N.to_nat n))).
Proof.
  eapply wr_weak; [apply (wr_m_iter _ [nl le]); intros; apply wr_line|].
  intros ps ->. rewrite repeat_length, concat_single. reflexivity.
Qed.
Lemma repeat_tab n : Forall (fun c => c = 32 \/ c = 9) (repeat 9 n).
Proof. induction n; cbn; constructor; auto. Qed.
Lemma wr_indent : wr (write_indent cfg) blanks.
Proof.
  intros f f' U E. unfold write_indent in E. destruct (f_skip_indent f).
  - injection E as <-. exists []. split; [split; [exact U|cbn; now rewrite app_nil_r]|constructor].
  - unfold indent in E. destruct (f_indent_tab cfg).
    + cbn [write_opt] in E. exact (wr_blank _ (repeat_tab _) f f' U E).
    + destruct (_ <? 256); [|discriminate]. exact (wr_spaces _ f f' U E).
Qed.
Lemma wr_set_skip b (P : list piece -> Prop) : P [] -> wr (set_skip b) P.
Proof. apply wr_nothing. intros f f' E. injection E as <-. auto. Qed.
Lemma wr_inc (P : list piece -> Prop) : P [] -> wr inc_indent P.
Proof. apply wr_nothing. intros f f' E. unfold inc_indent in E. destruct (_ <? 255); [|discriminate]. injection E as <-. auto. Qed.
Lemma wr_dec (P : list piece -> Prop) : P [] -> wr dec_indent P.
Proof. apply wr_nothing. intros f f' E. injection E as <-. auto. Qed.
Lemma wr_depth d (P : list piece -> Prop) : P [] -> wr (set_depth d) P.
Proof. apply wr_nothing. intros f f' E. injection E as <-. auto. Qed.

Lemma blanks_app a b : blanks a -> blanks b -> blanks (a ++ b).
Proof. unfold blanks. intros. apply Forall_app. auto. Qed.

Lemma wr_comment strip c : wr (fmt_comment cfg dir strip c) (fun ps => exists c', rcomment c c' /\ ps = [(COMMENT, c')]).
Proof.
  unfold fmt_comment. destruct (comment_text cfg dir strip c) as [c'|] eqn:E; [|apply wr_panic].
  cbn [write_opt]. eapply wr_weak; [apply wr_write; discriminate|]. intros ps ->. exists c'. split; [exists strip; exact E|reflexivity].
Qed.
Lemma wr_unless m P : wr m P -> wr (fun f => m_when (negb (f_skip_comment f)) m f) P.
Proof. intros H f f' U E. destruct U as [U1 U2]. rewrite U1 in E. cbn in E. apply (H f f'); [split; assumption|exact E]. Qed.


Ltac split_then := repeat match goal with
  | H : then_ _ _ _ |- _ => let x := fresh "x" in let y := fresh "y" in destruct H as (x & y & ? & ? & ?)
  | H : exists _, _ |- _ => destruct H as [? ?]
  | H : _ /\ _ |- _ => destruct H as [? ?]
  end; subst.

Lemma wr_leading_lines cs : forall b, wr (m_iter_first (fun first c => write_indent cfg ;; fmt_comment cfg dir first c ;; write_line_ending cfg) b cs)
  (comment_lines le rcomment cs).
Proof.
  induction cs as [|c cs IH]; intros b; cbn.
  - eapply wr_weak; [apply wr_ret|]. intros ps ->. constructor.
  - eapply wr_weak; [eapply wr_seq; [|apply (IH false)]; eapply wr_seq; [apply wr_indent|eapply wr_seq; [apply wr_comment|apply wr_line]]|].
    intros ps H. split_then. rewrite <- !app_assoc. cbn. constructor; assumption.
Qed.
Lemma wr_leading cs : wr (fmt_leading cfg dir cs) (comment_lines le rcomment cs).
Proof. apply wr_unless, wr_leading_lines. Qed.
Lemma wr_dangling_lines cs : cs <> [] -> forall b, wr (m_iter_first (fun first c => m_when (negb first) (write_line_ending cfg) ;; write_indent cfg ;; fmt_comment cfg dir first c) b cs)
  (fun ps => exists qs, dangling le rcomment cs qs /\ ps = if b then qs else nl le :: qs).
Proof.
  induction cs as [|c cs IH]; intros HN b; [contradiction|].
  destruct cs as [|c2 cs].
  - cbn. eapply wr_weak; [eapply wr_seq; [|apply wr_ret]; eapply wr_seq; [apply wr_when, wr_line|eapply wr_seq; [apply wr_indent|apply wr_comment]]|].
    intros ps H. split_then. rewrite app_nil_r. eexists. split; [apply dg_one; eassumption|]. destruct b; cbn in *; subst; reflexivity.
  - cbn [m_iter_first]. eapply wr_weak; [eapply wr_seq; [|apply (IH ltac:(discriminate) false)]; eapply wr_seq; [apply wr_when, wr_line|eapply wr_seq; [apply wr_indent|apply wr_comment]]|].
    intros ps H. split_then. eexists. split; [eapply dg_cons; eassumption|].
    destruct b; cbn in *; subst; cbn; rewrite <- ?app_assoc; reflexivity.
Qed.
Lemma wr_dangling cs : cs <> [] -> wr (fmt_dangling cfg dir cs) (dangling le rcomment cs).
Proof.
  intros H. apply wr_unless. eapply wr_weak; [apply (wr_dangling_lines cs H true)|]. intros ps (qs & D & ->). exact D.
Qed.
Lemma wr_trailing c : wr (fmt_trailing cfg dir c) (tail rcomment (Some c)).
Proof.
  apply wr_unless. eapply wr_weak; [eapply wr_seq; [apply wr_spaces|apply wr_comment]|].
  intros ps H. split_then. constructor; assumption.
Qed.
Lemma wr_trailing_opt al tc : wr (fmt_trailing_opt cfg gr dir al tc) (tail rcomment tc).
Proof.
  destruct tc as [c|]; cbn [fmt_trailing_opt].
  - eapply wr_weak; [eapply wr_seq; [|apply wr_trailing]|].
    + instantiate (1 := blanks). intros f f' U E. unfold write_alignment_space in E. destruct al.
      * exact (wr_spaces _ f f' U E).
      * destruct (wr_ret f f' U E) as (ps & W & ->). exists []. split; [exact W|constructor].
    + intros ps H. split_then. inversion H1; subst. rewrite app_assoc. constructor; [apply blanks_app; assumption|assumption].
  - eapply wr_weak; [apply wr_ret|]. intros ps ->. constructor.
Qed.
Lemma wr_separator b : wr (fmt_separator cfg b) (fun ps => ps = separator le limit true b).
Proof.
  unfold fmt_separator. destruct (_ =? 0) eqn:E.
  - apply N.eqb_eq in E. eapply wr_weak; [apply wr_line|]. intros ps ->. unfold separator, limit. rewrite E. reflexivity.
  - apply wr_blank_lines.
Qed.

Lemma string_kind_not s : string_kind s = BASIC_STRING \/ string_kind s = LITERAL_STRING.
Proof. unfold string_kind. destruct s as [|c s]; [auto|]. destruct c as [|c]; auto. do 6 (destruct c as [c|c|]; auto). Qed.
Lemma key_piece_kind k p : key_piece cfg k = Some p -> fst p = BARE_KEY \/ fst p = BASIC_STRING \/ fst p = LITERAL_STRING.
Proof.
  unfold key_piece. destruct k as [k s]; cbn [fst snd].
  destruct k; try (intros E; injection E as <-; cbn; auto; fail); intros E;
  [destruct (format_basic_string_quote_style s (f_key_quote_style cfg)) as [t|]|destruct (format_literal_string_quote_style s (f_key_quote_style cfg)) as [t|]];
  try discriminate; cbn in E; injection E as <-; cbn; destruct (string_kind_not t); auto.
Qed.
Lemma literal_piece_kind k s p : literal_piece cfg k s = Some p ->
  fst p = k \/ ((k = BASIC_STRING \/ k = LITERAL_STRING) /\ (fst p = BASIC_STRING \/ fst p = LITERAL_STRING)).
Proof.
  intros E. destruct k; cbn in E; try (injection E as <-; cbn; auto; fail).
  - destruct (format_basic_string_quote_style s (f_string_quote_style cfg)) as [t|]; [|discriminate]. injection E as <-. cbn. destruct (string_kind_not t); auto.
  - destruct (format_literal_string_quote_style s (f_string_quote_style cfg)) as [t|]; [|discriminate]. injection E as <-. cbn. destruct (string_kind_not t); auto.
  - destruct (format_date_time (f_date_time_delimiter cfg) s) as [t|]; [|discriminate]. injection E as <-. auto.
  - destruct (format_date_time (f_date_time_delimiter cfg) s) as [t|]; [|discriminate]. injection E as <-. auto.
Qed.
Lemma wr_piece p : fst p <> WHITESPACE -> wr (write_piece (Some p)) (fun ps => ps = [p]).
Proof. destruct p as [k s]. intros H. apply (wr_write k s H). Qed.
Lemma wr_keys_from ks : ks <> [] -> forall b, wr (m_iter_first (fun first k => m_when (negb first) (write DOT [46]) ;; write_piece (key_piece cfg k)) b ks)
  (fun ps => exists qs, lay_keys rkey ks qs /\ ps = if b then qs else (DOT, [46]) :: qs).
Proof.
  induction ks as [|k ks IH]; intros HN b; [contradiction|]. cbn [m_iter_first].
  destruct (key_piece cfg k) as [p|] eqn:EK.
  2: { intros f f' U E. unfold m_seq in E. destruct (m_when (negb b) (write DOT [46]) f); discriminate. }
  assert (HK : fst p <> WHITESPACE) by (destruct (key_piece_kind _ _ EK) as [E|[E|E]]; rewrite E; discriminate).
  destruct ks as [|k2 ks].
  - cbn. eapply wr_weak; [eapply wr_seq; [|apply wr_ret]; eapply wr_seq; [apply wr_when, wr_write; discriminate|apply (wr_piece p HK)]|].
    intros ps H. split_then. exists [p]. split; [constructor; exact EK|]. destruct b; cbn in *; subst; reflexivity.
  - eapply wr_weak; [eapply wr_seq; [|apply (IH ltac:(discriminate) false)]; eapply wr_seq; [apply wr_when, wr_write; discriminate|apply (wr_piece p HK)]|].
    intros ps H. split_then. eexists. split; [eapply lk_cons; [exact EK|eassumption]|]. destruct b; cbn in *; subst; reflexivity.
Qed.
Lemma wr_keys w ks : ks <> [] -> wr (fmt_keys cfg gr w ks) (fun ps => exists qs b, lay_keys rkey ks qs /\ blanks b /\ ps = qs ++ b).
Proof.
  intros HN f f' U E. unfold fmt_keys in E. destruct w as [w|].
  - destruct (opt_all (key_piece cfg) ks); [|discriminate]. destruct (alignment_width _ _); [|discriminate]. destruct (w <? n); [discriminate|].
    assert (HW : wr (write_keys cfg ks ;; write_spaces (w - n)) (fun ps => exists qs b, lay_keys rkey ks qs /\ blanks b /\ ps = qs ++ b)).
    { eapply wr_weak; [eapply wr_seq; [apply (wr_keys_from ks HN true)|apply wr_spaces]|]. intros ps H. split_then. eauto. }
    exact (HW f f' U E).
  - destruct (wr_keys_from ks HN true f f' U E) as (ps & W & qs & L & ->). exists qs. split; [exact W|]. exists qs, []. rewrite app_nil_r. repeat split; [exact L|constructor].
Qed.
Lemma literal_not_blank k s p : literal_kind k = true -> literal_piece cfg k s = Some p -> fst p <> WHITESPACE.
Proof.
  intros HK E. destruct (literal_piece_kind _ _ _ E) as [->|[_ [-> | ->]]]; try discriminate. intros ->. discriminate.
Qed.
Lemma wr_literal al lead k tok tc : literal_kind k = true ->
  wr (fmt_literal cfg gr dir al lead k tok tc) (lay_value le limit rcomment rkey rliteral (FLit lead k tok tc)).
Proof.
  intros HK. unfold fmt_literal. destruct (literal_piece cfg k tok) as [p|] eqn:E.
  - eapply wr_weak; [eapply wr_seq; [apply wr_leading|eapply wr_seq; [apply wr_indent|eapply wr_seq; [apply wr_piece, (literal_not_blank _ _ _ HK E)|apply wr_trailing_opt]]]|].
    intros ps H. split_then. cbn. constructor; assumption.
  - eapply wr_weak; [eapply wr_seq; [apply wr_leading|eapply wr_seq; [apply wr_indent|eapply (wr_seq _ _ (fun _ => False)); [apply wr_panic|apply wr_trailing_opt]]]|].
    intros ps H. split_then. contradiction.
Qed.

Notation LV := (lay_value le limit rcomment rkey rliteral).
Notation LI := (lay_item le limit rcomment rkey rliteral).
Lemma wr_item fv ea al table i : wf_item table i = true -> (forall al, wr (fv al (ival i)) (LV (ival i))) ->
  wr (fmt_item cfg gr dir fv ea al i) (LI i).
Proof.
  destruct i as [lead ks raw v c]. cbn [wf_item ival]. intros HW HV. destruct ks as [|k ks]; cbn [fmt_item].
  - destruct table; [discriminate|]. destruct lead; [|discriminate]. eapply wr_weak; [apply HV|]. intros ps H. constructor. exact H.
  - destruct table; [|discriminate].
    eapply wr_weak; [eapply wr_seq; [apply wr_leading|eapply wr_seq; [apply wr_indent|eapply wr_seq; [apply wr_keys; discriminate|
      eapply wr_seq; [apply wr_spaces|eapply wr_seq; [apply wr_write; discriminate|eapply wr_seq; [apply wr_spaces|
      eapply wr_seq; [apply (wr_set_skip true (fun ps => ps = []) eq_refl)|apply HV]]]]]]]|].
    intros ps H. split_then. cbn [app].
    rewrite <- !app_assoc. rewrite (app_assoc _ _ ((EQUAL, [61]) :: _)).
    apply lay_kv; auto using blanks_app.
Qed.
Lemma wr_comma al h c : wr (fmt_comma cfg gr dir al h c) (lay_comma le rcomment h c).
Proof.
  destruct c as [[lead tc]|]; cbn [fmt_comma].
  2: { eapply wr_weak; [apply wr_ret|]. intros ps ->. constructor. }
  destruct lead as [|c lead]; cbn [nonempty].
  - destruct h.
    + eapply wr_weak; [eapply wr_seq; [eapply wr_seq; [apply wr_line|apply wr_indent]|eapply wr_seq; [apply wr_write; discriminate|apply wr_trailing_opt]]|].
      intros ps H. split_then. cbn. constructor; assumption.
    + eapply wr_weak; [eapply wr_seq; [apply wr_ret|eapply wr_seq; [apply wr_write; discriminate|apply wr_trailing_opt]]|].
      intros ps H. split_then. cbn. constructor; assumption.
  - eapply wr_weak; [eapply wr_seq; [eapply wr_seq; [apply wr_line|eapply wr_seq; [apply wr_leading|apply wr_indent]]|eapply wr_seq; [apply wr_write; discriminate|apply wr_trailing_opt]]|].
    intros ps H. split_then. cbn [app]. rewrite <- ?app_assoc. apply lc_lead; assumption.
Qed.
Lemma wr_line_comma al h c : wr (fmt_line_comma cfg gr dir al h c) (lay_line_comma le rcomment h c).
Proof.
  destruct c as [[lead tc]|]; cbn [fmt_line_comma].
  2: { eapply wr_weak; [apply wr_ret|]. intros ps ->. constructor. }
  destruct tc as [t|].
  - destruct lead as [|c lead]; cbn [nonempty negb andb m_when]; [destruct h; cbn [negb]|].
    + eapply wr_weak; [eapply wr_seq; [apply wr_line|eapply wr_seq; [apply wr_ret|eapply wr_seq; [apply wr_indent|eapply wr_seq; [apply wr_write; discriminate|apply wr_trailing_opt]]]]|].
      intros ps H. split_then. cbn. apply lt_line; assumption.
    + eapply wr_weak; [apply wr_trailing_opt|]. intros ps H. apply lt_tail. exact H.
    + eapply wr_weak; [eapply wr_seq; [apply wr_line|eapply wr_seq; [apply wr_leading|eapply wr_seq; [apply wr_indent|eapply wr_seq; [apply wr_write; discriminate|apply wr_trailing_opt]]]]|].
      intros ps H. split_then. cbn [app]. apply lt_lead; assumption.
  - destruct lead as [|c lead]; cbn [nonempty m_when].
    + eapply wr_weak; [apply wr_ret|]. intros ps ->. constructor.
    + eapply wr_weak; [eapply wr_seq; [apply wr_line|eapply wr_seq; [apply wr_leading|eapply wr_seq; [apply wr_indent|apply wr_write; discriminate]]]|].
      intros ps H. split_then. cbn [app]. eapply lt_lead; try eassumption. constructor.
Qed.

Notation LL := (lay_lines le limit rcomment rkey rliteral).
Notation LG := (lay_groups le limit rcomment rkey rliteral).
Notation LS := (lay_line le limit rcomment rkey rliteral).
Lemma wr_multi_items fv ea al table its : its <> [] ->
  Forall (fun i => wf_item table i = true /\ forall al, wr (fv al (ival i)) (LV (ival i))) its ->
  forall b, wr (m_iter_first (fun first i => m_when (negb first) (write_line_ending cfg) ;; fmt_item cfg gr dir fv ea al i ;;
      fmt_comma cfg gr dir al (match i with Item _ _ _ v _ => is_some (vtc v) end) (icomma i)) b its)
    (fun ps => exists qs, LL its qs /\ ps = if b then qs else nl le :: qs).
Proof.
  induction its as [|i its IH]; intros HN HF b; [contradiction|].
  destruct (Forall_inv HF) as [HW HV]. apply Forall_inv_tail in HF.
  assert (EI : (match i with Item _ _ _ v _ => is_some (vtc v) end) = is_some (vtc (ival i))) by (destruct i; reflexivity).
  cbn [m_iter_first]. rewrite EI. destruct its as [|i2 its].
  - eapply wr_weak; [eapply wr_seq; [eapply wr_seq; [apply wr_when, wr_line|eapply wr_seq; [apply (wr_item fv ea al table i HW HV)|apply wr_comma]]|apply wr_ret]|].
    intros ps H. split_then. rewrite app_nil_r. eexists. split; [eapply ll_one; eassumption|]. destruct b; cbn in *; subst; reflexivity.
  - eapply wr_weak; [eapply wr_seq; [eapply wr_seq; [apply wr_when, wr_line|eapply wr_seq; [apply (wr_item fv ea al table i HW HV)|apply wr_comma]]|apply (IH ltac:(discriminate) HF false)]|].
    intros ps H. split_then. eexists. split; [eapply ll_cons; eassumption|]. destruct b; cbn in *; subst; cbn; rewrite <- ?app_assoc; reflexivity.
Qed.
(** Groups, for any way to write the items *)
Inductive lay_any (P : list (item fval) -> list piece -> Prop) : bool -> list (group (item fval)) -> list piece -> Prop :=
| la_nil w : lay_any P w [] []
| la_dangling w b cs gs pc ps : dangling le rcomment cs pc -> lay_any P true gs ps -> lay_any P w (GD b cs :: gs) (separator le limit w b ++ pc ++ ps)
| la_items w b its gs pi ps : P its pi -> lay_any P true gs ps -> lay_any P w (GI b its :: gs) (separator le limit w b ++ pi ++ ps).
Lemma wr_groups (fi : list (item fval) -> fm) P gs :
  Forall (fun g => match g with GD _ cs => cs <> [] | GI _ its => wr (fi its) (P its) end) gs ->
  forall w, wr (fmt_groups cfg dir fi w gs) (lay_any P w gs).
Proof.
  induction gs as [|g gs IH]; intros HF w.
  - eapply wr_weak; [apply wr_ret|]. intros ps ->. constructor.
  - pose proof (Forall_inv HF) as HG. apply Forall_inv_tail in HF. specialize (IH HF true).
    assert (HS : forall b, wr (m_when w (fmt_separator cfg b)) (fun ps => ps = separator le limit w b)).
    { intros b. eapply wr_weak; [apply wr_when, wr_separator|]. intros ps H. destruct w; exact H. }
    destruct g as [b cs|b its]; cbn [fmt_groups].
    + intros f f' U E. destruct (proj1 U). destruct U as [U1 U2]. rewrite U1 in E. revert E. 
      assert (HW : wr (m_when w (fmt_separator cfg b) ;; fmt_dangling cfg dir cs ;; fmt_groups cfg dir fi true gs) (lay_any P w (GD b cs :: gs))).
      { eapply wr_weak; [eapply wr_seq; [apply HS|eapply wr_seq; [apply (wr_dangling cs HG)|exact IH]]|]. intros ps H. split_then. constructor; assumption. }
      intros E. exact (HW f f' (conj U1 U2) E).
    + eapply wr_weak; [eapply wr_seq; [apply HS|eapply wr_seq; [apply HG|exact IH]]|]. intros ps H. split_then. constructor; assumption.
Qed.
Lemma any_groups w gs ps : lay_any LL w gs ps -> LG w gs ps.
Proof. induction 1; constructor; assumption. Qed.
Notation LK := (lay_kvs le limit rcomment rkey rliteral).
Notation LB := (lay_blocks le limit rcomment rkey rliteral).
Lemma any_blocks w gs ps : lay_any LK w gs ps -> LB w gs ps.
Proof. induction 1; constructor; assumption. Qed.

Lemma nonempty_ne {A} (l : list A) : nonempty l = true -> l <> [].
Proof. destruct l; [discriminate|congruence]. Qed.
Lemma wr_open table : wr (write_piece (Some (open_piece table))) (fun ps => ps = [open_piece table]).
Proof. apply wr_piece. destruct table; discriminate. Qed.
Lemma wr_close table : wr (write_piece (Some (close_piece table))) (fun ps => ps = [close_piece table]).
Proof. apply wr_piece. destruct table; discriminate. Qed.
Definition ready (fv : option N -> fval -> fm) (table : bool) (g : group (item fval)) : Prop :=
  match g with
  | GD _ cs => cs <> []
  | GI _ its => its <> [] /\ Forall (fun i => wf_item table i = true /\ forall al, wr (fv al (ival i)) (LV (ival i))) its
  end.
Lemma wr_multi fv al table lead otc gs tc : Forall (ready fv table) gs ->
  wr (fmt_multi cfg gr dir fv al table lead otc gs tc) (LV (FBox table lead otc gs tc)).
Proof.
  intros HF. unfold fmt_multi.
  assert (HG : forall ea, wr (fmt_groups cfg dir (fmt_multi_items cfg gr dir fv ea al) false gs) (LG false gs)).
  { intros ea. eapply wr_weak; [apply (wr_groups _ LL)|apply any_groups]. eapply Forall_impl; [|exact HF].
    intros [b cs|b its]; [trivial|]. intros [HN HI]. eapply wr_weak; [apply (wr_multi_items fv ea al table its HN HI true)|]. intros ps (qs & H & ->). exact H. }
  assert (HM : wr (if table then match key_value_equal_alignment_width cfg gr (items_of gs) with None => fun _ => None
      | Some ea => fmt_groups cfg dir (fmt_multi_items cfg gr dir fv ea al) false gs end
      else fmt_groups cfg dir (fmt_multi_items cfg gr dir fv None al) false gs) (LG false gs)).
  { destruct table; [|apply HG]. destruct (key_value_equal_alignment_width _ _ _); [apply HG|apply wr_panic]. }
  eapply wr_weak; [eapply wr_seq; [apply wr_leading|eapply wr_seq; [apply wr_indent|eapply wr_seq; [apply wr_open|eapply wr_seq; [apply wr_trailing_opt|
    eapply wr_seq; [apply wr_line|eapply wr_seq; [apply (wr_inc (fun ps => ps = []) eq_refl)|eapply wr_seq; [apply HM|
    eapply wr_seq; [apply (wr_dec (fun ps => ps = []) eq_refl)|eapply wr_seq; [apply wr_line|eapply wr_seq; [apply wr_indent|eapply wr_seq; [apply wr_close|apply wr_trailing_opt]]]]]]]]]]]|].
  intros ps H. split_then. cbn [app]. apply lay_multi; assumption.
Qed.

Lemma m_iter_first_app {A} (g : bool -> A -> fm) a : forall b c f,
  m_iter_first g c (a ++ b) f = (m_iter_first g c a ;; m_iter_first g (c && negb (nonempty a)) b) f.
Proof.
  induction a as [|x a IH]; intros b c f.
  - cbn. rewrite andb_true_r. reflexivity.
  - cbn [app m_iter_first nonempty negb]. rewrite andb_false_r. unfold m_seq at 1. unfold m_seq at 1. unfold m_seq at 1.
    destruct (g c x f); [|reflexivity]. rewrite (IH b false). unfold m_seq. destruct (m_iter_first g false a f0); [|reflexivity].
    cbn [andb]. reflexivity.
Qed.
Lemma single_flat fv al table gs : forallb (fun g => match g with GD _ _ => false | GI _ _ => true end) gs = true ->
  forall first f, fmt_single_groups cfg gr dir fv al table first gs f = fmt_single_items cfg gr dir fv al table first (items_of gs) f.
Proof.
  induction gs as [|g gs IH]; intros HG first f; [reflexivity|]. destruct g as [|b its]; [discriminate|]. cbn [forallb andb] in HG.
  cbn [fmt_single_groups items_of flat_map group_items]. unfold fmt_single_items at 2. rewrite m_iter_first_app.
  unfold m_seq. unfold fmt_single_items at 1. destruct (m_iter_first _ first its f); [|reflexivity]. apply IH. exact HG.
Qed.
Lemma wr_single_items fv al table its :
  Forall (fun i => wf_item table i = true /\ forall al, wr (fv al (ival i)) (LV (ival i))) its ->
  forall b, wr (fmt_single_items cfg gr dir fv al table b its)
    (fun ps => exists qs, LS its qs /\ if b then ps = qs else match its with [] => ps = [] | _ => exists sp, blanks sp /\ ps = comma_piece :: sp ++ qs end).
Proof.
  unfold fmt_single_items. induction its as [|i its IH]; intros HF b.
  - eapply wr_weak; [apply wr_ret|]. intros ps ->. exists []. split; [constructor|]. destruct b; reflexivity.
  - destruct (Forall_inv HF) as [HW HV]. apply Forall_inv_tail in HF. cbn [m_iter_first].
    eapply wr_weak; [eapply wr_seq; [eapply wr_seq; [apply wr_when; eapply wr_seq; [apply wr_write; discriminate|apply wr_spaces]|
      eapply wr_seq; [apply (wr_set_skip true (fun ps => ps = []) eq_refl)|apply (wr_item fv None al table i HW HV)]]|apply (IH HF false)]|].
    intros ps H. destruct H as (xa & ya & -> & (xb & yb & -> & Hb & (xc & yc & -> & -> & Hc)) & (qs & HL & HR)). cbn [app].
    destruct its as [|i2 its].
    + subst ya. rewrite app_nil_r. exists yc. split; [apply ls_one; exact Hc|]. destruct b; cbn [negb] in Hb; [subst; reflexivity|].
      destruct Hb as (x & y & -> & -> & Hy). exists y. split; [exact Hy|]. cbn [app]. reflexivity.
    + destruct HR as (sp & Hsp & ->). exists (yc ++ comma_piece :: sp ++ qs). split; [apply ls_cons; [exact Hc|exact Hsp|discriminate|exact HL]|].
      destruct b; cbn [negb] in Hb; [subst; reflexivity|].
      destruct Hb as (x & y & -> & -> & Hy). exists y. split; [exact Hy|]. cbn [app]. rewrite <- !app_assoc. reflexivity.
Qed.
Lemma comma_quiet c : comma_comments c = false -> c = None \/ c = Some (Comma [] None).
Proof. destruct c as [[[|? ?] [?|]]|]; cbn; try discriminate; auto. Qed.
Lemma no_comments_vtc v : has_comments v = false -> vtc v = None.
Proof.
  destruct v as [lead k tok tc|table lead otc gs tc]; cbn; intros H.
  - apply orb_false_iff in H. destruct tc; [destruct H; discriminate|reflexivity].
  - destruct tc; [|reflexivity]. rewrite !orb_true_r in H. cbn in H. discriminate.
Qed.
Lemma existsb_false {A} (p : A -> bool) l : existsb p l = false -> Forall (fun a => p a = false) l.
Proof. induction l as [|a l IH]; cbn; intros H; constructor; apply orb_false_iff in H; tauto. Qed.
Lemma quiet_groups (p : item fval -> bool) gs : (forall i, p i = false -> quiet i) ->
  existsb (fun g => match g with GD _ _ => true | GI _ its => existsb p its end) gs = false ->
  forallb (fun g => match g with GD _ _ => false | GI _ _ => true end) gs = true /\ Forall quiet (items_of gs).
Proof.
  intros HP H. apply existsb_false in H. induction H as [|g gs Hg H IH]; [split; [reflexivity|constructor]|].
  destruct IH as [I1 I2]. destruct g as [|b its]; [discriminate|]. split; [exact I1|]. cbn. apply Forall_app. split; [|exact I2].
  apply existsb_false in Hg. eapply Forall_impl; [|exact Hg]. exact HP.
Qed.
Lemma single_quiet ver table lead otc gs tc : should_be_multiline ver (FBox table lead otc gs tc) = false ->
  otc = None /\ forallb (fun g => match g with GD _ _ => false | GI _ _ => true end) gs = true /\ Forall quiet (items_of gs).
Proof.
  unfold should_be_multiline. cbn [value_multiline]. destruct (table && is_v1_0_0 ver).
  - unfold has_direct_inner_comments. intros H. apply orb_false_iff in H. destruct H as [H1 H2]. split; [destruct otc; [discriminate|reflexivity]|].
    revert H2. apply quiet_groups. intros [l ks r v c] H. apply orb_false_iff in H. destruct H as [H H3]. apply orb_false_iff in H. destruct H as [H H4].
    cbn. split; [destruct l; [reflexivity|discriminate]|]. split; [destruct (vtc v); [discriminate|reflexivity]|apply comma_quiet; exact H3].
  - intros H. apply orb_false_iff in H. destruct H as [_ H]. unfold has_inner_comments in H. apply orb_false_iff in H. destruct H as [H1 H2].
    split; [destruct otc; [discriminate|reflexivity]|]. revert H2. apply quiet_groups. intros [l ks r v c] H.
    apply orb_false_iff in H. destruct H as [H H3]. apply orb_false_iff in H. destruct H as [H H4].
    cbn. split; [destruct l; [reflexivity|discriminate]|]. split; [apply no_comments_vtc; exact H3|apply comma_quiet; exact H4].
Qed.
Lemma wr_single fv al table lead gs tc : Forall (ready fv table) gs ->
  forallb (fun g => match g with GD _ _ => false | GI _ _ => true end) gs = true -> Forall quiet (items_of gs) ->
  wr (fmt_single cfg gr dir fv al table lead gs tc) (LV (FBox table lead None gs tc)).
Proof.
  intros HF HG HQ. unfold fmt_single.
  assert (HI : Forall (fun i => wf_item table i = true /\ forall al, wr (fv al (ival i)) (LV (ival i))) (items_of gs)).
  { clear HG HQ. induction HF as [|g gs Hg HF IH]; [constructor|]. cbn. apply Forall_app. split; [|exact IH]. destruct g; [constructor|apply Hg]. }
  assert (HM : wr (if nonempty (items_of gs) then write_piece (Some (open_piece table)) ;; write_spaces (box_space cfg table) ;;
       fmt_single_groups cfg gr dir fv al table true gs ;; write_spaces (box_space cfg table) ;; write_piece (Some (close_piece table))
     else write_piece (Some (open_piece table)) ;; write_piece (Some (close_piece table)))
     (fun ps => exists b1 pg b2, blanks b1 /\ LS (items_of gs) pg /\ blanks b2 /\ ps = open_piece table :: b1 ++ pg ++ b2 ++ [close_piece table])).
  { destruct (nonempty (items_of gs)) eqn:E.
    - assert (HSI : wr (fmt_single_groups cfg gr dir fv al table true gs) (LS (items_of gs))).
      { intros f f' U E'. rewrite single_flat in E' by exact HG. destruct (wr_single_items fv al table _ HI true f f' U E') as (ps & W & qs & HL & ->). eauto. }
      eapply wr_weak; [eapply wr_seq; [apply wr_open|eapply wr_seq; [apply wr_spaces|eapply wr_seq; [apply HSI|eapply wr_seq; [apply wr_spaces|apply wr_close]]]]|].
      intros ps H. split_then. cbn [app]. eexists _, _, _. split; [|split; [|split; [|reflexivity]]]; eassumption.
    - eapply wr_weak; [eapply wr_seq; [apply wr_open|apply wr_close]|]. intros ps H. split_then.
      destruct (items_of gs); [|discriminate]. exists [], [], []. repeat split; constructor. }
  eapply wr_weak; [eapply wr_seq; [apply wr_leading|eapply wr_seq; [apply wr_indent|eapply wr_seq; [apply HM|apply wr_trailing_opt]]]|].
  intros ps H. split_then. cbn [app]. rewrite <- !app_assoc. cbn [app]. apply lay_single; assumption.
Qed.
Lemma wr_value v : wf_value v = true -> forall al, wr (fmt_value cfg gr dir al v) (LV v).
Proof.
  induction v as [lead k tok tc|table lead otc gs tc IH] using fval_ind'; intros HW al.
  - apply wr_literal. exact HW.
  - assert (HF : Forall (ready (fmt_value cfg gr dir) table) gs).
    { cbn [wf_value] in HW. revert HW. induction IH as [|g gs Hg IH IHg]; intros HW; [constructor|].
      cbn [forallb] in HW. apply andb_prop in HW. destruct HW as [HW1 HW2]. constructor; [|apply IHg; exact HW2].
      destruct g as [b cs|b its]; cbn [ready]; [apply nonempty_ne; exact HW1|].
      apply andb_prop in HW1. destruct HW1 as [HN HA]. split; [apply nonempty_ne; exact HN|]. cbn [group_all] in Hg.
      revert HA. clear HN. induction Hg as [|i its Hi Hg IHi]; intros HA; [constructor|].
      cbn [forallb] in HA. destruct i as [l ks r v c]. apply andb_prop in HA. destruct HA as [H1 H2]. apply andb_prop in H1. destruct H1 as [H1 H3].
      constructor; [|apply IHi; exact H2]. split; [exact H1|]. apply Hi. exact H3. }
    intros f f' U E. cbn [fmt_value] in E. rewrite (proj2 U) in E.
    destruct (should_be_multiline (f_toml_version cfg) (FBox table lead otc gs tc)) eqn:EM.
    + exact (wr_multi _ al table lead otc gs tc HF f f' U E).
    + destruct (exceeds _ _ _ _ _ _ _ _ _) as [[|]|]; [|clear IH|discriminate].
      * exact (wr_multi _ al table lead otc gs tc HF f f' U E).
      * destruct (single_quiet _ _ _ _ _ _ EM) as (-> & HG & HQ). exact (wr_single _ al table lead gs tc HF HG HQ f f' U E).
Qed.
Lemma wr_kv_group its : its <> [] -> Forall (fun i => wf_item true i = true /\ wf_value (ival i) = true) its ->
  wr (fmt_key_value_group cfg gr dir its) (LK its).
Proof.
  intros HN HF f f' U E. unfold fmt_key_value_group in E.
  destruct (key_value_equal_alignment_width cfg gr its) as [ea|]; [|discriminate].
  destruct (trailing_comment_alignment_width cfg gr dir ea its f) as [al|]; [|discriminate].
  assert (HI : forall its, its <> [] -> Forall (fun i => wf_item true i = true /\ wf_value (ival i) = true) its -> forall b,
    wr (m_iter_first (fun first i => m_when (negb first) (write_line_ending cfg) ;; fmt_item cfg gr dir (fmt_value cfg gr dir) ea al i ;;
      fmt_line_comma cfg gr dir al (is_some (vtc (ival i))) (icomma i)) b its) (fun ps => exists qs, LK its qs /\ ps = if b then qs else nl le :: qs)).
  { clear. induction its as [|i its IH]; intros HN HF b; [contradiction|].
    destruct (Forall_inv HF) as [HW HV]. apply Forall_inv_tail in HF. cbn [m_iter_first]. destruct its as [|i2 its].
    - eapply wr_weak; [eapply wr_seq; [eapply wr_seq; [apply wr_when, wr_line|eapply wr_seq; [apply (wr_item _ ea al true i HW); intros; apply wr_value; exact HV|apply wr_line_comma]]|apply wr_ret]|].
      intros ps H. split_then. rewrite app_nil_r. eexists. split; [eapply lkv_one; eassumption|]. destruct b; cbn in *; subst; reflexivity.
    - eapply wr_weak; [eapply wr_seq; [eapply wr_seq; [apply wr_when, wr_line|eapply wr_seq; [apply (wr_item _ ea al true i HW); intros; apply wr_value; exact HV|apply wr_line_comma]]|apply (IH ltac:(discriminate) HF false)]|].
      intros ps H. split_then. eexists. split; [eapply lkv_cons; eassumption|]. destruct b; cbn in *; subst; cbn; rewrite <- ?app_assoc; reflexivity. }
  destruct (HI its HN HF true f f' U E) as (ps & W & qs & HL & ->). eauto.
Qed.
Lemma wf_groups_ready gs : forallb wf_group gs = true -> Forall (fun g => match g with GD _ cs => cs <> [] | GI _ its => wr (fmt_key_value_group cfg gr dir its) (LK its) end) gs.
Proof.
  intros H. rewrite forallb_forall in H. apply Forall_forall. intros g Hg. specialize (H g Hg). destruct g as [b cs|b its]; cbn in H.
  - apply nonempty_ne. exact H.
  - apply andb_prop in H. destruct H as [H1 H2]. apply wr_kv_group; [apply nonempty_ne; exact H1|]. apply Forall_forall. intros i Hi.
    rewrite forallb_forall in H2. apply andb_prop. apply H2. exact Hi.
Qed.
Lemma wr_blocks gs : forallb wf_group gs = true -> wr (fmt_groups cfg dir (fmt_key_value_group cfg gr dir) false gs) (LB false gs).
Proof. intros H. eapply wr_weak; [apply (wr_groups _ LK), wf_groups_ready; exact H|apply any_blocks]. Qed.
Lemma wr_nothings {A} (m : fm) (l : list A) : wr m (fun ps => ps = []) -> wr (m_iter (fun _ => m) l) (fun ps => ps = []).
Proof. intros H. eapply wr_weak; [apply (wr_m_iter _ []); intros; exact H|]. intros ps ->. induction (length l); [reflexivity|assumption]. Qed.
Lemma wr_table before t : wf_table t = true -> wr (fmt_table cfg gr dir before t) (lay_table le limit rcomment rkey rliteral t).
Proof.
  intros H. apply andb_prop in H. destruct H as [H1 H2]. destruct t as [a lead ks tc gs bl]. cbn [t_keys t_groups] in *.
  unfold fmt_table. cbn [t_array t_lead t_keys t_tc t_groups t_blank].
  assert (HB : forall k c, k <> WHITESPACE -> wr (write k c ;; m_when a (write k c)) (fun ps => ps = brackets a (k, c))).
  { intros k c Hk. eapply wr_weak; [eapply wr_seq; [apply wr_write; exact Hk|apply wr_when, wr_write; exact Hk]|]. intros ps H. split_then. destruct a; subst; reflexivity. }
  intros f f' U E.
  assert (HW : wr (m_iter (fun _ => inc_indent) (repeat tt (if f_indent_sub_tables cfg then sub_table_depth cfg before ks else 0%nat)) ;;
    fmt_leading cfg dir lead ;; write_indent cfg ;; (write BRACKET_START [91] ;; m_when a (write BRACKET_START [91])) ;; fmt_keys cfg gr None ks ;;
    (write BRACKET_END [93] ;; m_when a (write BRACKET_END [93])) ;; fmt_trailing_opt cfg gr dir None tc ;;
    m_when (f_indent_table_key_values cfg) inc_indent ;;
    m_when (nonempty gs) (write_line_ending cfg ;; fmt_groups cfg dir (fmt_key_value_group cfg gr dir) false gs) ;;
    m_when (f_indent_table_key_values cfg) dec_indent ;;
    m_iter (fun _ => dec_indent) (repeat tt (if f_indent_sub_tables cfg then sub_table_depth cfg before ks else 0%nat)))
    (lay_table le limit rcomment rkey rliteral (FTable a lead ks tc gs bl))).
  { assert (HK : wr (fmt_keys cfg gr None ks) (lay_keys rkey ks)).
    { intros g g' Ug Eg. destruct (wr_keys_from ks (nonempty_ne _ (proj1 (andb_prop _ _ H1))) true g g' Ug Eg) as (ps & W & qs & L & ->). eauto. }
    eapply wr_weak; [eapply wr_seq; [apply wr_nothings, wr_inc; reflexivity|eapply wr_seq; [apply wr_leading|eapply wr_seq; [apply wr_indent|
      eapply wr_seq; [apply HB; discriminate|eapply wr_seq; [exact HK|eapply wr_seq; [apply HB; discriminate|eapply wr_seq; [apply wr_trailing_opt|
      eapply wr_seq; [apply wr_when, (wr_inc (fun ps => ps = []) eq_refl)|eapply wr_seq; [apply wr_when; eapply wr_seq; [apply wr_line|apply wr_blocks; exact H2]|
      eapply wr_seq; [apply wr_when, (wr_dec (fun ps => ps = []) eq_refl)|apply wr_nothings, wr_dec; reflexivity]]]]]]]]]]|].
    intros ps H.
    destruct H as (x0 & y0 & -> & -> & (x1 & y1 & -> & L1 & (x2 & y2 & -> & L2 & (x3 & y3 & -> & -> & (x4 & y4 & -> & L4 & (x5 & y5 & -> & -> & (x6 & y6 & -> & L6 & (x7 & y7 & -> & L7 & (x8 & y8 & -> & L8 & (x9 & y9 & -> & L9 & ->)))))))))).
    assert (x7 = []) as -> by (destruct (f_indent_table_key_values cfg); assumption).
    assert (x9 = []) as -> by (destruct (f_indent_table_key_values cfg); assumption).
    cbn [app]. rewrite !app_nil_r.
    destruct gs as [|g gs]; cbn [nonempty] in L8.
    - subst x8. pose proof (lay_t le limit rcomment rkey rliteral a lead ks tc [] bl x1 x2 x4 x6 [] L1 L2 L4 L6 (lb_nil _ _ _ _ _ _)) as HT. exact HT.
    - destruct L8 as (xa & xb & -> & -> & LBk). cbn [app]. exact (lay_t le limit rcomment rkey rliteral a lead ks tc (g :: gs) bl x1 x2 x4 x6 xb L1 L2 L4 L6 LBk). }
  apply (HW f f' U). rewrite <- E. unfold m_seq.
  repeat match goal with |- context [match ?m with Some _ => _ | None => _ end] => destruct m; try reflexivity end.
Qed.
Definition gap (p t : ftable) : nat := if table_gap p t then N.to_nat (f_table_blank_lines cfg) else 0%nat.
Definition rgap (gs : list (group (item fval))) (t : ftable) : nat :=
  N.to_nat (if no_items gs then N.min (t_blank t) (f_group_blank_lines_limit cfg) else f_table_blank_lines cfg).
Lemma wr_tables ts : forallb wf_table ts = true -> ts <> [] -> forall prev before, wr (fmt_tables cfg gr dir prev before ts)
  (fun ps => exists qs, lay_tables le limit rcomment rkey rliteral gap ts qs /\
     ps = match prev, ts with Some p, t :: _ => nl le :: repeat (nl le) (gap p t) ++ qs | _, _ => qs end).
Proof.
  induction ts as [|t ts IH]; intros HW HN prev before; [contradiction|]. cbn [forallb] in HW. apply andb_prop in HW. destruct HW as [HW1 HW2].
  cbn [fmt_tables].
  assert (HP : wr (match prev with None => m_ret | Some p => write_line_ending cfg ;; m_when (table_gap p t) (m_iter (fun _ => write_line_ending cfg) (repeat tt (N.to_nat (f_table_blank_lines cfg)))) end)
    (fun ps => ps = match prev with Some p => nl le :: repeat (nl le) (gap p t) | None => [] end)).
  { destruct prev as [p|]; [|exact wr_ret]. eapply wr_weak; [eapply wr_seq; [apply wr_line|apply wr_when, (wr_m_iter _ [nl le]); intros; apply wr_line]|].
    intros ps H. split_then. unfold gap. destruct (table_gap p t); subst; [rewrite repeat_length, concat_single|]; reflexivity. }
  destruct ts as [|t2 ts].
  - eapply wr_weak; [eapply wr_seq; [apply HP|eapply wr_seq; [apply wr_table; exact HW1|apply wr_ret]]|].
    intros ps H. split_then. rewrite app_nil_r. eexists. split; [apply lts_one; eassumption|]. destruct prev; reflexivity.
  - eapply wr_weak; [eapply wr_seq; [apply HP|eapply wr_seq; [apply wr_table; exact HW1|apply (IH HW2 ltac:(discriminate) (Some t))]]|].
    intros ps H. split_then. eexists. split; [eapply lts_cons; eassumption|]. destruct prev; reflexivity.
Qed.
Theorem wr_root d : wf_doc d = true -> wr (fmt_root cfg gr dir d) (lay_root le limit rcomment rkey rliteral gap rgap d).
Proof.
  intros H. apply andb_prop in H. destruct H as [H1 H2]. destruct d as [gs ts]. cbn [d_groups d_tables] in *. unfold fmt_root. cbn [d_groups d_tables].
  destruct ts as [|t ts].
  - eapply wr_weak; [eapply wr_seq; [apply (wr_depth 0 (fun ps => ps = []) eq_refl)|eapply wr_seq; [apply wr_blocks; exact H1|eapply wr_seq; [apply wr_ret|apply wr_ret]]]|].
    intros ps H. split_then. cbn [app]. rewrite app_nil_r. constructor. assumption.
  - eapply wr_weak; [eapply wr_seq; [apply (wr_depth 0 (fun ps => ps = []) eq_refl)|eapply wr_seq; [apply wr_blocks; exact H1|
      eapply wr_seq; [apply wr_when|apply (wr_tables (t :: ts) H2 ltac:(discriminate) None [])]]]|].
    + instantiate (1 := fun ps => ps = nl le :: repeat (nl le) (rgap gs t)). unfold rgap. destruct (no_items gs); apply wr_blank_lines.
    + intros ps H. split_then. cbn [app]. destruct gs as [|g gs]; cbn [nonempty] in *; subst.
      * cbn [app]. refine (lr_tables le limit rcomment rkey rliteral gap rgap [] t ts _ _ _ _); assumption.
      * refine (lr_tables le limit rcomment rkey rliteral gap rgap (g :: gs) t ts _ _ _ _); assumption.
Qed.
End Writes.
