(** What the formatter reads in the tree of an error-free parse. *)
From Coq Require Import String Ascii List NArith Bool Arith Lia.
From Verif Require Import Base SyntaxKind TextModel LexerModel LexerSpec ParserModel ParserInv ParserBuild
  AstModel FormatterModel FormatterLayout ParserYield ParserShape ParserTree.
Import ListNotations.
Open Scope N_scope.
Open Scope list_scope.

(** * Taking a tree apart along its shape *)
Lemma gap_strips ws : gap ws -> strips ws = [].
Proof. intros [-> | (w & ->)]; reflexivity. Qed.
Lemma strips_gap ws cs : gap ws -> strips (ws ++ cs) = strips cs.
Proof. intros H. rewrite strips_app, gap_strips by exact H. reflexivity. Qed.
Lemma strips_gap_r ws cs : gap ws -> strips (cs ++ ws) = strips cs.
Proof. intros H. rewrite strips_app, (gap_strips ws) by exact H. apply app_nil_r. Qed.
Lemma combed_nil cs : combed cs -> strips cs = [] -> cs = [].
Proof.
  intros H E. destruct H as [|ws k w cs HG HK HC|ws k c1 cs HG H1 HC]; auto; rewrite strips_gap in E by exact HG; cbn in E; [|discriminate].
  rewrite HK in E. discriminate.
Qed.
Lemma combed_token cs k w b : combed cs -> strips cs = TToken k w :: b ->
  exists g c, cs = g ++ TToken k w :: c /\ gap g /\ is_trivia k = false /\ combed c /\ strips c = b.
Proof.
  intros H E. destruct H as [|ws k' w' cs HG HK HC|ws k' c1 cs HG H1 HC]; [discriminate| |]; rewrite strips_gap in E by exact HG; cbn in E; [|discriminate].
  rewrite HK in E. cbn in E. injection E as -> -> <-. exists ws, cs. auto.
Qed.
Lemma combed_node cs k x b : combed cs -> strips cs = TNode k x :: b ->
  exists g c1 c, cs = g ++ TNode k c1 :: c /\ gap g /\ combed c1 /\ strips c1 = x /\ combed c /\ strips c = b.
Proof.
  intros H E. destruct H as [|ws k' w' cs HG HK HC|ws k' c1 cs HG H1 HC]; [discriminate| |]; rewrite strips_gap in E by exact HG; cbn in E.
  - rewrite HK in E. discriminate.
  - injection E as -> <- <-. exists ws, c1, cs. auto 7.
Qed.
Lemma combed_app a b cs : combed cs -> strips cs = a ++ b -> exists ca cb, cs = ca ++ cb /\ combed ca /\ combed cb /\ strips ca = a /\ strips cb = b.
Proof.
  revert cs. induction a as [|x a IH]; intros cs H E.
  - exists [], cs. repeat split; auto. constructor.
  - cbn [app] in E. destruct x as [k x|k w].
    + destruct (combed_node _ _ _ _ H E) as (g & c1 & c & -> & HG & H1 & <- & HC & E2). destruct (IH _ HC E2) as (ca & cb & -> & A1 & A2 & A3 & A4).
      exists (g ++ TNode k c1 :: ca), cb. split; [rewrite <- app_assoc; reflexivity|]. split; [apply cb_node; auto|]. split; [exact A2|]. split; [|exact A4].
      rewrite strips_gap by exact HG. cbn. f_equal. exact A3.
    + destruct (combed_token _ _ _ _ H E) as (g & c & -> & HG & HK & HC & E2). destruct (IH _ HC E2) as (ca & cb & -> & A1 & A2 & A3 & A4).
      exists (g ++ TToken k w :: ca), cb. split; [rewrite <- app_assoc; reflexivity|]. split; [apply cb_token; auto|]. split; [exact A2|]. split; [|exact A4].
      rewrite strips_gap by exact HG. cbn. rewrite HK. cbn. f_equal. exact A3.
Qed.

(** * Elements *)
Lemma place_app a : forall p b, place_children p (a ++ b) = place_children p a ++ place_children (p ++ ttexts a) b.
Proof.
  induction a as [|t a IH]; intros p b; cbn [app place_children]; [cbn; rewrite app_nil_r; reflexivity|]. f_equal. rewrite IH. do 2 f_equal.
  rewrite <- app_assoc. reflexivity.
Qed.
Lemma place_it p cs : map it (place_children p cs) = cs.
Proof. revert p. induction cs as [|t cs IH]; intros p; cbn; [reflexivity|]. f_equal. apply IH. Qed.
Definition flat_tree (t : tree) : bool := match t with TToken _ _ => true | TNode _ _ => false end.
Lemma gap_flat g : gap g -> forallb flat_tree g = true.
Proof. intros [-> | (w & ->)]; reflexivity. Qed.
Lemma flat_children p cs : forallb flat_tree cs = true -> filter is_node (place_children p cs) = [].
Proof.
  revert p. induction cs as [|[k x|k w] cs IH]; intros p H; cbn in *; try discriminate; auto.
Qed.

(** * Comments *)
Definition blank_tree (t : tree) : Prop := exists w, t = TToken COMMENT w \/ t = TToken LINE_BREAK w \/ t = TToken WHITESPACE w.
Lemma lead_blank cs : Forall lc_tree (strips cs) -> Forall blank_tree cs.
Proof.
  induction cs as [|t cs IH]; intros H; [constructor|]. cbn [strips flat_map] in H. apply Forall_app in H as [H1 H2]. constructor; [|apply IH; exact H2].
  destruct t as [k x|k w]; cbn [strip] in H1.
  - inversion H1 as [|? ? (w & [E|E]) _]; discriminate.
  - destruct (is_trivia k) eqn:EK; [apply kind_eqb_eq in EK; subst; exists w; auto|]. inversion H1 as [|? ? (w' & [E|E]) _]; injection E as -> ->; exists w'; auto.
Qed.
Lemma blank_flat cs : Forall blank_tree cs -> forallb flat_tree cs = true.
Proof. induction 1 as [|t cs (w & [-> | [-> | ->]]) _ IH]; cbn; auto. Qed.
Lemma comments_strips cs : Forall blank_tree cs -> comments_of (strips cs) = comments_of cs.
Proof. induction 1 as [|t cs (w & [-> | [-> | ->]]) _ IH]; auto. change (w :: comments_of (strips cs) = w :: comments_of cs). f_equal. exact IH. Qed.
Lemma blank_comments p cs : Forall blank_tree cs -> map etext (filter is_comment_token (place_children p cs)) = comments_of cs.
Proof. intros H. revert p. induction H as [|t cs (w & [-> | [-> | ->]]) _ IH]; intros p; cbn; auto. f_equal. apply IH. Qed.
Lemma take_while_app {A} (f : A -> bool) a x b : forallb f a = true -> f x = false -> take_while f (a ++ x :: b) = a.
Proof. induction a as [|y a IH]; cbn; intros H Hx; [rewrite Hx; reflexivity|]. apply andb_true_iff in H as [-> H]. f_equal. auto. Qed.
Lemma drop_while_app {A} (f : A -> bool) a x b : forallb f a = true -> f x = false -> drop_while f (a ++ x :: b) = x :: b.
Proof. induction a as [|y a IH]; cbn; intros H Hx; [rewrite Hx; reflexivity|]. apply andb_true_iff in H as [-> H]. auto. Qed.
Lemma drop_while_all {A} (f : A -> bool) a : forallb f a = true -> drop_while f a = [].
Proof. induction a as [|y a IH]; cbn; intros H; [reflexivity|]. apply andb_true_iff in H as [-> H]. auto. Qed.
Lemma forallb_place (f : el -> bool) (P : tree -> Prop) p cs : (forall q t, P t -> f (El q t) = true) -> Forall P cs -> forallb f (place_children p cs) = true.
Proof. intros HF H. revert p. induction H as [|t cs Ht _ IH]; intros p; cbn; [reflexivity|]. rewrite HF, IH; auto. Qed.
Definition lc_kind (k : kind) : bool := match k with COMMENT | LINE_BREAK | WHITESPACE => true | _ => false end.
Lemma lead_view p kk cl t cr l lead : strips cl = l -> sh_lead l lead -> lc_kind (tkind_of t) = false ->
  leading_texts (El p (TNode kk (cl ++ t :: cr))) = lead.
Proof.
  intros E [H1 <-] HT. subst l. apply lead_blank in H1. unfold leading_texts, leading_comments_in, children_with_tokens. cbn [it pre]. rewrite place_app. cbn [place_children].
  rewrite take_while_app.
  - change (fun e => negb (is_node e) && has_kind COMMENT e) with is_comment_token. rewrite blank_comments by exact H1. symmetry. apply comments_strips. exact H1.
  - apply (forallb_place _ blank_tree); auto. intros q t' (w & [-> | [-> | ->]]); reflexivity.
  - unfold kind_in, ekind_of. cbn [it]. destruct (tkind_of t); try reflexivity; discriminate.
Qed.
Lemma last_token_app k a t : last_token (TNode k (a ++ [t])) = last_token t.
Proof.
  cbn [last_token]. induction a as [|x a IH]; [reflexivity|]. cbn [app]. destruct (a ++ [t]) eqn:E; [destruct a; discriminate|]. exact IH.
Qed.
(** A part of the children that ends in a token and perhaps a comment *)
Lemma trail_split ct tr tc : combed ct -> strips ct = tr -> sh_trail tr tc ->
  match tc with None => ct = [] | Some c => exists g, gap g /\ ct = g ++ [TToken COMMENT c] end.
Proof.
  intros H E HT. destruct tc as [c|]; cbn [sh_trail] in HT; subst tr.
  - destruct (combed_token _ _ _ _ H HT) as (g & c' & -> & HG & _ & HC & E2). apply combed_nil in E2; auto. subst c'. exists g. auto.
  - apply combed_nil in HT; auto.
Qed.
Lemma trail_view p kk a k w ct tr tc : k <> COMMENT -> combed ct -> strips ct = tr -> sh_trail tr tc ->
  trailing_text (El p (TNode kk (a ++ TToken k w :: ct))) = tc.
Proof.
  intros HK H E HT. pose proof (trail_split _ _ _ H E HT) as HS. unfold trailing_text. cbn [it]. destruct tc as [c|].
  - destruct HS as (g & HG & ->). rewrite app_comm_cons, !app_assoc, last_token_app. reflexivity.
  - subst ct. rewrite last_token_app. cbn [last_token]. destruct k; congruence.
Qed.

(** * Keys *)
Lemma find_app {A} (f : A -> bool) a x b : forallb (fun y => negb (f y)) a = true -> f x = true -> find f (a ++ x :: b) = Some x.
Proof. induction a as [|y a IH]; cbn; intros H Hx; [rewrite Hx; reflexivity|]. apply andb_true_iff in H as [H1 H]. apply negb_true_iff in H1. rewrite H1. auto. Qed.
Lemma filter_none {A} (f : A -> bool) a : forallb (fun y => negb (f y)) a = true -> filter f a = [].
Proof. induction a as [|y a IH]; cbn; intros H; [reflexivity|]. apply andb_true_iff in H as [H1 H]. apply negb_true_iff in H1. rewrite H1. auto. Qed.
Lemma opt_all_app {A B} (f : A -> option B) a b : opt_all f (a ++ b) =
  match opt_all f a, opt_all f b with Some x, Some y => Some (x ++ y) | _, _ => None end.
Proof.
  induction a as [|x a IH]; cbn; [destruct (opt_all f b); reflexivity|]. rewrite IH. destruct (f x); [|reflexivity].
  destruct (opt_all f a); [|reflexivity]. destruct (opt_all f b); reflexivity.
Qed.
Lemma opt_all_cons {A B} (f : A -> option B) a l : opt_all f (a :: l) = match f a, opt_all f l with Some b, Some bs => Some (b :: bs) | _, _ => None end.
Proof. reflexivity. Qed.
Lemma gap_nodes p g : gap g -> filter is_node (place_children p g) = [].
Proof. intros H. apply flat_children, gap_flat. exact H. Qed.
Lemma key_view p k cs x kk w : combed cs -> strips cs = x -> sh_key (TNode k x) (kk, w) -> is_key k = true /\ view_key (El p (TNode k cs)) = Some (kk, w).
Proof.
  intros HC E1 H. revert E1. inversion H as [k0 w0 HK]; subst. intros E1. destruct (combed_token _ _ _ _ HC E1) as (g & c & -> & HG & HT & HC2 & E3).
  apply combed_nil in E3; auto. subst c. assert (is_key kk = true) as HI by (destruct kk; try reflexivity; discriminate). split; [exact HI|].
  unfold view_key, key_token. unfold token, children_with_tokens. cbn [it pre ekind_of tkind_of]. rewrite place_app. cbn [place_children].
  destruct HG as [-> | (v & ->)]; destruct kk; try discriminate; reflexivity.
Qed.
Lemma keys_view_in x ks : sh_keys x ks -> forall p cs, combed cs -> strips cs = x ->
  opt_all view_key (filter (fun c => is_key (ekind_of c)) (filter is_node (place_children p cs))) = Some ks.
Proof.
  induction 1 as [t k HK|t k d ts ks HK HD H IH]; intros p cs HC E.
  - destruct k as [kk w]. revert E. inversion HK as [k0 w0 HKK]; subst. intros E. destruct (combed_node _ _ _ _ HC E) as (g & c1 & c & -> & HG & H1 & E1 & HC2 & E2).
    apply combed_nil in E2; auto. subst c. rewrite place_app, filter_app, gap_nodes by exact HG. cbn [app place_children filter is_node it].
    destruct (key_view (p ++ ttexts g) kk c1 _ kk w H1 E1 HK) as [I1 I2]. cbn [ekind_of it tkind_of filter]. rewrite I1, opt_all_cons, I2. reflexivity.
  - destruct k as [kk w]. revert E. inversion HK as [k0 w0 HKK]; subst. intros E. destruct (combed_node _ _ _ _ HC E) as (g & c1 & c & -> & HG & H1 & E1 & HC2 & E2).
    rewrite place_app, filter_app, gap_nodes by exact HG. cbn [app place_children filter is_node it].
    destruct (key_view (p ++ ttexts g) kk c1 _ kk w H1 E1 HK) as [I1 I2]. cbn [ekind_of it tkind_of filter]. rewrite I1, opt_all_cons, I2.
    enough (HE : opt_all view_key (filter (fun c0 => is_key (ekind_of c0)) (filter is_node (place_children ((p ++ ttexts g) ++ ttext (TNode kk c1)) c))) = Some ks).
    { rewrite HE. reflexivity. }
    destruct HD as [w'|w'].
    + destruct (combed_token _ _ _ _ HC2 E2) as (g2 & c2 & -> & HG2 & _ & HC3 & E3). rewrite place_app, filter_app, gap_nodes by exact HG2. cbn [app place_children filter is_node it].
      apply IH; auto.
    + destruct (combed_node _ _ _ _ HC2 E2) as (g2 & c1' & c2 & -> & HG2 & _ & _ & HC3 & E3). rewrite place_app, filter_app, gap_nodes by exact HG2. cbn [app place_children filter is_node it].
      cbn [ekind_of it tkind_of is_key]. apply IH; auto.
Qed.
Lemma keys_view p k cs x ks : combed cs -> strips cs = x -> sh_keys x ks -> view_keys (El p (TNode k cs)) = Some ks.
Proof. intros HC E H. unfold view_keys, keys_of, children_of, children, children_with_tokens. cbn [it pre]. eapply keys_view_in; eauto. Qed.

(** * Commas *)
Lemma comma_view p cs l lead w tr tc : combed cs -> strips cs = l ++ TToken COMMA w :: tr -> sh_lead l lead -> sh_trail tr tc ->
  view_comma (El p (TNode COMMA cs)) = Comma lead tc.
Proof.
  intros HC E HL HT. destruct (combed_app _ _ _ HC E) as (ca & cb & -> & A1 & A2 & A3 & A4). destruct (combed_token _ _ _ _ A2 A4) as (g & c & -> & HG & _ & HC2 & E2).
  unfold view_comma. rewrite app_assoc. f_equal.
  - apply (lead_view p COMMA (ca ++ g) (TToken COMMA w) c l lead); auto. rewrite strips_gap_r; auto.
  - apply (trail_view p COMMA (ca ++ g) COMMA w c tr tc); auto. discriminate.
Qed.
(** The comma of an item: nothing, or a node *)
Lemma comma_split cs x c : combed cs -> strips cs = x -> sh_comma x c ->
  match c with
  | None => cs = []
  | Some cm => exists g c1, gap g /\ cs = g ++ [TNode COMMA c1] /\ forall p, view_comma (El p (TNode COMMA c1)) = cm
  end.
Proof.
  intros HC E H. destruct H as [|l lead w tr tc HL HT]; [apply combed_nil in E; auto|].
  destruct (combed_node _ _ _ _ HC E) as (g & c1 & c & -> & HG & H1 & E1 & HC2 & E2). apply combed_nil in E2; auto. subst c.
  exists g, c1. split; [exact HG|]. split; [reflexivity|]. intros p. eapply comma_view; eauto.
Qed.

(** * Values *)
Lemma height_child k cs c n : (height (TNode k cs) <= S n)%nat -> In c cs -> (height c <= n)%nat.
Proof.
  cbn [height]. intros H HI. apply le_S_n in H. revert H. induction cs as [|x cs IH]; [contradiction|]. intros H. destruct HI as [->|HI]; [lia|]. apply IH; auto. lia.
Qed.
Lemma literal_value k : literal_kind k = true -> is_value k = true /\ k <> COMMENT /\ lc_kind k = false /\ k <> ARRAY /\ k <> INLINE_TABLE.
Proof. destruct k; cbn; intros H; try discriminate; repeat split; discriminate. Qed.
Lemma value_node t v : sh_value t v -> exists k x, t = TNode k x /\ is_value k = true.
Proof.
  intros H. destruct H as [l lead k w tr tc HL HK HT|table l lead wo otr otc es gs wc tr tc n HL HO HB HT].
  - eexists _, _. split; [reflexivity|]. apply literal_value. exact HK.
  - eexists _, _. split; [reflexivity|]. destruct table; reflexivity.
Qed.
Lemma blanks_flat_nodes p cs : Forall blank_tree cs -> filter is_node (place_children p cs) = [].
Proof. intros H. apply flat_children, blank_flat. exact H. Qed.
Lemma token_lead k p cl w cr : Forall blank_tree cl -> lc_kind k = false ->
  token k (El p (TNode k (cl ++ TToken k w :: cr))) = Some (El (p ++ ttexts cl) (TToken k w)).
Proof.
  intros HB HK. unfold token, children_with_tokens. cbn [it pre]. rewrite place_app. cbn [place_children]. apply find_app.
  - apply (forallb_place _ blank_tree); auto. intros q t (x & [-> | [-> | ->]]); unfold has_kind, ekind_of; cbn [is_node it tkind_of negb andb]; destruct k; try reflexivity; discriminate.
  - unfold has_kind, ekind_of. cbn. apply kind_eqb_refl.
Qed.
Lemma literal_view p k cs l lead w tr tc : combed cs -> strips cs = l ++ TToken k w :: tr -> sh_lead l lead -> literal_kind k = true -> sh_trail tr tc ->
  view_literal (El p (TNode k cs)) = Some (FLit lead k w tc).
Proof.
  intros HC E HL HK HT. destruct (literal_value _ HK) as (_ & K1 & K2 & _ & _). destruct (combed_app _ _ _ HC E) as (ca & cb & -> & A1 & A2 & A3 & A4).
  destruct (combed_token _ _ _ _ A2 A4) as (g & c & -> & HG & _ & HC2 & E2). rewrite app_assoc.
  assert (strips (ca ++ g) = l) as E3 by (rewrite strips_gap_r; auto).
  unfold view_literal. cbn [ekind_of it tkind_of]. rewrite token_lead; auto.
  - cbn [option_map etext it ttext]. rewrite (lead_view p k (ca ++ g) (TToken k w) c l lead); auto. rewrite (trail_view p k (ca ++ g) k w c tr tc); auto.
  - apply lead_blank. rewrite E3. apply HL.
Qed.

(** * Items *)
Section Items.
Context (vv : el -> option fval) (h : nat).
Context (Hvv : forall p k cs x v, combed cs -> strips cs = x -> (height (TNode k cs) <= h)%nat -> sh_value (TNode k x) v ->
  exists v', vv (El p (TNode k cs)) = Some v' /\ sh_value (TNode k x) v' /\ vlead v' = vlead v).

Definition item_can (table : bool) : kind -> bool := if table then is_kind KEY_VALUE else is_value.
Definition view_item (table : bool) (e : el) (c : option el) : option (item fval) :=
  if table then view_key_value vv e c else view_value_item vv e c.
Lemma item_head table x i : sh_item table x i -> exists k y r, x = TNode k y :: r /\ item_can table k = true.
Proof.
  destruct 1 as [t v cs c HV HC|l lead kts ks raw we t v cs c HL HK HV HE HC].
  - destruct (value_node _ _ HV) as (k & x & -> & HI). exists k, x, cs. auto.
  - eexists _, _, _. split; reflexivity.
Qed.
Lemma key_value_view p cs l lead kts ks we t v : combed cs -> strips cs = l ++ [TNode KEYS kts; TToken EQUAL we; t] -> (height (TNode KEY_VALUE cs) <= S h)%nat ->
  sh_lead l lead -> sh_keys kts ks -> sh_value t v -> forall c, exists raw v',
  view_key_value vv (El p (TNode KEY_VALUE cs)) c = Some (Item lead ks raw v' (option_map view_comma c)) /\ sh_value t v' /\ vlead v' = vlead v.
Proof.
  intros HC E HH HL HK HV c. destruct (combed_app _ _ _ HC E) as (ca & cb & -> & A1 & A2 & A3 & A4).
  destruct (combed_node _ _ _ _ A2 A4) as (g & ck & c2 & -> & HG & HCK & EK & HC2 & E2).
  destruct (combed_token _ _ _ _ HC2 E2) as (g2 & c3 & -> & HG2 & _ & HC3 & E3). destruct (value_node _ _ HV) as (k & x & -> & HI).
  destruct (combed_node _ _ _ _ HC3 E3) as (g3 & cv & c4 & -> & HG3 & HCV & EV & HC4 & E4). apply combed_nil in E4; auto. subst c4.
  assert (HB : Forall blank_tree ca) by (apply lead_blank; rewrite A3; apply HL).
  assert (HN : children (El p (TNode KEY_VALUE (ca ++ g ++ TNode KEYS ck :: g2 ++ TToken EQUAL we :: g3 ++ [TNode k cv]))) =
    [El ((p ++ ttexts ca) ++ ttexts g) (TNode KEYS ck); El (((((p ++ ttexts ca) ++ ttexts g) ++ ttext (TNode KEYS ck)) ++ ttexts g2) ++ we ++ ttexts g3) (TNode k cv)]).
  { unfold children, children_with_tokens. cbn [it pre]. rewrite !place_app, !filter_app, blanks_flat_nodes, gap_nodes by assumption. cbn [app place_children filter is_node it].
    f_equal. rewrite place_app, filter_app, gap_nodes by assumption. cbn [app place_children filter is_node it]. rewrite place_app, filter_app, gap_nodes by assumption.
    cbn [app place_children filter is_node it ttext]. rewrite <- !app_assoc. reflexivity. }
  edestruct (Hvv (((((p ++ ttexts ca) ++ ttexts g) ++ ttext (TNode KEYS ck)) ++ ttexts g2) ++ we ++ ttexts g3) k cv x v) as (v' & V1 & V2 & V3); auto.
  { eapply height_child; [exact HH|]. apply in_or_app; right. apply in_or_app; right; right. apply in_or_app; right; right. apply in_or_app; right. left. reflexivity. }
  exists (ttext (TNode KEYS ck)), v'. split; [|auto].
  unfold view_key_value, keys_child, value_child, child. rewrite HN. cbn [find ekind_of it tkind_of is_kind kind_eqb]. 
  change (is_value KEYS) with false. cbn iota. rewrite HI.
  change (is_kind KEYS KEYS) with true. cbn iota. rewrite (keys_view _ KEYS ck kts ks) by auto. rewrite V1. 
  rewrite app_assoc. rewrite (lead_view p KEY_VALUE (ca ++ g) (TNode KEYS ck) _ l lead); auto. rewrite strips_gap_r; auto.
Qed.
Lemma items_view table is : forall x, sh_items table x is -> forall p cs, combed cs -> strips cs = x -> Forall (fun t => (height t <= S h)%nat) cs ->
  (table = false -> Forall (fun t => (height t <= h)%nat) cs) ->
  exists is', opt_all (fun kc : el * option el => view_item table (fst kc) (snd kc)) (with_comma (item_can table) (filter is_node (place_children p cs)) None) = Some is' /\
    sh_items table x is' /\ length is' = length is.
Proof.
  induction is as [|i is IH]; intros x H p cs HC E HH HF.
  - revert E. inversion H; subst. intros E. apply combed_nil in E; auto. subst cs. exists []. cbn. split; [reflexivity|]. split; [constructor|reflexivity].
  - revert E. inversion H as [|table' a i' b is' HI HIS]; subst. intros E. clear H.
    destruct (combed_app _ _ _ HC E) as (ca & cb & -> & A1 & A2 & A3 & A4). apply Forall_app in HH as [HH1 HH2].
    assert (HF1 : table = false -> Forall (fun t => (height t <= h)%nat) ca) by (intros HT; apply HF in HT; apply Forall_app in HT; tauto).
    assert (HF2 : table = false -> Forall (fun t => (height t <= h)%nat) cb) by (intros HT; apply HF in HT; apply Forall_app in HT; tauto). clear HF.
    destruct (IH b HIS (p ++ ttexts ca) cb A2 A4 HH2 HF2) as (is' & V1 & V2 & V3).
    rewrite place_app, filter_app.
    (* the rest starts with an item *)
    assert (HREST : forall n, with_comma (item_can table) (filter is_node (place_children (p ++ ttexts ca) cb)) (Some n) =
        (n, None) :: with_comma (item_can table) (filter is_node (place_children (p ++ ttexts ca) cb)) None).
    { intros n. destruct is as [|i2 is].
      - revert A4. inversion HIS; subst. intros A4. apply combed_nil in A4; auto. subst cb. reflexivity.
      - revert A4. clear V2. inversion HIS as [|? a2 ? b2 ? HI2 HIS2]; subst. intros A4. destruct (item_head _ _ _ HI2) as (k & y & r & -> & HK). cbn [app] in A4.
        destruct (combed_node _ _ _ _ A2 A4) as (g & c1 & c & -> & HG & _ & _ & _ & _).
        rewrite place_app, filter_app, gap_nodes by exact HG. cbn [app place_children filter is_node it with_comma ekind_of tkind_of]. rewrite HK. reflexivity. }
    assert (HGO : forall k c1 g cc c, ca = g ++ TNode k c1 :: cc -> gap g -> item_can table k = true -> combed cc -> (exists y, strips cc = y /\ sh_comma y c) ->
       (forall e, exists i', view_item table (El (p ++ ttexts g) (TNode k c1)) e = Some (i' (option_map view_comma e)) /\ sh_item table a (i' c)) ->
       exists is'', opt_all (fun kc : el * option el => view_item table (fst kc) (snd kc)) (with_comma (item_can table)
         (filter is_node (place_children p ca) ++ filter is_node (place_children (p ++ ttexts ca) cb)) None) = Some is'' /\ sh_items table (a ++ b) is'' /\ length is'' = S (length is)).
    { intros k c1 g cc c Eca HG HK HCC (y & Ey & HCM) HV. 
      assert (filter is_node (place_children p ca) = El (p ++ ttexts g) (TNode k c1) :: filter is_node (place_children ((p ++ ttexts g) ++ ttext (TNode k c1)) cc)) as ->.
      { rewrite Eca, place_app, filter_app, gap_nodes by exact HG. reflexivity. }
      cbn [app].
      pose proof (comma_split _ _ _ HCC Ey HCM) as HS. destruct c as [cm|].
      - destruct HS as (g2 & c2 & HG2 & -> & HVC). rewrite place_app, filter_app, gap_nodes by exact HG2. cbn [app place_children filter is_node it with_comma ekind_of tkind_of].
        rewrite HK. cbn [with_comma ekind_of it tkind_of]. assert (item_can table COMMA = false) as -> by (destruct table; reflexivity).
        unfold has_kind at 1. cbn [ekind_of it tkind_of kind_eqb]. 
        match goal with |- context [(El ?q (TNode k c1), Some ?e)] => destruct (HV (Some e)) as (i' & I1 & I2) end.
        change (kind_eqb COMMA COMMA) with true. cbn iota. rewrite opt_all_cons. cbn [fst snd]. rewrite I1, V1. cbn [option_map]. rewrite HVC.
        eexists. split; [reflexivity|]. split; [constructor; auto|]. cbn. congruence.
      - subst cc. cbn [place_children filter app with_comma ekind_of it tkind_of]. rewrite HK, HREST, opt_all_cons. cbn [fst snd].
        destruct (HV None) as (i' & I1 & I2). rewrite I1, V1. eexists. split; [reflexivity|]. split; [constructor; auto|]. cbn. congruence. }
    destruct HI as [t v cs c HV HCM|l lead kts ks raw we t v cs c HL HK HV HE HCM].
    + destruct (value_node _ _ HV) as (k & y & -> & HK). destruct (combed_node _ _ _ _ A1 A3) as (g & c1 & cc & -> & HG & HC1 & E1 & HCC & E2).
      eapply (HGO k c1 g cc c); eauto. intros e. specialize (HF1 eq_refl). apply Forall_app in HF1 as [_ HF1]. inversion HF1; subst.
      destruct (Hvv (p ++ ttexts g) k c1 _ v HC1 eq_refl ltac:(assumption) HV) as (v' & W1 & W2 & W3).
      exists (fun c => Item [] [] [] v' c). cbn [view_item view_value_item]. unfold view_value_item. rewrite W1. split; [reflexivity|]. constructor; auto.
    + destruct (combed_node _ _ _ _ A1 A3) as (g & c1 & cc & -> & HG & HC1 & E1 & HCC & E2).
      eapply (HGO KEY_VALUE c1 g cc c); eauto. intros e. apply Forall_app in HH1 as [_ HH1]. inversion HH1; subst.
      destruct (key_value_view (p ++ ttexts g) c1 l lead kts ks we t v HC1 E1 ltac:(assumption) HL HK HV e) as (raw' & v' & W1 & W2 & W3).
      exists (fun c => Item lead ks raw' v' c). split; [exact W1|]. constructor; auto. congruence.
Qed.
End Items.

(** * Bodies *)
Definition next_blanks (n : N) (e : el) : N := if has_kind WHITESPACE e then n else if has_kind LINE_BREAK e then n + 1 else 0.
Lemma with_blanks_app a : forall n b, with_blanks n (a ++ b) = with_blanks n a ++ with_blanks (fold_left next_blanks a n) b.
Proof. induction a as [|e a IH]; intros n b; [reflexivity|]. cbn [app with_blanks fold_left]. f_equal. apply IH. Qed.
Lemma view_groups_app can vi a b : view_groups can vi (a ++ b) =
  match view_groups can vi a, view_groups can vi b with Some x, Some y => Some (x ++ y) | _, _ => None end.
Proof.
  unfold view_groups. rewrite opt_all_app. destruct (opt_all _ a) as [x|]; cbn [option_map]; [|reflexivity].
  destruct (opt_all _ b) as [y|]; cbn [option_map]; [|reflexivity]. rewrite concat_app. reflexivity.
Qed.
Lemma view_groups_flat can vi : forall cs p n, forallb flat_tree cs = true -> view_groups can vi (with_blanks n (place_children p cs)) = Some [].
Proof.
  induction cs as [|t cs IH]; intros p n H; [reflexivity|]. cbn [forallb] in H. apply andb_true_iff in H as [H1 H2]. destruct t; [discriminate|].
  cbn [place_children with_blanks]. change (?a :: ?l) with ([a] ++ l). rewrite view_groups_app, IH by exact H2. reflexivity.
Qed.
Lemma view_groups_cons can vi b e es : view_groups can vi ((b, e) :: es) =
  match view_groups can vi [(b, e)], view_groups can vi es with Some x, Some y => Some (x ++ y) | _, _ => None end.
Proof. apply (view_groups_app can vi [(b, e)] es). Qed.
Lemma gap_next g p n : gap g -> fold_left next_blanks (place_children p g) n = n.
Proof. intros [-> | (w & ->)]; reflexivity. Qed.
Lemma sh_items_ne table x is : sh_items table x is -> is <> [] -> x <> [].
Proof. destruct 1 as [|table a i b is HI HIS]; [congruence|]. destruct (item_head _ _ _ HI) as (k & y & r & -> & _). discriminate. Qed.
Lemma blanks_of n : N.min 255 (N.of_nat n - 1) = blanks n.
Proof. reflexivity. Qed.

Definition body_kinds (gk : kind) : Prop := gk <> DANGLING_COMMENT_GROUP /\ gk <> WHITESPACE /\ gk <> LINE_BREAK /\ gk <> COMMENT.
Lemma body_view gk table (vi : el -> option (list (item fval))) h : body_kinds gk ->
  (forall q c1 x is, combed c1 -> strips c1 = x -> (height (TNode gk c1) <= h)%nat -> sh_items table x is ->
     exists is', vi (El q (TNode gk c1)) = Some is' /\ sh_items table x is' /\ length is' = length is) ->
  forall cs p n gs m, combed cs -> sh_body gk table n (strips cs) gs m -> Forall (fun t => (height t <= h)%nat) cs ->
  exists gs', view_groups (is_kind gk) vi (with_blanks (N.of_nat n) (place_children p cs)) = Some gs' /\ sh_body gk table n (strips cs) gs' m /\
    fold_left next_blanks (place_children p cs) (N.of_nat n) = N.of_nat m.
Proof.
  intros (K1 & K2 & K3 & K4) Hvi cs p n gs m HC HB HH. remember (strips cs) as x eqn:E. symmetry in E. revert cs p E HC HH.
  induction HB as [gk table n|gk table n w es gs m HB IH|gk table n ds cs0 es gs m HL HN HB IH|gk table n its is es gs m HI HN HB IH]; intros cs p E HC HH.
  - apply combed_nil in E; auto. subst cs. exists []. cbn. split; [reflexivity|]. split; [constructor|reflexivity].
  - destruct (combed_token _ _ _ _ HC E) as (g & c & -> & HG & HK & HC2 & E2). apply Forall_app in HH as [_ HH]. inversion HH as [|? ? _ HH2]; subst.
    destruct (IH K1 K2 K3 K4 Hvi c ((p ++ ttexts g) ++ w) eq_refl HC2 HH2) as (gs' & V1 & V2 & V3). exists gs'.
    rewrite place_app, with_blanks_app, fold_left_app, view_groups_app, view_groups_flat, gap_next by auto using gap_flat.
    cbn [place_children with_blanks fold_left ttext]. rewrite view_groups_cons. unfold next_blanks at 2. unfold has_kind at 1 2 3 4. cbn [ekind_of it tkind_of kind_eqb].
    change (kind_eqb LINE_BREAK WHITESPACE) with false. change (kind_eqb LINE_BREAK LINE_BREAK) with true. cbn iota.
    replace (N.of_nat n + 1) with (N.of_nat (S n)) by lia. rewrite V1, V3. split; [reflexivity|]. split; [constructor; exact V2|reflexivity].
  - destruct (combed_node _ _ _ _ HC E) as (g & c1 & c & -> & HG & HC1 & E1 & HC2 & E2). apply Forall_app in HH as [_ HH]. inversion HH as [|? ? _ HH2]; subst.
    destruct (IH K1 K2 K3 K4 Hvi c ((p ++ ttexts g) ++ ttext (TNode DANGLING_COMMENT_GROUP c1)) eq_refl HC2 HH2) as (gs' & V1 & V2 & V3). exists (GD (blanks n) cs0 :: gs').
    rewrite place_app, with_blanks_app, fold_left_app, view_groups_app, view_groups_flat, gap_next by auto using gap_flat.
    cbn [place_children with_blanks fold_left]. rewrite view_groups_cons. unfold next_blanks at 2. unfold has_kind at 1 2 3 4. cbn [ekind_of it tkind_of].
    change (kind_eqb DANGLING_COMMENT_GROUP WHITESPACE) with false. change (kind_eqb DANGLING_COMMENT_GROUP LINE_BREAK) with false. cbn iota. change 0 with (N.of_nat 0) at 1 2. rewrite V1, V3.
    split; [|split; [constructor; auto|reflexivity]].
    unfold view_groups at 1. cbn [opt_all is_node it]. unfold has_kind. cbn [ekind_of it tkind_of]. change (kind_eqb DANGLING_COMMENT_GROUP DANGLING_COMMENT_GROUP) with true. cbn iota.
    cbn [option_map concat app]. rewrite blanks_of. do 3 f_equal. destruct HL as [HL1 HL2]. unfold group_comments, children_with_tokens. cbn [it pre]. rewrite blank_comments by (apply lead_blank; exact HL1).
    rewrite <- HL2. symmetry. apply comments_strips. apply lead_blank. exact HL1.
  - destruct (combed_node _ _ _ _ HC E) as (g & c1 & c & -> & HG & HC1 & E1 & HC2 & E2). apply Forall_app in HH as [_ HH]. inversion HH as [|? ? HH1 HH2]; subst.
    destruct (IH K1 K2 K3 K4 Hvi c ((p ++ ttexts g) ++ ttext (TNode gk c1)) eq_refl HC2 HH2) as (gs' & V1 & V2 & V3).
    destruct (Hvi (p ++ ttexts g) c1 _ is HC1 eq_refl HH1 HI) as (is' & W1 & W2 & W3). exists (GI (blanks n) is' :: gs').
    rewrite place_app, with_blanks_app, fold_left_app, view_groups_app, view_groups_flat, gap_next by auto using gap_flat.
    cbn [place_children with_blanks fold_left]. rewrite view_groups_cons. unfold next_blanks at 2. unfold has_kind at 1 2 3 4. cbn [ekind_of it tkind_of].
    rewrite (proj2 (kind_eqb_neq gk WHITESPACE) K2), (proj2 (kind_eqb_neq gk LINE_BREAK) K3). change 0 with (N.of_nat 0) at 1 2. rewrite V1, V3.
    assert (is' <> []) by (intros ->; destruct is; [congruence|discriminate]).
    split; [|split; [constructor; auto|reflexivity]].
    unfold view_groups at 1. cbn [opt_all is_node it]. unfold has_kind. cbn [ekind_of it tkind_of]. rewrite (proj2 (kind_eqb_neq gk DANGLING_COMMENT_GROUP) K1).
    unfold is_kind. rewrite kind_eqb_refl, W1. reflexivity.
Qed.

(** * After an opening bracket or a header *)
Definition not_comment (x : list tree) : Prop := match x with TToken COMMENT _ :: _ => False | _ => True end.
Lemma after_view k p kk cl w co cr otr otc : Forall (fun t => tkind_of t <> k /\ tkind_of t <> EOF) cl -> k <> EOF ->
  combed co -> strips co = otr -> sh_trail otr otc -> combed cr -> not_comment (strips cr) ->
  option_map etext (trailing_comment_in (children_with_tokens (El p (TNode kk (cl ++ TToken k w :: co ++ cr)))) k) = otc.
Proof.
  intros HL HK HCO E HT HCR HN. unfold children_with_tokens. cbn [it pre]. rewrite place_app. cbn [place_children ttext]. unfold trailing_comment_in.
  rewrite drop_while_app.
  2: { apply (forallb_place _ (fun t => tkind_of t <> k /\ tkind_of t <> EOF)); auto. intros q t [H1 H2]. unfold has_kind, ekind_of. cbn [it].
       rewrite (proj2 (kind_eqb_neq _ k) H1), (proj2 (kind_eqb_neq _ EOF) H2). reflexivity. }
  2: { unfold has_kind, ekind_of. cbn [it tkind_of]. rewrite kind_eqb_refl. reflexivity. }
  cbn [tl]. pose proof (trail_split _ _ _ HCO E HT) as HS. destruct otc as [c|].
  - destruct HS as (g & [-> | (v & ->)] & ->); reflexivity.
  - subst co. cbn [app]. destruct HCR as [|ws k' w' cs HG HK' HC|ws k' c1 cs HG H1 HC]; [reflexivity| |].
    + rewrite strips_gap in HN by exact HG. cbn in HN. rewrite HK' in HN. cbn in HN.
      assert (kind_eqb k' COMMENT = false) as HC' by (apply kind_eqb_neq; intros ->; exact HN).
      destruct HG as [-> | (v & ->)]; cbn [app place_children ttext]; unfold is_comment_token, has_kind, ekind_of; cbn [is_node it tkind_of negb andb].
      * rewrite HC'. unfold is_trivia in HK'. rewrite HK'. reflexivity.
      * change (kind_eqb WHITESPACE COMMENT) with false. change (kind_eqb WHITESPACE WHITESPACE) with true. cbn iota. rewrite HC'. reflexivity.
    + destruct HG as [-> | (v & ->)]; reflexivity.
Qed.
Lemma bdrop_app f a x b n : forallb f a = true -> f x = false ->
  bdrop_while f (with_blanks n (a ++ x :: b)) = with_blanks (fold_left next_blanks a n) (x :: b).
Proof.
  revert n. induction a as [|y a IH]; cbn [forallb app]; intros n H Hx.
  - unfold bdrop_while. cbn [with_blanks drop_while snd]. rewrite Hx. reflexivity.
  - apply andb_true_iff in H as [H1 H]. unfold bdrop_while in *. cbn [with_blanks drop_while snd]. rewrite H1. apply IH; auto.
Qed.
Definition quiet (ks : list kind) (t : tree) : Prop := match t with TNode k _ => ~ In k ks | TToken _ _ => True end.
Lemma bnext_view can vi k es : Forall (fun be : N * el => quiet [k] (it (snd be))) es -> view_groups can vi (snd (bnext_if k es)) = view_groups can vi es.
Proof.
  destruct es as [|[b e] es]; intros H; [reflexivity|]. cbn [bnext_if]. destruct (has_kind k e) eqn:E; [|reflexivity]. cbn [snd].
  inversion H as [|? ? H1 _]; subst. cbn [snd] in H1. unfold has_kind, ekind_of in E. apply kind_eqb_eq in E. rewrite view_groups_cons.
  destruct e as [q [k' cs|k' w]]; cbn [it tkind_of quiet] in *; [exfalso; apply H1; left; congruence|]. 
  unfold view_groups at 2. cbn. destruct (view_groups can vi es); reflexivity.
Qed.
Lemma bnext_all (P : N * el -> Prop) k es : Forall P es -> Forall P (snd (bnext_if k es)).
Proof. destruct 1 as [|[b e] es H HF]; cbn; auto. destruct (has_kind k e); cbn; auto. Qed.
Lemma quiet_sub a b t : incl b a -> quiet a t -> quiet b t.
Proof. intros HI. destruct t; cbn; auto. Qed.
Lemma with_blanks_all (P : tree -> Prop) n p cs : Forall P cs -> Forall (fun be : N * el => P (it (snd be))) (with_blanks n (place_children p cs)).
Proof. intros H. revert n p. induction H; intros n p; cbn; constructor; auto. Qed.
Lemma open_view can vi k p kk cl w cr : Forall (fun t => tkind_of t <> k) cl -> k <> WHITESPACE -> k <> LINE_BREAK -> Forall (quiet [WHITESPACE; COMMENT; LINE_BREAK]) cr ->
  view_groups can vi (bafter_opening k (El p (TNode kk (cl ++ TToken k w :: cr)))) =
  view_groups can vi (with_blanks 0 (place_children ((p ++ ttexts cl) ++ w) cr)).
Proof.
  intros HL HK1 HK2 HQ. unfold bafter_opening, children_with_tokens. cbn [it pre]. rewrite place_app. cbn [place_children ttext]. rewrite bdrop_app.
  2: { apply (forallb_place _ (fun t => tkind_of t <> k)); auto. intros q t H1. unfold has_kind, ekind_of. cbn [it]. rewrite (proj2 (kind_eqb_neq _ k) H1). reflexivity. }
  2: { unfold has_kind, ekind_of. cbn [it tkind_of]. rewrite kind_eqb_refl. reflexivity. }
  cbn [with_blanks tl]. unfold has_kind at 1 2, ekind_of. cbn [it tkind_of]. rewrite (proj2 (kind_eqb_neq _ _) HK1), (proj2 (kind_eqb_neq _ _) HK2).
  set (es := with_blanks 0 (place_children ((p ++ ttexts cl) ++ w) cr)).
  assert (HF : Forall (fun be : N * el => quiet [WHITESPACE; COMMENT; LINE_BREAK] (it (snd be))) es) by (apply with_blanks_all; exact HQ).
  assert (HF' : forall k es, In k [WHITESPACE; COMMENT; LINE_BREAK] -> Forall (fun be : N * el => quiet [WHITESPACE; COMMENT; LINE_BREAK] (it (snd be))) es -> Forall (fun be : N * el => quiet [k] (it (snd be))) es).
  { intros k0 es0 HI H. eapply Forall_impl; [|exact H]. intros be. apply quiet_sub. intros z [<-|[]]. exact HI. }
  destruct (bnext_if WHITESPACE es) as [b1 es1] eqn:E1. destruct (bnext_if COMMENT es1) as [b2 es2] eqn:E2.
  assert (es1 = snd (bnext_if WHITESPACE es)) as X1 by (rewrite E1; reflexivity). assert (es2 = snd (bnext_if COMMENT es1)) as X2 by (rewrite E2; reflexivity).
  assert (F1 : Forall (fun be : N * el => quiet [WHITESPACE; COMMENT; LINE_BREAK] (it (snd be))) es1) by (rewrite X1; apply bnext_all; exact HF).
  assert (F2 : Forall (fun be : N * el => quiet [WHITESPACE; COMMENT; LINE_BREAK] (it (snd be))) es2) by (rewrite X2; apply bnext_all; exact F1).
  rewrite <- (bnext_view can vi WHITESPACE es) by (apply HF'; cbn; auto). rewrite <- X1. rewrite <- (bnext_view can vi COMMENT es1) by (apply HF'; cbn; auto). rewrite <- X2.
  destruct b2; [|reflexivity]. apply bnext_view. apply HF'; cbn; auto.
Qed.
Lemma strips_quiet ks cs : Forall (quiet ks) (strips cs) -> Forall (quiet ks) cs.
Proof.
  induction cs as [|t cs IH]; intros H; [constructor|]. cbn [strips flat_map] in H. apply Forall_app in H as [H1 H2]. constructor; [|apply IH; exact H2].
  destruct t as [k x|k w]; [|exact I]. inversion H1; subst. assumption.
Qed.
Lemma body_quiet gk table n x gs m : sh_body gk table n x gs m -> body_kinds gk -> Forall (quiet [WHITESPACE; COMMENT; LINE_BREAK]) x.
Proof.
  intros H (K1 & K2 & K3 & K4). induction H; constructor; cbn [quiet]; auto; intros [E|[E|[E|[]]]]; congruence.
Qed.
Lemma body_not_comment gk table n x gs m y : sh_body gk table n x gs m -> not_comment y -> not_comment (x ++ y).
Proof. intros H HY. destruct H; cbn; auto. Qed.
Lemma lead_trail_blanks co otr otc p : combed co -> strips co = otr -> sh_trail otr otc -> forallb flat_tree co = true /\ fold_left next_blanks (place_children p co) 0 = 0.
Proof.
  intros HC E HT. pose proof (trail_split _ _ _ HC E HT) as HS. destruct otc as [c|]; [|subst co; auto].
  destruct HS as (g & [-> | (v & ->)] & ->); split; reflexivity.
Qed.
Lemma trail_flat ct tr tc : combed ct -> strips ct = tr -> sh_trail tr tc -> forallb flat_tree ct = true.
Proof. intros H E HT. apply (lead_trail_blanks ct tr tc [] H E HT). Qed.

Lemma blank_kinds k cl : Forall blank_tree cl -> lc_kind k = false -> Forall (fun t => tkind_of t <> k) cl.
Proof. intros H HK. eapply Forall_impl; [|exact H]. intros t (w & [-> | [-> | ->]]); cbn; intros <-; discriminate. Qed.
Lemma group_kind_ok table : body_kinds (group_kind table).
Proof. destruct table; repeat split; discriminate. Qed.

Lemma value_view : forall fuel p k cs x v, combed cs -> strips cs = x -> (height (TNode k cs) <= fuel)%nat -> sh_value (TNode k x) v ->
  exists v', view_value fuel (El p (TNode k cs)) = Some v' /\ sh_value (TNode k x) v' /\ vlead v' = vlead v.
Proof.
  induction fuel as [|fuel IH]; intros p k cs x v HC E HH HV; [cbn [height] in HH; lia|].
  revert E. inversion HV as [l lead k0 w tr tc HL HK HT|table l lead wo otr otc es gs wc tr tc n HL HO HB HT]; subst; intros E.
  - exists (FLit lead k w tc). split; [|split; [exact HV|reflexivity]]. cbn [view_value ekind_of it tkind_of].
    destruct (literal_value _ HK) as (_ & _ & _ & N1 & N2). 
    replace (match k with ARRAY => _ | INLINE_TABLE => _ | _ => _ end) with (view_literal (El p (TNode k cs))) by (destruct k; congruence).
    eapply literal_view; eauto.
  - destruct (combed_app _ _ _ HC E) as (ca & cb & -> & A1 & A2 & A3 & A4). destruct (combed_token _ _ _ _ A2 A4) as (g & c & -> & HG & _ & HC2 & E2).
    destruct (combed_app _ _ _ HC2 E2) as (co & cr & -> & B1 & B2 & B3 & B4). destruct (combed_app _ _ _ B2 B4) as (ce & cc & -> & C1 & C2 & C3 & C4).
    destruct (combed_token _ _ _ _ C2 C4) as (g2 & ct & -> & HG2 & _ & D1 & D2).
    assert (HBL : Forall blank_tree (ca ++ g)) by (apply lead_blank; rewrite strips_gap_r, A3; auto; apply HL).
    assert (EL : strips (ca ++ g) = l) by (rewrite strips_gap_r; auto).
    assert (OK : lc_kind (open_kind table) = false /\ open_kind table <> EOF /\ open_kind table <> WHITESPACE /\ open_kind table <> LINE_BREAK) by (destruct table; repeat split; discriminate).
    destruct OK as (O1 & O2 & O3 & O4).
    rewrite (app_assoc ca g) in *.
    assert (HHC : forall t, In t ce -> (height t <= fuel)%nat).
    { intros t Ht. eapply height_child; [exact HH|]. apply in_or_app. right. right. apply in_or_app. right. apply in_or_app. left. exact Ht. }
    destruct (body_view (group_kind table) table (if table then view_key_values (view_value fuel) else view_values (view_value fuel)) fuel (group_kind_ok table))
      with (cs := ce) (p := ((p ++ ttexts (ca ++ g)) ++ wo) ++ ttexts co) (n := 0%nat) (gs := gs) (m := n) as (gs' & V1 & V2 & V3); auto.
    { intros q c1 x is K1 K2 K3 K4. destruct fuel as [|fuel']; [cbn [height] in K3; lia|].
      destruct (items_view (view_value (S fuel')) (S fuel') (fun p k cs x v a b c d => IH p k cs x v a b c d) table is x K4 q c1 K1 K2) as (is' & I1 & I2 & I3).
      - apply Forall_forall. intros t Ht. pose proof (height_child _ _ _ _ K3 Ht). lia.
      - intros _. apply Forall_forall. intros t Ht. pose proof (height_child _ _ _ _ K3 Ht). lia.
      - exists is'. split; [|auto]. destruct table; exact I1. }
    { rewrite C3. exact HB. }
    { apply Forall_forall. exact HHC. }
    exists (FBox table lead otc gs' tc). rewrite C3 in V2. split; [|split; [econstructor; eauto|reflexivity]].
    assert (G1 : leading_texts (El p (TNode (box_kind table) ((ca ++ g) ++ TToken (open_kind table) wo :: co ++ ce ++ g2 ++ TToken (close_kind table) wc :: ct))) = lead).
    { apply (lead_view p _ (ca ++ g) _ _ l lead); auto. }
    assert (G2 : trailing_text (El p (TNode (box_kind table) ((ca ++ g) ++ TToken (open_kind table) wo :: co ++ ce ++ g2 ++ TToken (close_kind table) wc :: ct))) = tc).
    { replace ((ca ++ g) ++ TToken (open_kind table) wo :: co ++ ce ++ g2 ++ TToken (close_kind table) wc :: ct)
        with (((ca ++ g) ++ TToken (open_kind table) wo :: co ++ ce ++ g2) ++ TToken (close_kind table) wc :: ct) by (rewrite <- !app_assoc; cbn [app]; rewrite <- !app_assoc; reflexivity).
      apply (trail_view p _ _ _ wc ct tr tc); auto. destruct table; discriminate. }
    assert (G3 : option_map etext (trailing_comment_in (children_with_tokens (El p (TNode (box_kind table) ((ca ++ g) ++ TToken (open_kind table) wo :: co ++ ce ++ g2 ++ TToken (close_kind table) wc :: ct)))) (open_kind table)) = otc).
    { apply (after_view (open_kind table) p _ (ca ++ g) wo co _ otr otc); auto.
      - eapply Forall_impl; [|exact HBL]. intros t (w & [-> | [-> | ->]]); cbn [tkind_of]; split; try discriminate; destruct table; discriminate.
      - rewrite B4. eapply body_not_comment; [exact HB|]. destruct table; exact I. }
    assert (G4 : view_groups (is_kind (group_kind table)) (if table then view_key_values (view_value fuel) else view_values (view_value fuel))
       (bafter_opening (open_kind table) (El p (TNode (box_kind table) ((ca ++ g) ++ TToken (open_kind table) wo :: co ++ ce ++ g2 ++ TToken (close_kind table) wc :: ct)))) = Some gs').
    { destruct (lead_trail_blanks co otr otc ((p ++ ttexts (ca ++ g)) ++ wo) B1 B3 HO) as [F1 F2].
      rewrite open_view; auto.
      - rewrite place_app, with_blanks_app, view_groups_app, view_groups_flat, F2 by exact F1. rewrite place_app, with_blanks_app, view_groups_app. change 0 with (N.of_nat 0). rewrite V1.
        rewrite view_groups_flat; [rewrite app_nil_r; reflexivity|]. rewrite forallb_app, (gap_flat g2 HG2). cbn [forallb flat_tree andb]. eapply trail_flat; eauto.
      - apply blank_kinds; auto.
      - apply strips_quiet. rewrite strips_app, B3, B4. apply Forall_app. split.
        + destruct otc; cbn in HO; subst otr; repeat constructor.
        + apply Forall_app. split; [eapply body_quiet; eauto; apply group_kind_ok|]. constructor; [exact I|]. destruct tc; cbn in HT; subst tr; repeat constructor. }
    cbn [view_value ekind_of it tkind_of]. destruct table; cbn [box_kind open_kind close_kind group_kind] in *; rewrite G4; cbn [option_map]; rewrite G1, G2, G3; reflexivity.
Qed.

(** * Tables *)
Lemma bdrop_none f a n : forallb f a = true -> bdrop_while f (with_blanks n a) = [].
Proof.
  revert n. induction a as [|y a IH]; cbn [forallb]; intros n H; [reflexivity|]. apply andb_true_iff in H as [H1 H]. unfold bdrop_while in *. cbn [with_blanks drop_while snd]. rewrite H1. apply IH. exact H.
Qed.
Lemma header_view can vi close p kk cl w ct cb tr tc : Forall (fun t => tkind_of t <> close) cl -> lc_kind close = false -> close <> DANGLING_COMMENT_GROUP ->
  combed ct -> strips ct = tr -> sh_trail tr tc -> combed cb -> starts_line (strips cb) ->
  view_groups can vi (bafter_header close (El p (TNode kk (cl ++ TToken close w :: ct ++ cb)))) =
  view_groups can vi (with_blanks 0 (place_children (((p ++ ttexts cl) ++ w) ++ ttexts ct) cb)).
Proof.
  intros HL HK HD HCT E HT HCB HS. unfold bafter_header, children_with_tokens. cbn [it pre]. rewrite place_app. cbn [place_children ttext]. rewrite bdrop_app.
  2: { apply (forallb_place _ (fun t => tkind_of t <> close)); auto. intros q t H1. unfold has_kind, ekind_of. cbn [it]. rewrite (proj2 (kind_eqb_neq _ close) H1). reflexivity. }
  2: { unfold has_kind, ekind_of. cbn [it tkind_of]. rewrite kind_eqb_refl. reflexivity. }
  set (N0 := fold_left next_blanks (place_children p cl) 0). set (q := (p ++ ttexts cl) ++ w). rewrite place_app.
  assert (HC0 : next_blanks N0 (El (p ++ ttexts cl) (TToken close w)) = 0).
  { unfold next_blanks, has_kind, ekind_of. cbn [it tkind_of]. destruct close; try reflexivity; discriminate. }
  destruct (lead_trail_blanks ct tr tc q HCT E HT) as [F1 F2].
  assert (F3 : forallb (fun c => negb (kind_in [LINE_BREAK; DANGLING_COMMENT_GROUP] c)) (El (p ++ ttexts cl) (TToken close w) :: place_children q ct) = true).
  { cbn [forallb]. apply andb_true_iff. split.
    - unfold kind_in, ekind_of. cbn [it tkind_of]. destruct close; try reflexivity; try discriminate; congruence.
    - pose proof (trail_split _ _ _ HCT E HT) as X. destruct tc as [c|]; [|subst ct; reflexivity]. destruct X as (g & [-> | (v & ->)] & ->); reflexivity. }
  assert (F4 : cb = [] \/ exists g v r, gap g /\ cb = g ++ TToken LINE_BREAK v :: r).
  { destruct HCB as [|ws k' w' cs HG HK' HC|ws k' c1 cs HG H1 HC]; [left; reflexivity|right|]; rewrite strips_gap in HS by exact HG; cbn in HS; [|contradiction].
    rewrite HK' in HS. cbn in HS. destruct k'; try contradiction. exists ws, w', cs. auto. }
  destruct F4 as [-> | (g & v & r & HG & ->)].
  - rewrite app_nil_r. rewrite bdrop_none by exact F3. reflexivity.
  - rewrite place_app. cbn [place_children]. set (q2 := q ++ ttexts ct).
    rewrite (app_assoc (place_children q ct)), app_comm_cons.
    rewrite bdrop_app; [|rewrite app_comm_cons, forallb_app, F3; destruct HG as [-> | (x & ->)]; reflexivity|reflexivity].
    cbn [app fold_left]. rewrite HC0, fold_left_app, F2, gap_next by exact HG.
    rewrite with_blanks_app, view_groups_app, view_groups_flat, gap_next by auto using gap_flat. destruct (view_groups _ _ _); reflexivity.
Qed.
Lemma table_view fuel p b array cs l lead wo kts ks wc tr tc body gs m : combed cs ->
  strips cs = l ++ TToken (head_kind array) wo :: TNode KEYS kts :: TToken (tail_kind array) wc :: tr ++ body -> (height (TNode (table_kind array) cs) <= fuel)%nat ->
  sh_lead l lead -> sh_keys kts ks -> sh_trail tr tc -> starts_line body -> sh_body KEY_VALUE_GROUP true 0 body gs m ->
  exists gs', view_table fuel (b, El p (TNode (table_kind array) cs)) = Some (FTable array lead ks tc gs' b) /\ sh_body KEY_VALUE_GROUP true 0 body gs' m.
Proof.
  intros HC E HH HL HK HT HS HB. destruct (combed_app _ _ _ HC E) as (ca & cb & -> & A1 & A2 & A3 & A4). destruct (combed_token _ _ _ _ A2 A4) as (g & c & -> & HG & _ & HC2 & E2).
  destruct (combed_node _ _ _ _ HC2 E2) as (g2 & ck & c2 & -> & HG2 & HCK & EK & HC3 & E3). destruct (combed_token _ _ _ _ HC3 E3) as (g3 & c3 & -> & HG3 & _ & HC4 & E4).
  destruct (combed_app _ _ _ HC4 E4) as (ct & cy & -> & B1 & B2 & B3 & B4).
  assert (HBL : Forall blank_tree (ca ++ g)) by (apply lead_blank; rewrite strips_gap_r, A3; auto; apply HL).
  assert (EL : strips (ca ++ g) = l) by (rewrite strips_gap_r; auto). rewrite (app_assoc ca g) in *.
  set (cl := (ca ++ g) ++ TToken (head_kind array) wo :: g2 ++ TNode KEYS ck :: g3).
  assert (EC : (ca ++ g) ++ TToken (head_kind array) wo :: g2 ++ TNode KEYS ck :: g3 ++ TToken (tail_kind array) wc :: ct ++ cy = cl ++ TToken (tail_kind array) wc :: ct ++ cy).
  { unfold cl. rewrite <- !app_assoc. cbn [app]. rewrite <- !app_assoc. reflexivity. }
  assert (HCL : Forall (fun t => tkind_of t <> tail_kind array /\ tkind_of t <> EOF) cl).
  { assert (HGA : forall g, gap g -> Forall (fun t => tkind_of t <> tail_kind array /\ tkind_of t <> EOF) g).
    { intros g0 [-> | (v & ->)]; repeat constructor; cbn; destruct array; discriminate. }
    unfold cl. apply Forall_app. split; [eapply Forall_impl; [|exact HBL]; intros t (w & [-> | [-> | ->]]); cbn [tkind_of]; split; destruct array; discriminate|].
    constructor; [cbn; split; destruct array; discriminate|]. apply Forall_app. split; [auto|]. constructor; [cbn; split; destruct array; discriminate|auto]. }
  assert (HCH : children (El p (TNode (table_kind array) ((ca ++ g) ++ TToken (head_kind array) wo :: g2 ++ TNode KEYS ck :: g3 ++ TToken (tail_kind array) wc :: ct ++ cy))) =
     El (((p ++ ttexts (ca ++ g)) ++ wo) ++ ttexts g2) (TNode KEYS ck) ::
       filter is_node (place_children ((((p ++ ttexts (ca ++ g)) ++ wo) ++ ttexts g2) ++ ttext (TNode KEYS ck)) (g3 ++ TToken (tail_kind array) wc :: ct ++ cy))).
  { unfold children, children_with_tokens. cbn [it pre]. rewrite place_app, filter_app, blanks_flat_nodes by exact HBL. cbn [app place_children filter is_node it ttext].
    rewrite place_app, filter_app, gap_nodes by exact HG2. reflexivity. }
  destruct (body_view KEY_VALUE_GROUP true (view_key_values (view_value fuel)) fuel) with (cs := cy) (p := ((p ++ ttexts cl) ++ wc) ++ ttexts ct) (n := 0%nat) (gs := gs) (m := m) as (gs' & V1 & V2 & V3); auto.
  { repeat split; discriminate. }
  { intros q c1 x is K1 K2 K3 K4. destruct fuel as [|fuel']; [cbn [height] in K3; lia|].
    destruct (items_view (view_value (S fuel')) (S fuel') (value_view (S fuel')) true is x K4 q c1 K1 K2) as (is' & I1 & I2 & I3).
    - apply Forall_forall. intros t Ht. pose proof (height_child _ _ _ _ K3 Ht). lia.
    - discriminate.
    - exists is'. auto. }
  { rewrite B4. exact HB. }
  { apply Forall_forall. intros t Ht. destruct fuel as [|fuel']; [cbn [height] in HH; lia|]. 
    assert (height t <= fuel')%nat; [|lia]. eapply height_child; [exact HH|]. rewrite EC. apply in_or_app. right. right. apply in_or_app. right. exact Ht. }
  exists gs'. rewrite B4 in V2. split; [|exact V2]. unfold view_table, keys_child, child. rewrite HCH. cbn [find]. unfold ekind_of at 1. cbn [it tkind_of]. change (is_kind KEYS KEYS) with true. cbn iota.
  rewrite (keys_view _ KEYS ck kts ks) by auto.
  assert (HTC : table_close (El p (TNode (table_kind array) ((ca ++ g) ++ TToken (head_kind array) wo :: g2 ++ TNode KEYS ck :: g3 ++ TToken (tail_kind array) wc :: ct ++ cy))) = tail_kind array) by (destruct array; reflexivity).
  rewrite HTC. rewrite (lead_view p _ (ca ++ g) (TToken (head_kind array) wo) _ l lead) by (auto; destruct array; reflexivity). rewrite EC.
  rewrite (header_view _ _ (tail_kind array) p (table_kind array) cl wc ct cy tr tc); auto.
  - change 0 with (N.of_nat 0). rewrite V1. rewrite (after_view (tail_kind array) p (table_kind array) cl wc ct cy tr tc); auto.
    + destruct array; reflexivity.
    + destruct array; discriminate.
    + rewrite B4. destruct body as [|[]]; cbn in *; auto. destruct k; auto.
  - eapply Forall_impl; [|exact HCL]. intros t [H _]. exact H.
  - destruct array; reflexivity.
  - destruct array; discriminate.
  - rewrite B4. exact HS.
Qed.

(** * The root *)
Definition table_el (be : N * el) : bool := is_node (snd be) && is_table_or_array_of_table (ekind_of (snd be)).
Lemma filter_flat_tables cs : forall p n, forallb flat_tree cs = true -> filter table_el (with_blanks n (place_children p cs)) = [].
Proof. induction cs as [|[k x|k w] cs IH]; intros p n H; cbn [forallb flat_tree] in H; try discriminate; [reflexivity|]. cbn. apply IH. exact H. Qed.
Lemma tables_view fuel n x ts : sh_tables n x ts -> forall cs p vi, combed cs -> strips cs = x -> Forall (fun t => (height t <= fuel)%nat) cs ->
  exists ts', opt_all (view_table fuel) (filter table_el (with_blanks (N.of_nat n) (place_children p cs))) = Some ts' /\ sh_tables n x ts' /\
    view_groups (is_kind KEY_VALUE_GROUP) vi (with_blanks (N.of_nat n) (place_children p cs)) = Some [].
Proof.
  induction 1 as [n|n w es ts H IH|array n l lead wo kts ks wc tr tc body gs m es ts HL HK HT HS HB H IH]; intros cs p vi HC E HH.
  - apply combed_nil in E; auto. subst cs. exists []. cbn. split; [reflexivity|]. split; [constructor|reflexivity].
  - destruct (combed_token _ _ _ _ HC E) as (g & c & -> & HG & _ & HC2 & E2). apply Forall_app in HH as [_ HH]. inversion HH as [|? ? _ HH2]; subst.
    destruct (IH c ((p ++ ttexts g) ++ w) vi HC2 eq_refl HH2) as (ts' & V1 & V2 & V3). exists ts'.
    rewrite place_app, with_blanks_app, filter_app, filter_flat_tables, view_groups_app, view_groups_flat, gap_next by auto using gap_flat.
    cbn [app place_children with_blanks ttext]. rewrite view_groups_cons. unfold has_kind at 1 2 3 4, ekind_of. cbn [it tkind_of].
    change (kind_eqb LINE_BREAK WHITESPACE) with false. change (kind_eqb LINE_BREAK LINE_BREAK) with true. cbn iota. replace (N.of_nat n + 1) with (N.of_nat (S n)) by lia.
    rewrite V3. cbn [filter]. unfold table_el at 1. cbn [snd is_node it andb]. split; [exact V1|]. split; [constructor; exact V2|reflexivity].
  - destruct (combed_node _ _ _ _ HC E) as (g & c1 & c & -> & HG & HC1 & E1 & HC2 & E2). apply Forall_app in HH as [_ HH]. inversion HH as [|? ? HH1 HH2]; subst.
    destruct (IH c ((p ++ ttexts g) ++ ttext (TNode (table_kind array) c1)) vi HC2 eq_refl HH2) as (ts' & V1 & V2 & V3).
    destruct (table_view fuel (p ++ ttexts g) (N.min 255 (N.of_nat n - 1)) array c1 l lead wo kts ks wc tr tc body gs m HC1 E1 HH1 HL HK HT HS HB) as (gs' & W1 & W2).
    exists (FTable array lead ks tc gs' (blanks n) :: ts').
    rewrite place_app, with_blanks_app, filter_app, filter_flat_tables, view_groups_app, view_groups_flat, gap_next by auto using gap_flat.
    cbn [app place_children with_blanks]. rewrite view_groups_cons. unfold has_kind at 1 2 3 4. cbn [ekind_of it tkind_of].
    assert (kind_eqb (table_kind array) WHITESPACE = false) as -> by (destruct array; reflexivity). assert (kind_eqb (table_kind array) LINE_BREAK = false) as -> by (destruct array; reflexivity).
    change 0 with (N.of_nat 0). rewrite V3. cbn [filter]. unfold table_el at 1. cbn [snd is_node it andb]. unfold ekind_of at 1. cbn [it tkind_of].
    assert (is_table_or_array_of_table (table_kind array) = true) as -> by (destruct array; reflexivity). rewrite opt_all_cons, W1, V1.
    split; [reflexivity|]. split; [econstructor; eauto|]. destruct array; reflexivity.
Qed.
Lemma body_tables gk n x gs m : sh_body gk true n x gs m -> gk = KEY_VALUE_GROUP -> forall cs p k, strips cs = x -> combed cs -> filter table_el (with_blanks k (place_children p cs)) = [].
Proof.
  intros H. induction H as [gk table n|gk table n w es gs m HB IH|gk table n ds cs0 es gs m HL HN HB IH|gk table n its is es gs m HI HN HB IH]; intros EG cs p k E HC.
  - apply combed_nil in E; auto. subst cs. reflexivity.
  - destruct (combed_token _ _ _ _ HC E) as (g & c & -> & HG & _ & HC2 & E2).
    rewrite place_app, with_blanks_app, filter_app, filter_flat_tables by auto using gap_flat. cbn [app place_children with_blanks filter]. unfold table_el at 1. cbn [snd is_node it andb]. apply IH; auto.
  - destruct (combed_node _ _ _ _ HC E) as (g & c1 & c & -> & HG & HC1 & E1 & HC2 & E2).
    rewrite place_app, with_blanks_app, filter_app, filter_flat_tables by auto using gap_flat. cbn [app place_children with_blanks filter]. unfold table_el at 1. cbn [snd is_node it andb ekind_of tkind_of is_table_or_array_of_table]. apply IH; auto.
  - subst gk. destruct (combed_node _ _ _ _ HC E) as (g & c1 & c & -> & HG & HC1 & E1 & HC2 & E2).
    rewrite place_app, with_blanks_app, filter_app, filter_flat_tables by auto using gap_flat. cbn [app place_children with_blanks filter]. unfold table_el at 1. cbn [snd is_node it andb ekind_of tkind_of is_table_or_array_of_table]. apply IH; auto.
Qed.

(** The formatter can read the tree of an error-free parse, and reads what is there. *)
Theorem root_view c ws d : combed c -> gap ws -> sh_doc (TNode ROOT (strips c)) d ->
  exists d', view_root (height (TNode ROOT (c ++ ws))) (El [] (TNode ROOT (c ++ ws))) = Some d' /\ sh_doc (TNode ROOT (strips c)) d'.
Proof.
  intros HC HW HD. remember (TNode ROOT (strips c)) as t eqn:E. destruct HD as [es gs n ts tables HB HT]. injection E as E. symmetry in E.
  destruct (combed_app _ _ _ HC E) as (ce & ct & -> & A1 & A2 & A3 & A4).
  set (fuel := height (TNode ROOT ((ce ++ ct) ++ ws))).
  assert (HH : forall t, In t (ce ++ ct) -> (height t <= fuel)%nat).
  { intros t Ht. unfold fuel. destruct (height (TNode ROOT ((ce ++ ct) ++ ws))) as [|f] eqn:EF; [cbn [height] in EF; discriminate|].
    assert (height t <= f)%nat; [|lia]. apply (height_child ROOT ((ce ++ ct) ++ ws)); [lia|]. apply in_or_app. left. exact Ht. }
  destruct (body_view KEY_VALUE_GROUP true (view_key_values (view_value fuel)) fuel) with (cs := ce) (p := @nil N) (n := 0%nat) (gs := gs) (m := n) as (gs' & V1 & V2 & V3); auto.
  { repeat split; discriminate. }
  { intros q c1 x is K1 K2 K3 K4. destruct fuel as [|fuel']; [cbn [height] in K3; lia|].
    destruct (items_view (view_value (S fuel')) (S fuel') (value_view (S fuel')) true is x K4 q c1 K1 K2) as (is' & I1 & I2 & I3).
    - apply Forall_forall. intros t Ht. pose proof (height_child _ _ _ _ K3 Ht). lia.
    - discriminate.
    - exists is'. auto. }
  { rewrite A3. exact HB. }
  { apply Forall_forall. intros t Ht. apply HH. apply in_or_app. auto. }
  destruct (tables_view fuel n ts tables HT ct (ttexts ce) (view_key_values (view_value fuel)) A2 A4) as (ts' & W1 & W2 & W3).
  { apply Forall_forall. intros t Ht. apply HH. apply in_or_app. auto. }
  exists (FDoc gs' ts'). rewrite A3 in V2. split; [|econstructor; eauto].
  unfold view_root, children_with_tokens. cbn [it pre].
  change (fun be : N * el => is_node (snd be) && is_table_or_array_of_table (ekind_of (snd be))) with table_el.
  rewrite <- app_assoc, place_app, with_blanks_app, filter_app, view_groups_app. change 0 with (N.of_nat 0). rewrite V1, V3.
  rewrite (body_tables _ _ _ _ _ HB eq_refl ce [] _ A3 A1). cbn [app].
  rewrite place_app, with_blanks_app, filter_app, view_groups_app. rewrite W3.
  rewrite (filter_flat_tables ws), app_nil_r by (apply gap_flat; exact HW). rewrite W1, (view_groups_flat _ _ ws) by (apply gap_flat; exact HW). cbn [app]. rewrite app_nil_r. reflexivity.
Qed.
