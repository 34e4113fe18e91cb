(** The shape of an error-free parse: the trees of the grammar and what the formatter reads in them. *)
From Coq Require Import String Ascii List NArith Bool Arith Lia.
From Verif Require Import Base SyntaxKind TextModel LexerModel LexerSpec LexerProofs ParserModel ParserInv ParserPrims ParserGrammar ParserBuild
  AstModel FormatterModel FormatterLayout ParserYield.
Import ListNotations.
Open Scope N_scope.
Open Scope list_scope.

(** * The grammar of trees, without white space *)
Definition lc_tree (t : tree) : Prop := exists w, t = TToken COMMENT w \/ t = TToken LINE_BREAK w.
Definition comment_of (t : tree) : list str := match t with TToken COMMENT w => [w] | _ => [] end.
Definition comments_of (cs : list tree) : list str := flat_map comment_of cs.
Definition sh_lead (cs : list tree) (l : list str) : Prop := Forall lc_tree cs /\ comments_of cs = l.
Definition sh_trail (cs : list tree) (tc : option str) : Prop :=
  match tc with None => cs = [] | Some c => cs = [TToken COMMENT c] end.
Inductive sh_key : tree -> fkey -> Prop :=
| sh_key_node k w : key_kind k = true -> sh_key (TNode k [TToken k w]) (k, w).
Inductive sh_dot : tree -> Prop :=
| sh_dot_token w : sh_dot (TToken DOT w)
| sh_dot_node w : sh_dot (TNode DOT [TToken DOT w]).
Inductive sh_keys : list tree -> list fkey -> Prop :=
| sh_keys_one t k : sh_key t k -> sh_keys [t] [k]
| sh_keys_more t k d ts ks : sh_key t k -> sh_dot d -> sh_keys ts ks -> sh_keys (t :: d :: ts) (k :: ks).
Inductive sh_comma : list tree -> option fcomma -> Prop :=
| sh_comma_none : sh_comma [] None
| sh_comma_some l lead w tr tc : sh_lead l lead -> sh_trail tr tc ->
    sh_comma [TNode COMMA (l ++ TToken COMMA w :: tr)] (Some (Comma lead tc)).
Definition box_kind (table : bool) : kind := if table then INLINE_TABLE else ARRAY.
Definition open_kind (table : bool) : kind := if table then BRACE_START else BRACKET_START.
Definition close_kind (table : bool) : kind := if table then BRACE_END else BRACKET_END.
Definition group_kind (table : bool) : kind := if table then KEY_VALUE_WITH_COMMA_GROUP else VALUE_WITH_COMMA_GROUP.
Definition blanks (n : nat) : N := N.min 255 (N.of_nat n - 1).

Inductive sh_value : tree -> fval -> Prop :=
| sh_lit l lead k w tr tc : sh_lead l lead -> literal_kind k = true -> sh_trail tr tc ->
    sh_value (TNode k (l ++ TToken k w :: tr)) (FLit lead k w tc)
| sh_box table l lead wo otr otc es gs wc tr tc n : sh_lead l lead -> sh_trail otr otc -> sh_body (group_kind table) table 0 es gs n -> sh_trail tr tc ->
    sh_value (TNode (box_kind table) (l ++ TToken (open_kind table) wo :: otr ++ es ++ TToken (close_kind table) wc :: tr))
             (FBox table lead otc gs tc)
(** an item with its comma; [table]: a key/value *)
with sh_item : bool -> list tree -> item fval -> Prop :=
| sh_item_value t v cs c : sh_value t v -> sh_comma cs c -> sh_item false (t :: cs) (Item [] [] [] v c)
| sh_item_kv l lead kts ks raw we t v cs c : sh_lead l lead -> sh_keys kts ks -> sh_value t v -> vlead v = [] -> sh_comma cs c ->
    sh_item true (TNode KEY_VALUE (l ++ [TNode KEYS kts; TToken EQUAL we; t]) :: cs) (Item lead ks raw v c)
with sh_items : bool -> list tree -> list (item fval) -> Prop :=
| sh_items_nil table : sh_items table [] []
| sh_items_cons table a i b is : sh_item table a i -> sh_items table b is -> sh_items table (a ++ b) (i :: is)
(** the groups of a body; [n] line breaks have been passed since the last group *)
with sh_body : kind -> bool -> nat -> list tree -> list (group (item fval)) -> nat -> Prop :=
| sh_body_nil gk table n : sh_body gk table n [] [] n
| sh_body_break gk table n w es gs m : sh_body gk table (S n) es gs m -> sh_body gk table n (TToken LINE_BREAK w :: es) gs m
| sh_body_dangling gk table n ds cs es gs m : sh_lead ds cs -> cs <> [] -> sh_body gk table 0 es gs m ->
    sh_body gk table n (TNode DANGLING_COMMENT_GROUP ds :: es) (GD (blanks n) cs :: gs) m
| sh_body_group gk table n its is es gs m : sh_items table its is -> is <> [] -> sh_body gk table 0 es gs m ->
    sh_body gk table n (TNode gk its :: es) (GI (blanks n) is :: gs) m.

Definition table_kind (array : bool) : kind := if array then ARRAY_OF_TABLE else TABLE.
Definition head_kind (array : bool) : kind := if array then DOUBLE_BRACKET_START else BRACKET_START.
Definition tail_kind (array : bool) : kind := if array then DOUBLE_BRACKET_END else BRACKET_END.
Definition starts_line (es : list tree) : Prop := match es with [] => True | TToken LINE_BREAK _ :: _ => True | _ => False end.
Inductive sh_tables : nat -> list tree -> list ftable -> Prop :=
| sh_tables_nil n : sh_tables n [] []
| sh_tables_break n w es ts : sh_tables (S n) es ts -> sh_tables n (TToken LINE_BREAK w :: es) ts
| sh_tables_cons array n l lead wo kts ks wc tr tc body gs m es ts : sh_lead l lead -> sh_keys kts ks -> sh_trail tr tc -> starts_line body ->
    sh_body KEY_VALUE_GROUP true 0 body gs m -> sh_tables 0 es ts ->
    sh_tables n (TNode (table_kind array) (l ++ TToken (head_kind array) wo :: TNode KEYS kts :: TToken (tail_kind array) wc :: tr ++ body) :: es)
      (FTable array lead ks tc gs (blanks n) :: ts).
Inductive sh_doc : tree -> fdoc -> Prop :=
| sh_root es gs n ts tables : sh_body KEY_VALUE_GROUP true 0 es gs n -> sh_tables n ts tables -> sh_doc (TNode ROOT (es ++ ts)) (FDoc gs tables).

Lemma sh_lead_app a x b y : sh_lead a x -> sh_lead b y -> sh_lead (a ++ b) (x ++ y).
Proof.
  intros [H1 <-] [H2 <-]. split; [apply Forall_app; auto|]. unfold comments_of. apply flat_map_app.
Qed.
Lemma sh_lead_ex a : Forall lc_tree a -> sh_lead a (comments_of a).
Proof. intros H. split; auto. Qed.
Lemma sh_keys_app a x d b y : sh_keys a x -> sh_dot d -> sh_keys b y -> sh_keys (a ++ d :: b) (x ++ y).
Proof. induction 1; intros HD HB; cbn [app]; constructor; auto. Qed.
Lemma sh_body_app gk table a ga : forall n m, sh_body gk table n a ga m -> forall b gb o, sh_body gk table m b gb o -> sh_body gk table n (a ++ b) (ga ++ gb) o.
Proof.
  revert ga. induction a as [|t a IH]; intros ga n m H b gb o HB; inversion H; subst; cbn [app]; auto; constructor; eauto.
Qed.
Lemma sh_items_app table a x b y : sh_items table a x -> sh_items table b y -> sh_items table (a ++ b) (x ++ y).
Proof.
  revert a. induction x as [|i x IH]; intros a H HB; inversion H; subst; cbn [app]; auto. rewrite <- app_assoc. constructor; auto.
Qed.
Lemma sh_tables_break_app bs es ts : Forall (fun t => exists w, t = TToken LINE_BREAK w) bs -> forall n, (forall n, exists ts', sh_tables n es ts' /\ map t_keys ts' = map t_keys ts) -> exists ts', sh_tables n (bs ++ es) ts' /\ map t_keys ts' = map t_keys ts.
Proof.
  induction 1 as [|t bs [w ->] HF IH]; intros n H; cbn [app]; auto. destruct (IH (S n) H) as (ts' & H1 & H2). exists ts'. split; auto. constructor. exact H1.
Qed.

(** * Tokens that a lexer makes *)
Record tame (ts : list LexerModel.token) : Prop := MkTame {
  tame_plain : forall a t b, ts = a ++ t :: b -> plain_kind (tkind t) = true;
  tame_eof : forall a t b, ts = a ++ t :: b -> tkind t = EOF -> b = [];
  tame_comment : forall a t u b, ts = a ++ t :: u :: b -> tkind t = COMMENT -> tkind u = LINE_BREAK \/ tkind u = EOF }.
Lemma tame_suffix c r : tame (c ++ r) -> tame r.
Proof.
  intros [H1 H2 H3]. split.
  - intros a t b ->. apply (H1 (c ++ a) t b). rewrite <- app_assoc. reflexivity.
  - intros a t b ->. apply (H2 (c ++ a) t b). rewrite <- app_assoc. reflexivity.
  - intros a t u b ->. apply (H3 (c ++ a) t u b). rewrite <- app_assoc. reflexivity.
Qed.
Lemma tame_yields p cs p' : yields p cs p' -> tame (p_rest p) -> tame (p_rest p').
Proof. intros [_ (tr & c & n & _ & E & _ & _ & _ & _)] H. rewrite E in H. eapply tame_suffix; eauto. Qed.

(** * Line breaks between the trees *)
Fixpoint tkinds (t : tree) : list kind := match t with TToken k _ => [k] | TNode _ cs => flat_map tkinds cs end.
Definition lkinds (cs : list tree) : list kind := flat_map tkinds cs.
Definition begins_line (ks : list kind) : Prop := exists a, ks = LINE_BREAK :: a.
Definition ends_line (ks : list kind) : Prop := exists a, ks = a ++ [LINE_BREAK].
(** A line break between the two, unless one of them is empty *)
Definition junction (a b : list tree) : Prop := lkinds a = [] \/ lkinds b = [] \/ ends_line (lkinds a) \/ begins_line (lkinds b).
Definition lined (cs : list tree) : Prop := forall a b, cs = a ++ b -> junction a b.
Lemma lkinds_app a b : lkinds (a ++ b) = lkinds a ++ lkinds b.
Proof. apply flat_map_app. Qed.
Lemma begins_app a b : begins_line a -> begins_line (a ++ b).
Proof. intros (x & ->). exists (x ++ b). reflexivity. Qed.
Lemma ends_app a b : ends_line b -> ends_line (a ++ b).
Proof. intros (x & ->). exists (a ++ x). apply app_assoc. Qed.
Lemma split_app {A} (x y a b : list A) : x ++ y = a ++ b -> exists l, (a = x ++ l /\ y = l ++ b) \/ (x = a ++ l /\ b = l ++ y).
Proof.
  revert a. induction x as [|c x IH]; intros [|d a] E; cbn [app] in *.
  - exists []. auto.
  - exists (d :: a). auto.
  - exists (c :: x). auto.
  - injection E as <- E. destruct (IH a E) as (l & [[-> ->]|[-> ->]]); exists l; auto.
Qed.
Lemma lined_app x y : lined x -> lined y -> junction x y -> lined (x ++ y).
Proof.
  intros HX HY HJ a b E. destruct (split_app _ _ _ _ E) as (l & [[-> ->]|[-> ->]]); unfold junction in *; rewrite !lkinds_app in *.
  - destruct (HY l b eq_refl) as [E1|[E1|[E1|E1]]]; auto using ends_app. rewrite E1, app_nil_r in *. destruct HJ as [H|[H|[H|H]]]; auto.
  - destruct (HX a l eq_refl) as [E1|[E1|[E1|E1]]]; auto using begins_app. rewrite E1, app_nil_r in *. destruct HJ as [H|[H|[H|H]]]; auto.
Qed.
Lemma lined_nil : lined [].
Proof. intros a b E. symmetry in E. apply app_eq_nil in E as [-> ->]. left. reflexivity. Qed.
Lemma lined_one t : lined [t].
Proof. intros [|u a] b E; [left; reflexivity|]. injection E as _ E. symmetry in E. apply app_eq_nil in E as [-> ->]. right. left. reflexivity. Qed.
Lemma lined_breaks cs : Forall (fun t => exists w, t = TToken LINE_BREAK w) cs -> lined cs /\ (lkinds cs = [] \/ ends_line (lkinds cs)).
Proof.
  induction 1 as [|t cs (w & ->) HF [IH1 IH2]]; [split; [apply lined_nil|auto]|]. split.
  - apply (lined_app [_] cs); [apply lined_one|exact IH1|]. right. right. left. exists []. reflexivity.
  - right. change (lkinds (TToken LINE_BREAK w :: cs)) with ([LINE_BREAK] ++ lkinds cs). destruct IH2 as [-> |H]; [exists []; reflexivity|apply ends_app; exact H].
Qed.
(** The tokens that count *)
Definition sign (ts : list LexerModel.token) : list LexerModel.token := filter (fun t => negb (triv t)) ts.
Lemma sign_app a b : sign (a ++ b) = sign a ++ sign b.
Proof. apply filter_app. Qed.
Lemma sign_all g : Forall (fun t => triv t = false) g -> sign g = g.
Proof. induction 1 as [|t g H _ IH]; [reflexivity|]. cbn. rewrite H. cbn. f_equal. exact IH. Qed.
Lemma sig_sign ts : sign ts = [] -> sig ts = [].
Proof. induction ts as [|t ts IH]; [reflexivity|]. cbn. destruct (triv t); cbn; [exact IH|discriminate]. Qed.
Lemma sig_triv_app a b : sign a = [] -> sig (a ++ b) = sig b.
Proof. induction a as [|t a IH]; [reflexivity|]. cbn. destruct (triv t); cbn; [exact IH|discriminate]. Qed.
Lemma khd_sign a b t r : sign a = t :: r -> khd (sig (a ++ b)) = tkind t.
Proof.
  induction a as [|u a IH]; [discriminate|]. cbn. destruct (triv u); cbn; [exact IH|]. intros E. injection E as -> _. reflexivity.
Qed.
(** The first and the last leaf of the trees, and the tokens they are made of *)
Lemma shaped_head src tr ts cs : shaped src tr ts cs -> (lkinds cs = [] /\ sign ts = []) \/
  exists t ts' k ks, sign ts = t :: ts' /\ lkinds cs = k :: ks /\ (tkind t = LINE_BREAK -> k = LINE_BREAK).
Proof.
  induction 1 as [|t tr ts cs HT H IH|k n grp tr ts cs HF HL HK H IH|k tr1 ts1 cs1 tr ts cs HT H1 IH1 H IH].
  - left. auto.
  - cbn [sign filter]. rewrite HT. exact IH.
  - right. rewrite sign_app, (sign_all _ HF). change (lkinds (TToken k (wtexts src grp) :: cs)) with (k :: lkinds cs).
    destruct HK as [t|t HR|t u K1 K2|t u K1 K2]; eexists t, _, _, _; (split; [reflexivity|]); (split; [reflexivity|]); auto; intros E; rewrite E in *; discriminate.
  - rewrite sign_app. change (lkinds (TNode k cs1 :: cs)) with (lkinds cs1 ++ lkinds cs). destruct IH1 as [[E1 E2]|(t & ts' & k' & ks & E1 & E2 & E3)].
    + rewrite E1, E2. exact IH.
    + right. rewrite E1, E2. eexists t, _, k', _. cbn [app]. auto.
Qed.
Lemma reads_head src c n : reads src c n -> (sign c = [] /\ sign n = []) \/
  exists t c' u n', sign c = t :: c' /\ sign n = u :: n' /\ (tkind t = LINE_BREAK -> u = t).
Proof.
  induction 1 as [|t c n H IH|t u v x y z c n HK HS HU HV [K1 S1] [K2 S2] [K3 S3] H IH]; [left; auto| |].
  - cbn [sign filter]. destruct (triv t); cbn [negb]; [exact IH|]. right. eexists t, _, t, _. auto.
  - right. cbn [sign filter]. unfold triv, is_trivia. rewrite HK, K1, K2, K3. cbn [kind_eqb negb]. change (kind_eqb FLOAT WHITESPACE) with false. change (kind_eqb BARE_KEY WHITESPACE) with false. change (kind_eqb DOT WHITESPACE) with false. cbn [negb].
    eexists t, _, x, _. split; [reflexivity|]. split; [reflexivity|]. intros E. congruence.
Qed.
Lemma shaped_last src tr ts cs : shaped src tr ts cs -> (lkinds cs = [] /\ sign ts = []) \/
  exists t ts' k ks, sign ts = ts' ++ [t] /\ lkinds cs = ks ++ [k] /\ (k = COMMENT -> tkind t = COMMENT).
Proof.
  assert (HL : forall (a b : list kind) (x y : list LexerModel.token) (P : kind -> LexerModel.token -> Prop), (b = [] /\ y = [] \/ exists t y' k b', y = y' ++ [t] /\ b = b' ++ [k] /\ P k t) ->
     (a = [] /\ x = [] \/ exists t x' k a', x = x' ++ [t] /\ a = a' ++ [k] /\ P k t) -> a ++ b = [] /\ x ++ y = [] \/ exists t z k c, x ++ y = z ++ [t] /\ a ++ b = c ++ [k] /\ P k t).
  { intros a b x y P [[-> ->]|(t & y' & k & b' & -> & -> & HP)] HA.
    - rewrite !app_nil_r. exact HA.
    - right. exists t, (x ++ y'), k, (a ++ b'). rewrite !app_assoc. auto. }
  induction 1 as [|t tr ts cs HT H IH|k n grp tr ts cs HF HN HK H IH|k tr1 ts1 cs1 tr ts cs HT H1 IH1 H IH].
  - left. auto.
  - cbn [sign filter]. rewrite HT. exact IH.
  - rewrite sign_app, (sign_all _ HF). change (lkinds (TToken k (wtexts src grp) :: cs)) with ([k] ++ lkinds cs).
    refine (HL [k] (lkinds cs) grp (sign ts) (fun k t => k = COMMENT -> tkind t = COMMENT) _ _); [destruct IH as [IH|(t & a & b & c & I1 & I2 & I3)]; [left; exact IH|right; eauto 8]|].
    right. destruct HK as [t|t HR|t u K1 K2|t u K1 K2].
    + exists t, [], (tkind t), []. auto.
    + exists t, [], BARE_KEY, []. split; [reflexivity|]. split; [reflexivity|discriminate].
    + exists u, [t], DOUBLE_BRACKET_START, []. split; [reflexivity|]. split; [reflexivity|discriminate].
    + exists u, [t], DOUBLE_BRACKET_END, []. split; [reflexivity|]. split; [reflexivity|discriminate].
  - rewrite sign_app. change (lkinds (TNode k cs1 :: cs)) with (lkinds cs1 ++ lkinds cs).
    refine (HL (lkinds cs1) (lkinds cs) (sign ts1) (sign ts) (fun k t => k = COMMENT -> tkind t = COMMENT) _ _);
      [destruct IH as [IH|(t & a & b & c & I1 & I2 & I3)]; [left; exact IH|right; eauto 8]|destruct IH1 as [IH1|(t & a & b & c & I1 & I2 & I3)]; [left; exact IH1|right; eauto 8]].
Qed.
Lemma reads_last src c n : reads src c n -> forall n' u, sign n = n' ++ [u] -> tkind u = COMMENT -> exists c', sign c = c' ++ [u].
Proof.
  induction 1 as [|t c n H IH|t u v x y z c n HK HS HU HV [K1 S1] [K2 S2] [K3 S3] H IH]; intros n' w E HC.
  - destruct n'; discriminate.
  - cbn [sign filter] in *. destruct (triv t); cbn [negb] in *; [eapply IH; eauto|]. destruct n' as [|m n']; cbn [app] in E.
    + injection E as -> E. fold (sign n) in E. exists []. f_equal. fold (sign c). destruct (reads_head _ _ _ H) as [[-> _]|(a & b & d & e & _ & E2 & _)]; [reflexivity|]. rewrite E2 in E. discriminate.
    + injection E as -> E. destruct (IH n' w E HC) as (c' & E2). exists (m :: c'). cbn [app]. f_equal. exact E2.
  - cbn [sign filter] in *. unfold triv, is_trivia in *. rewrite HK, K1, K2, K3 in *. change (kind_eqb FLOAT WHITESPACE) with false in *. change (kind_eqb BARE_KEY WHITESPACE) with false in *. change (kind_eqb DOT WHITESPACE) with false in *. cbn [negb] in *.
    assert (HZ : forall a b c0 d m, [a; b; c0] ++ d = m ++ [w] -> tkind a <> COMMENT -> tkind b <> COMMENT -> tkind c0 <> COMMENT -> exists m', d = m' ++ [w]).
    { intros a b c0 d m EM A1 A2 A3. destruct m as [|a' [|b' [|c' m]]]; cbn [app] in EM; injection EM; intros; subst; try contradiction; eauto. }
    destruct (HZ x y z _ n' E) as (m & Em); try congruence.
    destruct (IH m w Em HC) as (c' & E2). exists (t :: c'). cbn [app]. f_equal. exact E2.
Qed.
Lemma yields_K0 p cs q : yields p cs q -> lkinds cs = [] -> K0 q = K0 p.
Proof.
  intros [_ (tr & c & n & _ & E & _ & HS & HR & _)] H. rewrite E. destruct (shaped_head _ _ _ _ HS) as [[_ E1]|(t & a & k & b & _ & E1 & _)]; [|congruence].
  destruct (reads_head _ _ _ HR) as [[E2 _]|(t & a & k & b & _ & E2 & _)]; [|congruence]. rewrite sig_triv_app by exact E2. reflexivity.
Qed.
Lemma yields_break p cs q : yields p cs q -> khd (K0 p) = LINE_BREAK -> lkinds cs = [] \/ begins_line (lkinds cs).
Proof.
  intros [_ (tr & c & n & _ & E & _ & HS & HR & _)] H. rewrite E in H. destruct (shaped_head _ _ _ _ HS) as [[E1 _]|(t & a & k & b & E1 & E2 & E3)]; [auto|].
  destruct (reads_head _ _ _ HR) as [[_ E4]|(t' & a' & u & b' & E4 & E5 & E6)]; [congruence|]. rewrite (khd_sign _ _ _ _ E4) in H. right. rewrite E2.
  assert (u = t) by congruence. subst u. rewrite E3 by (rewrite E6 by exact H; exact H). exists b. reflexivity.
Qed.
Lemma sign_last c c' t : sign c = c' ++ [t] -> exists a b, c = a ++ t :: b /\ forallb triv b = true.
Proof.
  revert c'. induction c as [|u c IH]; intros c' E; [destruct c'; discriminate|]. cbn [sign filter] in E. destruct (triv u) eqn:EU; cbn [negb] in E.
  - destruct (IH c' E) as (a & b & -> & H). exists (u :: a), b. auto.
  - destruct c' as [|v c'].
    + injection E as -> E. exists [], c. split; [reflexivity|]. clear -E. induction c as [|x c IH]; [reflexivity|]. cbn in *. destruct (triv x); [apply IH; exact E|discriminate].
    + injection E as -> E. destruct (IH c' E) as (a & b & -> & H). exists (v :: a), b. auto.
Qed.
Lemma yields_comment p cs q a : tame (p_rest p) -> yields p cs q -> lkinds cs = a ++ [COMMENT] -> khd (K0 q) = LINE_BREAK \/ khd (K0 q) = EOF.
Proof.
  intros HT [_ (tr & c & n & _ & E & _ & HS & HR & _)] H. destruct (shaped_last _ _ _ _ HS) as [[E1 _]|(t & ts' & k & ks & E1 & E2 & E3)].
  { rewrite E1 in H. destruct a; discriminate. }
  rewrite H in E2. apply app_inj_tail in E2 as [_ <-]. specialize (E3 eq_refl). destruct (reads_last _ _ _ HR _ _ E1 E3) as (c' & E4).
  destruct (sign_last _ _ _ E4) as (x & y & -> & HY). rewrite E in HT. destruct HT as [_ _ HT]. destruct y as [|u y].
  - destruct (p_rest q) as [|u r]; [right; reflexivity|]. rewrite <- app_assoc in HT. specialize (HT x t u r eq_refl E3).
    assert (triv u = false) as EU by (unfold triv, is_trivia; destruct HT as [-> | ->]; reflexivity). cbn [sig]. rewrite EU. exact HT.
  - exfalso. rewrite <- app_assoc in HT. specialize (HT x t u (y ++ p_rest q) eq_refl E3). cbn [forallb] in HY. apply andb_true_iff in HY as [HY _].
    unfold triv, is_trivia in HY. destruct HT as [EU|EU]; rewrite EU in HY; discriminate.
Qed.
(** What has been read ends with a line break, or a line break or the end follows. *)
Definition ended (cs : list tree) (q : pst) : Prop := lkinds cs = [] \/ ends_line (lkinds cs) \/ khd (K0 q) = LINE_BREAK \/ khd (K0 q) = EOF.
Lemma ended_trans a q b r : ended a q -> yields q b r -> ended b r -> ended (a ++ b) r.
Proof.
  intros HA HY HB. unfold ended in *. rewrite lkinds_app. destruct HB as [E|[E|E]]; auto using ends_app.
  rewrite E, app_nil_r, (yields_K0 _ _ _ HY E). exact HA.
Qed.
Lemma ended_junction a q b r : ended a q -> yields q b r -> (khd (K0 q) = EOF -> b = []) -> junction a b.
Proof.
  intros HA HY HE. destruct HA as [H|[H|[H|H]]]; unfold junction; auto.
  - destruct (yields_break _ _ _ HY H); auto.
  - rewrite (HE H). auto.
Qed.
Lemma ended_comments ds p q : tame (p_rest p) -> yields p ds q -> Forall (fun k => k = COMMENT \/ k = LINE_BREAK) (lkinds ds) -> ended ds q.
Proof.
  intros HT HY HF. destruct (destruct_list (rev (lkinds ds))) as [(k & l & E)|E].
  - apply (f_equal (@rev kind)) in E. rewrite rev_involutive in E. cbn [rev] in E. rewrite E in HF. apply Forall_app in HF as [_ HF].
    destruct (Forall_inv HF) as [-> | ->]; [|right; left; exists (rev l); exact E]. right. right. eapply yields_comment; eauto.
  - left. apply (f_equal (@rev kind)) in E. rewrite rev_involutive in E. exact E.
Qed.

(** Each key/value but the first of its group begins with a line break. *)
Definition kv_lined (its : list tree) : Prop :=
  forall a c b, its = a ++ TNode KEY_VALUE c :: b -> a <> [] -> begins_line (tkinds (TNode KEY_VALUE c)).
Inductive line_tree : tree -> Prop :=
| lt_break w : line_tree (TToken LINE_BREAK w)
| lt_dangling ds : line_tree (TNode DANGLING_COMMENT_GROUP ds)
| lt_group its : kv_lined its -> line_tree (TNode KEY_VALUE_GROUP its)
| lt_table array l wo kts wc tr tc body : Forall lc_tree l -> sh_trail tr tc -> starts_line body -> lined body -> Forall line_tree body ->
    line_tree (TNode (table_kind array) (l ++ TToken (head_kind array) wo :: TNode KEYS kts :: TToken (tail_kind array) wc :: tr ++ body)).
Definition lined_out (cs : list tree) (q : pst) : Prop := lined cs /\ Forall line_tree cs /\ ended cs q.

Lemma sig_inv ts k j r : sig ts = (k, j) :: r -> exists ws t rest, ts = ws ++ t :: rest /\ forallb triv ws = true /\ triv t = false /\
  tkind t = k /\ j = joint rest /\ sig rest = r.
Proof.
  induction ts as [|t ts IH]; cbn [sig]; [discriminate|]. destruct (triv t) eqn:E; intros H.
  - destruct (IH H) as (ws & u & rest & -> & HW & HT). exists (t :: ws), u, rest. cbn. rewrite E, HW. auto.
  - injection H as <- <- <-. exists [], t, ts. auto 10.
Qed.
Lemma sig_nil_trivia ts : sig ts = [] -> forallb triv ts = true.
Proof. induction ts as [|t ts IH]; cbn [sig forallb]; auto. destruct (triv t); [intros H; apply IH; auto|discriminate]. Qed.
Lemma nth_split_ws n ws ts : forallb triv ws = true -> nth_split n (ws ++ ts) = let (a, b) := nth_split n ts in (ws ++ a, b).
Proof.
  induction ws as [|t ws IH]; cbn [app forallb]; intros H; [destruct (nth_split n ts); reflexivity|]. apply andb_true_iff in H as [H1 H2].
  cbn [nth_split]. rewrite H1, (IH H2). destruct (nth_split n ts). reflexivity.
Qed.
Lemma nth_split_0 ts : exists ws r, nth_split 0 ts = (ws, r) /\ ts = ws ++ r /\ forallb triv ws = true.
Proof.
  induction ts as [|t ts IH]; [exists [], []; auto|]. cbn [nth_split]. destruct (triv t) eqn:E.
  - destruct IH as (ws & r & -> & -> & H). exists (t :: ws), r. cbn. rewrite E, H. auto.
  - exists [], (t :: ts). auto.
Qed.
Lemma sig_trivia ws ts : forallb triv ws = true -> sig (ws ++ ts) = sig ts.
Proof. induction ws as [|t ws IH]; cbn [app forallb sig]; auto. intros H. apply andb_true_iff in H as [-> H]. auto. Qed.

(** What follows a comment, and what follows the end *)
Lemma tame_sig_comment ts j r : tame ts -> sig ts = (COMMENT, j) :: r -> khd r = LINE_BREAK \/ khd r = EOF.
Proof.
  intros HT H. apply sig_inv in H as (ws & t & rest & -> & _ & _ & HK & _ & <-). destruct rest as [|u rest]; [right; reflexivity|].
  destruct (tame_comment _ HT ws t u rest eq_refl HK) as [E|E]; cbn [sig]; unfold triv; rewrite E; cbn; auto.
Qed.
Lemma tame_sig_eof ts : tame ts -> khd (sig ts) = EOF -> sig ts = [] \/ exists j, sig ts = [(EOF, j)].
Proof.
  intros HT H. destruct (sig ts) as [|[k j] r] eqn:E; [auto|]. right. cbn in H. subst k. pose proof E as E2.
  apply sig_inv in E2 as (ws & t & rest & E2 & _ & _ & HK & _ & HR). rewrite (tame_eof _ HT ws t rest E2 HK) in HR. cbn in HR. subst r. eauto.
Qed.

Lemma wtexts_one src t : wtexts src [t] = wtext src t.
Proof. unfold wtexts. cbn. apply app_nil_r. Qed.

(** * Single tokens *)
Lemma triv_not_eof ws : forallb triv ws = true -> Forall (fun t => tkind t <> EOF) ws.
Proof.
  intros H. apply Forall_forall. intros t HI E. rewrite forallb_forall in H. specialize (H t HI). unfold triv in H. rewrite E in H. discriminate.
Qed.
Lemma do_bump_yields p k n ws grp ws2 r : Forall (fun t => tkind t <> EOF) grp -> p_rest p = ws ++ grp ++ ws2 ++ r -> forallb triv ws = true -> forallb triv ws2 = true ->
  nth_split n (p_rest p) = (ws ++ grp ++ ws2, r) -> Forall (fun t => triv t = false) grp -> length grp = n -> leaf_ok (p_src p) k grp ->
  yields p [TToken k (wtexts (p_src p) grp)] (do_bump k n p).
Proof.
  intros HNE HR H1 H2 HS HF HL HK. unfold do_bump. rewrite HS. split; [reflexivity|].
  exists [PTk k n], (ws ++ grp ++ ws2), (ws ++ grp ++ ws2). cbn [p_events p_rest p_tokens].
  split; [reflexivity|]. split; [rewrite HR, <- !app_assoc; reflexivity|]. split; [reflexivity|]. split; [|split; [apply reads_refl|apply Forall_app; split; [apply triv_not_eof; auto|apply Forall_app; split; [exact HNE|apply triv_not_eof; auto]]]].
  change ([PTk k n]) with ([] ++ [PTk k n]). change [TToken k (wtexts (p_src p) grp)] with ([] ++ [TToken k (wtexts (p_src p) grp)]).
  apply shaped_app; [apply shaped_trivia; auto|]. apply sh_tok; auto. apply shaped_trivia. auto.
Qed.
Lemma bump1_yields p k0 j r k : k0 <> EOF -> K0 p = (k0, j) :: r -> (k = k0 \/ (k = BARE_KEY /\ remapped k0 = true /\ (k0 = FLOAT -> ~ In 46 (wtext (p_src p) (nth_token 0 p))))) ->
  exists w, yields p [TToken k w] (do_bump k 1 p) /\ K0 (do_bump k 1 p) = r.
Proof.
  intros HNE HK HL. pose proof (nth_split_sig 1 (p_rest p)) as HSIG. apply sig_inv in HK as (ws & t & rest & HR & HW & HT & HK & HJ & HS).
  destruct (nth_split_0 rest) as (ws2 & r2 & E0 & HR2 & HW2).
  assert (HN : nth_split 1 (p_rest p) = (ws ++ [t] ++ ws2, r2)).
  { rewrite HR, nth_split_ws by exact HW. cbn [nth_split app]. rewrite HT, E0. reflexivity. }
  exists (wtexts (p_src p) [t]). split.
  - eapply do_bump_yields with (ws := ws) (ws2 := ws2) (r := r2); auto.
    + constructor; auto. congruence.
    + rewrite HR, HR2. reflexivity.
    + destruct HL as [->|(-> & HL & HD)]; [subst k0; constructor|]. apply lf_key; [congruence|]. intros HF. replace t with (nth_token 0 p); [apply HD; congruence|].
      unfold nth_token. rewrite HR, nth_split_ws by exact HW. cbn [nth_split]. rewrite HT. reflexivity.
  - unfold do_bump. rewrite HN. cbn [p_rest]. rewrite HR2, sig_trivia in HS by exact HW2. exact HS.
Qed.
Lemma eat_yields p k b p' : plain_kind k = true -> k <> EOF -> eat k p = (b, p') ->
  if b then khd (K0 p) = k /\ K0 p' = tl (K0 p) /\ K0 p <> [] /\ exists w, yields p [TToken k w] p' else p' = p /\ khd (K0 p) <> k.
Proof.
  intros HP HE. unfold eat, at_. rewrite nth_at_sig by exact HP. fold (khd (sig (p_rest p))). change (sig (p_rest p)) with (K0 p).
  destruct (kind_eqb (khd (K0 p)) k) eqn:E; cbn [negb]; intros H; injection H as <- <-.
  - apply kind_eqb_eq in E. rewrite do_bump_kind_plain by exact HP. destruct (K0 p) as [|[k0 j] r] eqn:EK; [cbn in E; congruence|].
    cbn in E. subst k0. destruct (bump1_yields p k j r k HE EK (or_introl eq_refl)) as (w & HY & HK).
    repeat split; try discriminate; eauto.
  - apply kind_eqb_neq in E. auto.
Qed.
Lemma eat_pair_yields p k b p' : (k = DOUBLE_BRACKET_START \/ k = DOUBLE_BRACKET_END) -> eat k p = (b, p') -> b = true -> exists w, yields p [TToken k w] p'.
Proof.
  intros HK HE ->. unfold eat in HE. destruct (at_ k p) eqn:HA; [|discriminate]. cbn [negb] in HE. injection HE as <-.
  assert (H2 : exists k1, (k1 = BRACKET_START /\ k = DOUBLE_BRACKET_START \/ k1 = BRACKET_END /\ k = DOUBLE_BRACKET_END) /\ at_composite2 0 k1 k1 p = true /\ do_bump_kind k p = do_bump k 2 p).
  { destruct HK as [-> | ->]; [exists BRACKET_START|exists BRACKET_END]; split; auto. }
  destruct H2 as (k1 & HKK & HC & ->). rewrite composite_sig in HC. unfold composite in HC. apply andb_true_iff in HC as [HC HJ]. apply andb_true_iff in HC as [HC1 HC2].
  apply kind_eqb_eq in HC1, HC2. destruct (sig (p_rest p)) as [|[ka j] K] eqn:EK; [cbn in HJ; discriminate|]. cbn in HC1, HC2, HJ. subst ka j.
  destruct K as [|[kb j2] K]; [destruct HKK as [[-> _]|[-> _]]; cbn in HC2; discriminate|]. cbn in HC2. subst kb.
  apply sig_inv in EK as (ws & t & rest & HR & HW & HT & HKt & HJ & HS). destruct rest as [|u rest]; [discriminate|]. cbn [joint] in HJ. symmetry in HJ. apply negb_true_iff in HJ.
  cbn [sig] in HS. rewrite HJ in HS. injection HS as HKu _ HS. destruct (nth_split_0 rest) as (ws2 & r2 & E0 & HR2 & HW2).
  exists (wtexts (p_src p) [t; u]). eapply do_bump_yields with (ws := ws) (ws2 := ws2) (r := r2); auto.
  - destruct HKK as [[-> _]|[-> _]]; repeat constructor; congruence.
  - rewrite HR, HR2. reflexivity.
  - rewrite HR, nth_split_ws by exact HW. cbn [nth_split app]. rewrite HT, HJ, E0. reflexivity.
  - destruct HKK as [[-> ->]|[-> ->]]; [apply lf_open|apply lf_close]; auto.
Qed.

(** * Runs of tokens *)
Lemma while_eat_yields k p p' : plain_kind k = true -> k <> EOF -> while_eat k p = Done p' ->
  exists cs, yields p cs p' /\ Forall (fun t => exists w, t = TToken k w) cs /\ khd (K0 p') <> k /\
    K0 p' = dropk (fun x => kind_eqb x k) (K0 p) /\ (khd (K0 p) <> k -> cs = [] /\ p' = p) /\ (khd (K0 p) = k -> cs <> []).
Proof.
  intros HP HE. unfold while_eat, loop. generalize (S (length (p_rest p))). intros fuel. revert p. induction fuel as [|fuel IH]; intros p; [discriminate|].
  cbn [loop_]. destruct (eat k p) as [b q] eqn:E. pose proof (eat_yields p k b q HP HE E) as H. destruct b.
  - destruct H as (HK & HT & HN & w & HY). intros HL. destruct (IH q HL) as (cs & H1 & H2 & H3 & H4 & H5 & _). exists (TToken k w :: cs).
    split; [apply (yields_trans p [_] q); auto|]. split; [constructor; eauto|]. split; [exact H3|]. split; [|split; [intros; congruence|intros _; discriminate]].
    rewrite H4, HT. symmetry. apply dropk_go; auto. rewrite HK. apply kind_eqb_refl.
  - destruct H as [-> HK]. intros HL. injection HL as <-. exists []. split; [apply yields_refl|]. split; [constructor|]. split; [exact HK|].
    split; [|split; [auto|intros; congruence]]. symmetry. apply dropk_stop. apply kind_eqb_neq. exact HK.
Qed.
Lemma trailing_yields p p' : tame (p_rest p) -> trailing_comment p = Done p' -> exists cs tc, yields p cs p' /\ sh_trail cs tc /\ khd (K0 p') <> COMMENT /\
  (khd (K0 p) <> COMMENT -> cs = [] /\ p' = p).
Proof.
  intros HT H. unfold trailing_comment, while_eat, loop in H. cbn [loop_] in H.
  destruct (eat COMMENT p) as [b q] eqn:E. pose proof (eat_yields p COMMENT b q eq_refl ltac:(discriminate) E) as HE. destruct b.
  - destruct HE as (HK & HTL & HN & w & HY). destruct (K0 p) as [|[k j] r] eqn:EK; [congruence|]. cbn in HK. subst k.
    assert (HF : khd (K0 q) = LINE_BREAK \/ khd (K0 q) = EOF) by (rewrite HTL; exact (tame_sig_comment _ _ _ HT EK)).
    destruct (p_rest p) as [|t0 ts0] eqn:ER; [discriminate|]. cbn [length loop_] in H.
    destruct (eat COMMENT q) as [b2 q2] eqn:E2. pose proof (eat_yields q COMMENT b2 q2 eq_refl ltac:(discriminate) E2) as HE2.
    destruct b2; [destruct HE2 as [HE2 _]; rewrite HE2 in HF; destruct HF; discriminate|]. destruct HE2 as [-> HK2]. injection H as <-.
    exists [TToken COMMENT w], (Some w). split; [exact HY|]. split; [reflexivity|]. split; [exact HK2|]. intros HX. exfalso. apply HX. reflexivity.
  - destruct HE as [-> HK]. injection H as <-. exists [], None. split; [apply yields_refl|]. split; [reflexivity|]. auto.
Qed.
Lemma leading_yields p p' : tame (p_rest p) -> leading_comments p = Done p' ->
  exists cs, yields p cs p' /\ Forall lc_tree cs /\ is_lc (khd (K0 p')) = false /\ K0 p' = dropk is_lc (K0 p) /\ (is_lc (khd (K0 p)) = false -> cs = []).
Proof.
  unfold leading_comments, loop. generalize (S (length (p_rest p))). intros fuel. revert p. induction fuel as [|fuel IH]; intros p HTM; [discriminate|].
  cbn [loop_]. unfold eat_ts. unfold p_current. rewrite nth_kind_sig. fold (khd (sig (p_rest p))). change (sig (p_rest p)) with (K0 p). fold (is_lc (khd (K0 p))).
  destruct (is_lc (khd (K0 p))) eqn:E; cbn [negb]; intros H.
  - destruct (K0 p) as [|[k j] r] eqn:EK; [discriminate|]. change (khd ((k, j) :: r)) with k in *.
    assert (HP : plain_kind k = true). { pose proof EK as E2. unfold K0 in E2. apply sig_inv in E2 as (ws & t & rest & E2 & _ & _ & <- & _). eapply (tame_plain _ HTM); eauto. }
    rewrite do_bump_kind_plain in H by exact HP. assert (HNE : k <> EOF) by (intros ->; discriminate).
    destruct (bump1_yields p k j r k HNE EK (or_introl eq_refl)) as (w & HY & HK).
    destruct (IH _ (tame_yields _ _ _ HY HTM) H) as (cs & H1 & H2 & H3 & H4 & _). exists (TToken k w :: cs).
    split; [apply (yields_trans p [TToken k w] (do_bump k 1 p) cs p'); auto|]. split; [|split; [exact H3|split; [|intros; congruence]]].
    + constructor; auto. exists w. clear -E. unfold is_lc in E. cbn in E. destruct (kind_eqb k COMMENT) eqn:E1; [apply kind_eqb_eq in E1; subst; auto|].
      destruct (kind_eqb k LINE_BREAK) eqn:E2; [apply kind_eqb_eq in E2; subst; auto|discriminate].
    + rewrite H4, HK, dropk_cons, E. reflexivity.
  - injection H as <-. exists []. split; [apply yields_refl|]. split; [constructor|]. split; [exact E|]. split; auto. symmetry. apply dropk_stop. exact E.
Qed.

(** * Commas *)
Ltac binds H := match type of H with
  | bind ?m _ = Done _ => let q := fresh "q" in let E := fresh "E" in destruct m as [q| | |] eqn:E; cbn [bind] in H; try discriminate H
  end.
Lemma yields_start p : p_rest (snd (start p)) = p_rest p /\ K0 (snd (start p)) = K0 p.
Proof. split; reflexivity. Qed.
Lemma complete_K0 m k p p' : complete m k p = Done p' -> K0 p' = K0 p.
Proof. intros H. unfold K0. rewrite (complete_rest _ _ _ _ H). reflexivity. Qed.
Lemma eat_at k p : at_ k p = true -> eat k p = (true, do_bump_kind k p).
Proof. unfold eat. intros ->. reflexivity. Qed.
Lemma node_yields p cs q k p' : k <> TOMBSTONE -> yields (push_event (EStart TOMBSTONE) p) cs q -> complete (length (p_events p)) k q = Done p' ->
  yields p [TNode k cs] p' /\ K0 p' = K0 q.
Proof. intros HK HY HC. split; [eapply yields_node; eauto|eapply complete_K0; eauto]. Qed.
Lemma comma_yields p p' : tame (p_rest p) -> comma p = Done p' -> exists t c, yields p [t] p' /\ sh_comma [t] (Some c) /\ khd (K0 p') <> COMMENT.
Proof.
  intros HT. unfold comma. cbn [start]. set (ps := push_event _ p). intros H.
  binds H. assert (HT0 : tame (p_rest ps)) by exact HT.
  destruct (leading_yields _ _ HT0 E) as (l & Y1 & L1 & N1 & _). destruct (at_ COMMA q) eqn:EA; cbn [negb] in H; [|discriminate].
  destruct (eat COMMA q) as [b q1] eqn:E1. assert (b = true) by (rewrite (eat_at _ _ EA) in E1; congruence). subst b.
  destruct (eat_yields q COMMA _ _ eq_refl ltac:(discriminate) E1) as (HK & _ & _ & w & Y2).
  binds H. pose proof (tame_yields _ _ _ Y2 (tame_yields _ _ _ Y1 HT0)) as HT2.
  destruct (trailing_yields _ _ HT2 E0) as (tr & tc & Y3 & T3 & N3 & _).
  pose proof (yields_trans _ _ _ _ _ Y1 (yields_trans _ _ _ _ _ Y2 Y3)) as Y. destruct (node_yields p _ _ COMMA p' ltac:(discriminate) Y H) as [YN HKN].
  exists (TNode COMMA (l ++ [TToken COMMA w] ++ tr)), (Comma (comments_of l) tc). split; [exact YN|]. split; [|rewrite HKN; exact N3].
  apply sh_comma_some; auto using sh_lead_ex.
Qed.

(** * Dangling comments *)
Lemma bump_any_yields p k j r : K0 p = (k, j) :: r -> k <> EOF -> exists w, yields p [TToken k w] (bump_any p) /\ K0 (bump_any p) = r.
Proof.
  intros HK HE. unfold bump_any. rewrite nth_kind_sig. change (sig (p_rest p)) with (K0 p). rewrite HK. change (knth 0 ((k, j) :: r)) with k.
  assert (kind_eqb k EOF = false) as -> by (apply kind_eqb_neq; exact HE). exact (bump1_yields p k j r k HE HK (or_introl eq_refl)).
Qed.
Lemma bump_times_yields n : forall p, tame (p_rest p) -> khd (K0 p) = COMMENT -> dlenK (K0 p) = Some n ->
  exists ds, yields p ds (bump_any_times n p) /\ Forall lc_tree ds /\ comments_of ds <> [].
Proof.
  induction n as [n IH] using (well_founded_induction lt_wf). intros p HT HC HD.
  destruct (K0 p) as [|[k j] r] eqn:EK; [discriminate|]. cbn in HC. subst k.
  destruct (bump_any_yields p COMMENT j r EK ltac:(discriminate)) as (w & Y1 & K1).
  assert (HONE : n = 1%nat -> exists ds, yields p ds (bump_any_times n p) /\ Forall lc_tree ds /\ comments_of ds <> []).
  { intros ->. exists [TToken COMMENT w]. cbn [bump_any_times]. split; [exact Y1|]. split; [|discriminate]. repeat constructor. exists w. auto. }
  destruct r as [|[y jy] r]; [injection HD as <-; auto|]. cbn [dlenK fst] in HD.
  destruct (ts_contains TS_LINE_END y) eqn:EL; cbn [negb] in HD; [|discriminate].
  destruct (ts_contains TS_DANGLING_COMMENT_GROUP_END (khd r)) eqn:EG; [injection HD as <-; auto|].
  destruct (kind_eqb (khd r) COMMENT) eqn:EC; cbn [negb] in HD; [|discriminate]. apply kind_eqb_eq in EC.
  destruct (dlenK r) as [m|] eqn:ED; [|discriminate]. cbn [option_map] in HD. injection HD as <-.
  assert (HT1 : tame (p_rest (bump_any p))) by (eapply tame_yields; eauto).
  assert (HY : y <> EOF). { intros ->. destruct (tame_sig_eof _ HT1) as [H|(j' & H)]; change (sig (p_rest (bump_any p))) with (K0 (bump_any p)) in *; rewrite K1 in *; [reflexivity|discriminate|]. injection H as _ ->. discriminate EC. }
  destruct (bump_any_yields _ y jy r K1 HY) as (w2 & Y2 & K2).
  assert (HT2 : tame (p_rest (bump_any (bump_any p)))) by (eapply tame_yields; eauto).
  destruct (IH m ltac:(lia) _ HT2) as (ds & Y3 & L3 & C3); [rewrite K2; auto|rewrite K2; auto|].
  exists (TToken COMMENT w :: TToken y w2 :: ds). cbn [bump_any_times Nat.add]. split; [|split].
  - apply (yields_trans _ [_] _ (_ :: ds) _ Y1). apply (yields_trans _ [_] _ ds _ Y2 Y3).
  - constructor; [exists w; auto|]. constructor; auto. exists w2. cbn in EL.
    destruct (kind_eqb y LINE_BREAK) eqn:E1; [apply kind_eqb_eq in E1; subst; auto|]. destruct (kind_eqb y EOF) eqn:E2; [apply kind_eqb_eq in E2; contradiction|discriminate].
  - discriminate.
Qed.
Definition is_break (t : tree) : Prop := exists w, t = TToken LINE_BREAK w.
Lemma breaks_body gk table cs : Forall is_break cs -> forall n, sh_body gk table n cs [] (length cs + n).
Proof.
  induction 1 as [|t cs [w ->] HF IH]; intros n; [constructor|]. constructor. cbn [length]. rewrite Nat.add_succ_comm. apply IH.
Qed.
(** After the dangling comments: no line break, and comments only before an item. *)
Definition settled (K : sks) : Prop := khd K <> LINE_BREAK /\ (khd K = COMMENT -> dlenK K = None).
Lemma dangling_yields gk table p p' : tame (p_rest p) -> dangling_comment_groups p = Done p' ->
  exists cs, yields p cs p' /\ settled (K0 p') /\ (forall n, exists gs m, sh_body gk table n cs gs m) /\ (settled (K0 p) -> cs = [] /\ p' = p) /\
    (khd (K0 p) = LINE_BREAK -> starts_line cs) /\ lined_out cs p'.
Proof.
  unfold dangling_comment_groups, loop. generalize (S (length (p_rest p))). intros fuel. revert p. induction fuel as [|fuel IH]; intros p HT; [discriminate|].
  cbn [loop_]. destruct (while_eat LINE_BREAK p) as [q| | |] eqn:E; cbn [bind]; try discriminate.
  destruct (while_eat_yields LINE_BREAK p q eq_refl ltac:(discriminate) E) as (bs & Y1 & B1 & N1 & _ & Z1 & S1).
  assert (HTq : tame (p_rest q)) by (eapply tame_yields; eauto).
  assert (HSL : forall l, khd (K0 p) = LINE_BREAK -> starts_line (bs ++ l)).
  { intros l HL. specialize (S1 HL). destruct bs as [|b bs]; [contradiction|]. destruct (Forall_inv B1) as [w ->]. exact I. }
  rewrite dangling_ok. cbn [bind].
  destruct (if kind_eqb (khd (K0 q)) COMMENT then dlenK (K0 q) else None) as [len|] eqn:EL; cbn [break].
  - destruct (kind_eqb (khd (K0 q)) COMMENT) eqn:EC; [|discriminate]. apply kind_eqb_eq in EC. cbn [start]. intros H.
    destruct (complete (length (p_events q)) DANGLING_COMMENT_GROUP (bump_any_times len (push_event (EStart TOMBSTONE) q))) as [q2| | |] eqn:E2; cbn [bind again] in H; try discriminate.
    destruct (bump_times_yields len (push_event (EStart TOMBSTONE) q) HTq EC EL) as (ds & Y2 & L2 & C2).
    destruct (node_yields q ds _ DANGLING_COMMENT_GROUP q2 ltac:(discriminate) Y2 E2) as [YN _].
    destruct (IH q2 (tame_yields _ _ _ YN HTq) H) as (cs & Y3 & ST & B3 & Z3 & _ & L3 & F3 & D3). exists (bs ++ TNode DANGLING_COMMENT_GROUP ds :: cs).
    split; [apply (yields_trans _ bs _ (_ :: cs) _ Y1); apply (yields_trans _ [_] _ cs _ YN Y3)|]. split; [exact ST|].
    assert (HD : ended [TNode DANGLING_COMMENT_GROUP ds] q2).
    { eapply ended_comments; [exact HTq|exact YN|]. cbn [lkinds flat_map tkinds]. rewrite app_nil_r. clear -L2.
      induction L2 as [|t ds (w & [-> | ->]) HF IHd]; cbn [flat_map tkinds app]; constructor; auto. }
    split; [|split; [|split; [apply HSL|split; [|split]]]].
    + intros n. destruct (B3 0%nat) as (gs & m & HB). exists (GD (blanks (length bs + n)) (comments_of ds) :: gs), m.
      change (GD (blanks (length bs + n)) (comments_of ds) :: gs) with ([] ++ GD (blanks (length bs + n)) (comments_of ds) :: gs).
      eapply sh_body_app; [apply breaks_body; exact B1|]. constructor; auto using sh_lead_ex.
    + intros [HS1 HS2]. destruct (Z1 HS1) as [-> ->]. rewrite (HS2 EC) in EL. discriminate.
    + destruct (lined_breaks bs B1) as [LB EB]. apply lined_app; [exact LB| |destruct EB; [left; auto|right; right; left; auto]].
      apply (lined_app [_] cs); [apply lined_one|exact L3|]. eapply ended_junction; [exact HD|exact Y3|]. intros HE. apply Z3. split; rewrite HE; discriminate.
    + apply Forall_app. split; [eapply Forall_impl; [|exact B1]; intros t (w & ->); constructor|]. constructor; [constructor|exact F3].
    + apply (ended_trans bs q (TNode DANGLING_COMMENT_GROUP ds :: cs) p'); [|apply (yields_trans _ [_] _ cs _ YN Y3)|apply (ended_trans [_] q2 cs p'); auto].
      destruct (lined_breaks bs B1) as [_ [EB|EB]]; [left; exact EB|right; left; exact EB].
  - intros H. injection H as <-. exists bs. split; [exact Y1|]. split.
    + split; [exact N1|]. intros EC. rewrite EC, kind_eqb_refl in EL. exact EL.
    + split; [|split; [|split]].
      * intros n. eexists _, _. apply breaks_body. exact B1.
      * intros [HS1 HS2]. apply (Z1 HS1).
      * rewrite <- (app_nil_r bs). apply HSL.
      * destruct (lined_breaks bs B1) as [LB EB]. split; [exact LB|]. split; [eapply Forall_impl; [|exact B1]; intros t (w & ->); constructor|].
        destruct EB as [EB|EB]; [left; exact EB|right; left; exact EB].
Qed.

(** * Keys *)
Lemma split_dot_ne s : split_dot s <> [].
Proof. destruct s as [|d t]; cbn; [discriminate|]. destruct (d =? 46); [discriminate|]. destruct (split_dot t); discriminate. Qed.
Lemma split_dot_single s : forall w, split_dot s = [w] -> s = w /\ ~ In 46 w.
Proof.
  induction s as [|c s IH]; cbn [split_dot]; intros w H; [injection H as <-; auto|].
  destruct (N.eqb_spec c 46) as [->|Hc].
  - exfalso. injection H as _ H. exact (split_dot_ne _ H).
  - pose proof (split_dot_ne s) as HN. destruct (split_dot s) as [|x [|y ws]]; try discriminate; [congruence|].
    injection H as <-. destruct (IH x eq_refl) as [-> HX]. split; auto. intros [E|E]; auto.
Qed.
Lemma split_dot_pair s : forall u v, split_dot s = [u; v] -> s = u ++ [46] ++ v /\ ~ In 46 u /\ ~ In 46 v.
Proof.
  induction s as [|c s IH]; cbn [split_dot]; intros u v H; [discriminate|].
  destruct (N.eqb_spec c 46) as [->|Hc].
  - injection H as <- H. destruct (split_dot_single _ _ H) as [-> HV]. auto.
  - destruct (split_dot s) as [|x ws] eqn:E; [discriminate|]. injection H as <- ->. destruct (IH x v eq_refl) as (-> & HU & HV).
    split; [reflexivity|]. split; auto. intros [E2|E2]; auto.
Qed.
Lemma key_node_yields p k0 j r k p' : K0 p = (k0, j) :: r -> (k = k0 \/ (k = BARE_KEY /\ remapped k0 = true /\ (k0 = FLOAT -> ~ In 46 (wtext (p_src p) (nth_token 0 p))))) -> key_kind k = true ->
  complete (length (p_events p)) k (do_bump k 1 (push_event (EStart TOMBSTONE) p)) = Done p' ->
  exists t x, yields p [t] p' /\ sh_key t x.
Proof.
  intros HK HL HKK H. assert (HNE : k0 <> EOF) by (intros ->; destruct HL as [-> |(_ & HL & _)]; discriminate). destruct (bump1_yields (push_event (EStart TOMBSTONE) p) k0 j r k HNE HK HL) as (w & Y & _).
  assert (HNT : k <> TOMBSTONE) by (intros ->; discriminate). destruct (node_yields p _ _ k p' HNT Y H) as [YN _]. exists (TNode k [TToken k w]), (k, w). split; auto. constructor. exact HKK.
Qed.
Lemma shaped_single src k x : triv x = false -> tkind x = k -> k <> TOMBSTONE -> shaped src [PNd k [PTk k 1]] [x] [TNode k [TToken k (wtexts src [x])]].
Proof.
  intros HT HK HN. change [x] with ([x] ++ []) at 1. apply sh_node; [exact HN| |constructor]. change [x] with ([x] ++ []) at 1. apply sh_tok; auto; [|constructor]. subst k. constructor.
Qed.
(** A key with a dot in a float after white space leaves the float where it was. *)
Lemma float_yields p p' : khd (K0 p) = FLOAT -> bump_float_key p = Done p' ->
  (exists cs ks, yields p cs p' /\ sh_keys cs ks) \/ khd (K0 p') = FLOAT.
Proof.
  intros HK. unfold bump_float_key. rewrite nth_kind_sig. change (sig (p_rest p)) with (K0 p). fold (khd (K0 p)). rewrite HK, kind_eqb_refl. cbn [negb].
  destruct (K0 p) as [|[k j] K] eqn:EK; [discriminate|]. cbn in HK. subst k.
  destruct (text_slice (p_src p) (sstart (tspan (nth_token 0 p))) (send (tspan (nth_token 0 p)))) as [text|] eqn:ET; [|discriminate].
  destruct (negb (existsb (N.eqb 46) text)) eqn:EN.
  { cbn [start]. unfold bump_remap. rewrite nth_kind_sig. change (sig (p_rest (push_event (EStart TOMBSTONE) p))) with (K0 p). rewrite EK. change (kind_eqb (knth 0 ((FLOAT, j) :: K)) EOF) with false. cbn iota.
    assert (HD : FLOAT = FLOAT -> ~ In 46 (wtext (p_src p) (nth_token 0 p))).
    { intros _ HI. unfold wtext in HI. rewrite ET in HI. apply negb_true_iff in EN. rewrite <- not_true_iff_false in EN. apply EN. apply existsb_exists. exists 46. auto. }
    intros H. left. destruct (key_node_yields p FLOAT j K BARE_KEY p' EK (or_intror (conj eq_refl (conj eq_refl HD))) eq_refl H) as (t & x & Y & HS).
    exists [t], [x]. split; auto. constructor. exact HS. }
  destruct (split_dot text) as [|u [|v [|]]] eqn:ES; try discriminate. cbv zeta. destruct (split_dot_pair _ _ _ ES) as (-> & HU & HV).
  rewrite !push_synthetic_eq. cbn [bind]. rewrite push_synthetic_eq. cbn [bind]. rewrite push_synthetic_eq. cbn [bind p_rest p_src p_seen p_depth p_tokens p_events].
  destruct (p_rest p) as [|x r] eqn:ER; [discriminate|]. intros H. injection H as <-.
  destruct (triv x) eqn:EX.
  - right. cbn [p_rest]. cbn [sig] in EK. rewrite EX in EK. rewrite EK. reflexivity.
  - left. assert (HX : nth_token 0 p = x) by (unfold nth_token; rewrite ER; cbn [nth_split]; rewrite EX; reflexivity). rewrite HX in *.
    assert (HF : tkind x = FLOAT). { cbn [sig] in EK. rewrite EX in EK. congruence. }
    set (a := sstart (tspan x)) in *. set (t1 := Tok BARE_KEY _ _). set (t2 := Tok DOT _ _). set (t3 := Tok BARE_KEY (MkSpan (a + len_bytes u + 1) _) _).
    exists [TNode BARE_KEY [TToken BARE_KEY (wtexts (p_src p) [t1])]; TNode DOT [TToken DOT (wtexts (p_src p) [t2])]; TNode BARE_KEY [TToken BARE_KEY (wtexts (p_src p) [t3])]],
      [(BARE_KEY, wtexts (p_src p) [t1]); (BARE_KEY, wtexts (p_src p) [t3])]. split.
    + split; [reflexivity|]. exists [PNd BARE_KEY [PTk BARE_KEY 1]; PNd DOT [PTk DOT 1]; PNd BARE_KEY [PTk BARE_KEY 1]], [x], [t1; t2; t3].
      cbn [p_events p_rest p_tokens]. split; [rewrite <- !app_assoc; reflexivity|]. split; [rewrite ER; reflexivity|]. split; [rewrite <- !app_assoc; reflexivity|]. split.
      * apply (shaped_app _ [_] [t1] [_] [_; _] [t2; t3] [_; _]); [apply shaped_single; (reflexivity || discriminate)|].
        apply (shaped_app _ [_] [t2] [_] [_] [t3] [_]); apply shaped_single; (reflexivity || discriminate).
      * split; [apply rd_split with (u := u) (v := v); auto; try (split; reflexivity); constructor|]. constructor; auto. rewrite HF. discriminate.
    + apply sh_keys_more; [constructor; reflexivity|apply sh_dot_node|]. apply sh_keys_one. constructor. reflexivity.
Qed.
Lemma eat_key_yields p b p' : eat_key p = Done (b, p') -> nerr p' = nerr p ->
  b = true /\ ((exists cs ks, yields p cs p' /\ sh_keys cs ks) \/ khd (K0 p') = FLOAT).
Proof.
  assert (HBAD : (do r <- current_range (push_event (EStart TOMBSTONE) p); do q <- complete (length (p_events p)) INVALID_TOKEN (p_error ExpectedKey r (push_event (EStart TOMBSTONE) p)); Done (false, q)) = Done (b, p') -> nerr p' = nerr p ->
     b = true /\ ((exists cs ks, yields p cs p' /\ sh_keys cs ks) \/ khd (K0 p') = FLOAT)).
  { intros H HQ. exfalso. binds H. binds H. injection H as <- <-. apply nerr_complete in E0. rewrite nerr_error, nerr_push in E0. cbn in E0. lia. }
  unfold eat_key, p_current. rewrite nth_kind_sig. change (sig (p_rest p)) with (K0 p). fold (khd (K0 p)).
  destruct (K0 p) as [|[k j] r] eqn:EK; [exact HBAD|]. change (khd ((k, j) :: r)) with k. cbn [start].
  assert (H1 : key_kind k = true -> plain_kind k = true -> (do q <- p_bump k (push_event (EStart TOMBSTONE) p); do q <- complete (length (p_events p)) k q; Done (true, q)) = Done (b, p') -> nerr p' = nerr p ->
     b = true /\ ((exists cs ks, yields p cs p' /\ sh_keys cs ks) \/ khd (K0 p') = FLOAT)).
  { intros HKK HP H _. binds H. binds H. injection H as <- <-. split; auto. left.
    unfold p_bump in E. destruct (eat k (push_event (EStart TOMBSTONE) p)) as [e q1] eqn:EE. destruct e; [|discriminate]. injection E as ->.
    assert (HNE : k <> EOF) by (intros ->; discriminate). assert (HNT : k <> TOMBSTONE) by (intros ->; discriminate).
    destruct (eat_yields _ k true _ HP HNE EE) as (_ & _ & _ & w & Y). destruct (node_yields p _ _ k q0 HNT Y E0) as [YN _].
    exists [TNode k [TToken k w]], [(k, w)]. split; [exact YN|]. constructor. constructor. exact HKK. }
  assert (H2 : remapped k = true -> k <> FLOAT -> (do q <- complete (length (p_events p)) BARE_KEY (bump_remap BARE_KEY (push_event (EStart TOMBSTONE) p)); Done (true, q)) = Done (b, p') -> nerr p' = nerr p ->
     b = true /\ ((exists cs ks, yields p cs p' /\ sh_keys cs ks) \/ khd (K0 p') = FLOAT)).
  { intros HR HNF H _. binds H. injection H as <- <-. split; auto. left. unfold bump_remap in E. rewrite nth_kind_sig in E. change (sig (p_rest (push_event (EStart TOMBSTONE) p))) with (K0 p) in E. rewrite EK in E.
    change (knth 0 ((k, j) :: r)) with k in E. assert (HNE : kind_eqb k EOF = false) by (apply kind_eqb_neq; intros ->; discriminate). rewrite HNE in E.
    destruct (key_node_yields p k j r BARE_KEY q EK (or_intror (conj eq_refl (conj HR (fun e => match HNF e with end)))) eq_refl E) as (t & x & Y & HS). exists [t], [x]. split; auto. constructor. exact HS. }
  destruct k; try exact HBAD; try (apply H1; reflexivity); try (apply H2; [reflexivity|discriminate]).
  intros H _. binds H. injection H as <- <-. split; auto. apply float_yields; auto. rewrite EK. reflexivity.
Qed.
Lemma dotted_yields fuel : forall he p b p', he = false -> dotted_keys fuel he p = Done (b, p') -> nerr p' = nerr p ->
  b = true /\ ((exists cs ks, yields p cs p' /\ sh_keys cs ks) \/ khd (K0 p') = FLOAT).
Proof.
  induction fuel as [|fuel IH]; intros he p b p' -> H HQ; [discriminate|]. cbn [dotted_keys] in H. binds H. destruct q as [ok q]. cbn [orb] in H.
  pose proof (mono_eat_key p _ E) as M1. cbn [snd] in M1. destruct (eat DOT q) as [dot q2] eqn:E2. pose proof (nerr_eat _ _ _ _ E2) as M2.
  assert (HQ1 : nerr q = nerr p).
  { destruct (negb dot); [injection H as <- <-; lia|]. destruct (negb (at_ts TS_KEY_FIRST q2)).
    - binds H. injection H as <- <-. rewrite nerr_error in HQ. lia.
    - apply mono_dotted in H. cbn [snd] in H. lia. }
  destruct (eat_key_yields p ok q E HQ1) as [-> HE]. cbn [negb] in H.
  pose proof (eat_yields q DOT dot q2 eq_refl ltac:(discriminate) E2) as HD. destruct dot; cbn [negb] in H.
  - destruct (negb (at_ts TS_KEY_FIRST q2)). { exfalso. binds H. injection H as <- <-. rewrite nerr_error in HQ. lia. }
    destruct HD as (HK & _ & _ & w & YD). destruct HE as [(cs & ks & Y1 & S1)|HE]; [|rewrite HE in HK; discriminate].
    destruct (IH false q2 b p' eq_refl H ltac:(lia)) as [-> [(cs2 & ks2 & Y2 & S2)|HF]]; split; auto. left.
    exists (cs ++ TToken DOT w :: cs2), (ks ++ ks2). split.
    + apply (yields_trans _ cs _ (_ :: cs2) _ Y1). apply (yields_trans _ [_] _ cs2 _ YD Y2).
    + apply sh_keys_app; auto. constructor.
  - destruct HD as [-> _]. injection H as <- <-. auto.
Qed.
Lemma keys_yields p p' : keys p = Done p' -> nerr p' = nerr p -> (exists cs ks, yields p [TNode KEYS cs] p' /\ sh_keys cs ks) \/ khd (K0 p') = FLOAT.
Proof.
  unfold keys. cbn [start]. intros H HQ. binds H. destruct q as [ok q]. pose proof (nerr_complete _ _ _ _ H) as M.
  assert (HN : nerr (push_event (EStart TOMBSTONE) p) = nerr p) by (rewrite nerr_push; cbn; lia).
  assert (HE : ok = true /\ ((exists cs ks, yields (push_event (EStart TOMBSTONE) p) cs q /\ sh_keys cs ks) \/ khd (K0 q) = FLOAT)).
  { unfold eat_keys in E. destruct (nth_at 1 DOT _).
    - eapply dotted_yields; eauto. lia.
    - apply eat_key_yields; auto. lia. }
  destruct HE as [-> [(cs & ks & Y & S)|HF]].
  - left. exists cs, ks. split; auto. apply (proj1 (node_yields p cs q KEYS p' ltac:(discriminate) Y H)).
  - right. rewrite (complete_K0 _ _ _ _ H). exact HF.
Qed.

(** * Values *)
(** What [Value::parse] leaves when it reports no error *)
Definition good_value (v : pst -> res pst) : Prop := forall p p', tame (p_rest p) -> v p = Done p' -> nerr p' = nerr p ->
  exists t x, yields p [t] p' /\ sh_value t x /\ khd (K0 p') <> COMMENT /\ (is_lc (khd (K0 p)) = false -> vlead x = []).
Lemma literal_plain k : literal_kind k = true -> plain_kind k = true /\ k <> EOF /\ k <> TOMBSTONE /\ is_lc k = false /\ k <> COMMENT.
Proof. destruct k; cbn; intros H; try discriminate H; repeat split; discriminate. Qed.
Lemma literal_yields p p' : tame (p_rest p) -> literal_kind (khd (dropk is_lc (K0 p))) = true -> parse_literal_value p = Done p' ->
  exists t x, yields p [t] p' /\ sh_value t x /\ khd (K0 p') <> COMMENT /\ (is_lc (khd (K0 p)) = false -> vlead x = []).
Proof.
  intros HT HL. unfold parse_literal_value. cbn [start]. set (ps := push_event _ p). intros H. binds H.
  assert (HT0 : tame (p_rest ps)) by exact HT. destruct (leading_yields _ _ HT0 E) as (l & Y1 & L1 & N1 & K1 & Z1).
  unfold p_current in H. rewrite nth_kind_sig in H. fold (khd (K0 q)) in H. rewrite K1 in H. change (p_rest ps) with (p_rest p) in *.
  set (k := khd (dropk is_lc (K0 p))) in *. destruct (literal_plain k HL) as (HP & HNE & HNT & _). binds H. rename q0 into q1. unfold p_bump in E0.
  destruct (eat k q) as [b q2] eqn:EE. destruct b; [|discriminate]. injection E0 as ->.
  destruct (eat_yields q k true q1 HP HNE EE) as (_ & _ & _ & w & Y2). binds H. rename q0 into q3.
  pose proof (tame_yields _ _ _ Y2 (tame_yields _ _ _ Y1 HT0)) as HT2. destruct (trailing_yields _ _ HT2 E0) as (tr & tc & Y3 & T3 & N3 & _).
  pose proof (yields_trans _ _ _ _ _ Y1 (yields_trans _ _ _ _ _ Y2 Y3)) as Y. destruct (node_yields p _ _ k p' HNT Y H) as [YN HKN].
  exists (TNode k (l ++ [TToken k w] ++ tr)), (FLit (comments_of l) k w tc). split; [exact YN|]. split; [apply sh_lit; auto using sh_lead_ex|].
  split; [rewrite HKN; exact N3|]. intros HZ. rewrite (Z1 HZ). reflexivity.
Qed.

(** * Items *)
Definition good_item (table : bool) (f : pst -> res pst) : Prop := forall p p', tame (p_rest p) -> f p = Done p' -> nerr p' = nerr p ->
  exists t, yields p [t] p' /\ (forall cs c, sh_comma cs c -> exists i, sh_item table (t :: cs) i) /\ khd (K0 p') <> COMMENT.
Lemma value_item v : good_value v -> good_item false v.
Proof.
  intros HV p p' HT H HQ. destruct (HV p p' HT H HQ) as (t & x & Y & S & N & _). exists t. split; auto. split; auto.
  intros cs c HC. eexists. constructor; eauto.
Qed.
Section Items.
Context (v : pst -> res pst) (Hm : forall p, mono p (v p) idp) (Hv : good_value v).
Lemma key_value_item : good_item true (key_value v).
Proof.
  intros p p' HT H HQ. unfold key_value in H. cbn [start] in H. set (ps := push_event _ p) in *. assert (HN0 : nerr ps = nerr p) by (unfold ps; rewrite nerr_push; cbn; lia).
  binds H. pose proof (mono_leading _ _ E) as M1. assert (HT0 : tame (p_rest ps)) by exact HT.
  destruct (leading_yields _ _ HT0 E) as (l & Y1 & L1 & N1 & K1 & Z1). pose proof (tame_yields _ _ _ Y1 HT0) as HT1.
  binds H. rename q0 into q1. pose proof (mono_keys _ _ E0) as M2. destruct (eat EQUAL q1) as [eq q2] eqn:EE. pose proof (nerr_eat _ _ _ _ EE) as M3.
  binds H. rename q0 into q3. assert (M4 : (nerr q2 <= nerr q3)%nat /\ (eq = false -> (nerr q2 < nerr q3)%nat) /\ (eq = true -> q3 = q2)).
  { destruct eq; cbn [negb] in E1; [injection E1 as <-; repeat split; auto; try discriminate|]. binds E1. injection E1 as <-. rewrite nerr_error. repeat split; try lia; try discriminate. }
  binds H. rename q0 into q4. assert (M5 : (nerr q3 <= nerr q4)%nat /\ (at_ts TS_LINE_END q3 = true \/ at_ COMMENT q3 = true -> (nerr q3 < nerr q4)%nat)).
  { assert (HI : forall x y, invalid_token x = Done y -> nerr y = nerr x) by (intros x y HX; unfold invalid_token in HX; cbn [start] in HX; apply nerr_complete in HX; rewrite HX, nerr_push; cbn; lia).
    destruct (at_ts TS_LINE_END q3) eqn:EA. { binds E2. apply HI in E3. binds E2. injection E2 as <-. rewrite nerr_error. lia. }
    destruct (at_ COMMENT q3) eqn:EC. { binds E2. apply HI in E3. injection E2 as <-. rewrite nerr_error. lia. }
    apply Hm in E2. unfold idp in E2. split; [lia|]. intros [HH|HH]; discriminate. }
  binds H. rename q0 into q5. pose proof (mono_trailing _ _ E3) as M6. pose proof (nerr_complete _ _ _ _ H) as M7. unfold idp in *.
  destruct M4 as (M4 & M4f & M4t). destruct M5 as (M5 & M5s). destruct eq; [|specialize (M4f eq_refl); lia]. specialize (M4t eq_refl). subst q3.
  destruct (eat_yields q1 EQUAL true q2 eq_refl ltac:(discriminate) EE) as (HKE & _ & _ & we & Y3).
  destruct (keys_yields q q1 E0 ltac:(lia)) as [(kts & ks & Y2 & S2)|HF]; [|rewrite HF in HKE; discriminate].
  pose proof (tame_yields _ _ _ Y3 (tame_yields _ _ _ Y2 HT1)) as HT2.
  destruct (at_ts TS_LINE_END q2) eqn:EA; [assert ((nerr q2 < nerr q4)%nat) by (apply M5s; auto); lia|].
  destruct (at_ COMMENT q2) eqn:EC; [assert ((nerr q2 < nerr q4)%nat) by (apply M5s; auto); lia|].
  destruct (Hv q2 q4 HT2 E2 ltac:(lia)) as (t & x & Y4 & S4 & N4 & Z4).
  pose proof (tame_yields _ _ _ Y4 HT2) as HT4. destruct (trailing_yields _ _ HT4 E3) as (tr & tc & Y5 & T5 & N5 & Z5). destruct (Z5 N4) as [-> ->].
  pose proof (yields_trans _ _ _ _ _ Y1 (yields_trans _ _ _ _ _ Y2 (yields_trans _ _ _ _ _ Y3 Y4))) as Y.
  destruct (node_yields p _ _ KEY_VALUE p' ltac:(discriminate) Y H) as [YN HKN]. eexists. split; [exact YN|]. split; [|rewrite HKN; exact N4].
  intros cs c HC. exists (Item (comments_of l) ks [] x c). apply sh_item_kv; auto using sh_lead_ex. apply Z4. rewrite at_ts_sig in EA. unfold at_ in EC. rewrite nth_at_sig in EC by reflexivity. fold (khd (K0 q2)) in EC.
  unfold is_lc. cbn in EA |- *. rewrite EC. destruct (kind_eqb (khd (K0 q2)) LINE_BREAK); [discriminate|]. reflexivity.
Qed.

Definition good_group (gk : kind) (table : bool) (R : list tree -> Prop) (g : pst -> res pst) : Prop := forall p p', tame (p_rest p) -> g p = Done p' -> nerr p' = nerr p ->
  khd (K0 p) <> LINE_BREAK -> khd (K0 p) <> EOF -> exists its is, yields p [TNode gk its] p' /\ sh_items table its is /\ is <> [] /\ R its.
Lemma no_separator p : khd (K0 p) <> LINE_BREAK -> khd (K0 p) <> EOF -> is_group_separator p = false.
Proof.
  intros H1 H2. unfold is_group_separator. rewrite at_ts_sig. apply kind_eqb_neq in H1, H2. cbn. rewrite H1, H2. reflexivity.
Qed.
Lemma item_lined table a i b is : sh_item table a i -> sh_items table b is -> kv_lined b -> lkinds b = [] \/ begins_line (lkinds b) -> kv_lined (a ++ b).
Proof.
  intros HI HS HL HB x c y E HX.
  assert (H0 : b = TNode KEY_VALUE c :: y -> begins_line (tkinds (TNode KEY_VALUE c))).
  { intros ->. assert (exists w b1 b2, c = b1 ++ TToken EQUAL w :: b2) as (w & b1 & b2 & ->).
    { clear -HS. remember (TNode KEY_VALUE c :: y) as bb eqn:E3. destruct HS as [|tb a0 i0 b0 is0 HA HR]; [discriminate|]. destruct HA as [t0 v0 cs c0 HV HCM|l lead kts ks raw we t0 v0 cs c0 HL0 HK0 HV HE HCM]; cbn [app] in E3.
      - injection E3 as -> _. inversion HV as [? ? k0 ? ? ? ? HLK|tb2]; subst; [discriminate|]. destruct tb2; discriminate.
      - injection E3 as <- _. exists we, (l ++ [TNode KEYS kts]), [t0]. rewrite <- app_assoc. reflexivity. }
    change (lkinds (TNode KEY_VALUE (b1 ++ TToken EQUAL w :: b2) :: y)) with (tkinds (TNode KEY_VALUE (b1 ++ TToken EQUAL w :: b2)) ++ lkinds y) in HB.
    cbn [tkinds] in *. rewrite flat_map_app in *. cbn [flat_map tkinds app] in *. destruct (flat_map tkinds b1) as [|k ks]; cbn [app] in *;
      (destruct HB as [HB|(r & HB)]; [discriminate|injection HB as HB1 HB2; try discriminate; subst; eexists; reflexivity]). }
  destruct (split_app _ _ _ _ E) as (l & [[-> E2]|[-> E2]]).
  - destruct l as [|z l]; [apply H0; exact E2|eapply HL; [exact E2|discriminate]].
  - destruct l as [|z l]; [apply H0; symmetry; exact E2|]. exfalso. cbn [app] in E2. injection E2 as <- E2.
    assert (HC : forall cs0 c0, sh_comma cs0 c0 -> forall x0 l0, cs0 <> x0 ++ TNode KEY_VALUE c :: l0).
    { intros cs0 c0 [|l0 lead w tr tc _ _] [|? [|? ?]] ?; discriminate. }
    destruct x as [|x0 x]; [congruence|]. inversion HI as [t0 v0 cs c0 HV HCM|l0 lead kts ks raw we t0 v0 cs c0 HL0 HK0 HV HE HCM]; subst; eapply HC; eauto.
Qed.
Lemma items_loop table body : (forall p, mono p (body p) snd) ->
  (forall p b q, tame (p_rest p) -> is_group_separator p = true -> body p = Done (b, q) -> b = false /\ q = p) ->
  (forall p b q, tame (p_rest p) -> is_group_separator p = false -> body p = Done (b, q) -> nerr q = nerr p -> exists its i, yields p its q /\ sh_item table its i) ->
  forall fuel p p', tame (p_rest p) -> loop_ fuel body p = Done p' -> nerr p' = nerr p ->
  exists its is, yields p its p' /\ sh_items table its is /\ (is_group_separator p = false -> is <> []) /\
    ((forall p q, body p = Done (true, q) -> khd (K0 q) = LINE_BREAK) -> kv_lined its).
Proof.
  intros HM HS HB. induction fuel as [|fuel IH]; intros p p' HT H HQ; [discriminate|]. cbn [loop_] in H.
  destruct (body p) as [[b q]| | |] eqn:E; try (destruct b; discriminate); try discriminate. pose proof (HM p _ E) as M. cbn [snd] in M.
  destruct (is_group_separator p) eqn:ES.
  - destruct (HS p b q HT ES E) as [-> ->]. injection H as <-. exists [], []. split; [apply yields_refl|]. split; [constructor|]. split; [discriminate|]. intros _ a c b E2. destruct a; discriminate.
  - destruct b.
    + assert (M2 : (nerr q <= nerr p')%nat). { pose proof (mono_loop body HM q) as ML. clear -H HM. revert q H. induction fuel as [|fuel IH]; intros q H; [discriminate|]. cbn [loop_] in H. destruct (body q) as [[b r]| | |] eqn:E; try discriminate. pose proof (HM q _ E) as M. cbn [snd] in M. destruct b; [apply IH in H; lia|injection H as <-; exact M]. }
      destruct (HB p true q HT ES E ltac:(lia)) as (its & i & Y1 & S1). destruct (IH q p' (tame_yields _ _ _ Y1 HT) H ltac:(lia)) as (its2 & is2 & Y2 & S2 & _ & L2).
      exists (its ++ its2), (i :: is2). split; [eapply yields_trans; eauto|]. split; [constructor; auto|]. split; [discriminate|].
      intros HL. specialize (L2 HL). pose proof (HL _ _ E) as HK. eapply item_lined; eauto. eapply yields_break; eauto.
    + injection H as <-. destruct (HB p false q HT ES E HQ) as (its & i & Y1 & S1). exists its, [i]. split; auto. split; [rewrite <- (app_nil_r its); constructor; auto; constructor|]. split; [discriminate|].
      intros _. rewrite <- (app_nil_r its). eapply item_lined; [exact S1|constructor| |left; reflexivity]. intros a c b0 E2. destruct a; discriminate.
Qed.
Lemma commas_group table item firsts ends gk : gk <> TOMBSTONE -> (forall p, mono p (item p) idp) -> good_item table item ->
  good_group gk table (fun _ => True) (fun p => let (m, p) := start p in
  do p <- loop (fun p =>
    if is_group_separator p then break p else
    do p <- item p;
    do n <- peek_leading_comments p;
    let next p :=
      do n <- peek_leading_comments p;
      if negb (nth_at_ts n firsts p) then break p else again p in
    if nth_at n COMMA p then do p <- comma p; next p
    else if nth_at_ts n ends p then break p
    else next p) p;
  complete m gk p).
Proof.
  intros HG HM HI p p' HT H HQ HK1 HK2. cbn [start] in H. set (ps := push_event _ p) in *. assert (HN0 : nerr ps = nerr p) by (unfold ps; rewrite nerr_push; cbn; lia).
  binds H. pose proof (nerr_complete _ _ _ _ H) as M7.
  assert (HNX : forall q n b r, (do n <- peek_leading_comments q; if negb (nth_at_ts n firsts q) then break q else again q) = Done (b, r) -> n = 0%nat -> r = q).
  { intros x n b r HX _. rewrite peek_ok in HX. cbn [bind] in HX. destruct (negb _); injection HX as <- <-; reflexivity. }
  unfold loop in E. eapply items_loop with (table := table) in E; auto; [|..].
  - destruct E as (its & is & Y & S & HNE & _). destruct (node_yields p its q gk p' HG Y H) as [YN _]. exists its, is. split; auto. split; auto. split; auto. apply HNE. apply no_separator; auto.
  - clear -HM. intros q. destruct (is_group_separator q); [mdone|]. eapply mono_bind; [apply HM|]. unfold idp. intros q1 _. apply mono_any. intros n. cbv zeta.
    assert (HN : forall q2, mono q2 (do n <- peek_leading_comments q2; if negb (nth_at_ts n firsts q2) then break q2 else again q2) snd).
    { intros q2. apply mono_any. intros n2. destruct (negb _); mdone. }
    destruct (nth_at n COMMA q1); [|destruct (nth_at_ts n ends q1); [mdone|apply HN]]. eapply mono_bind; [apply mono_comma|]. intros q2 _. apply HN.
  - intros x b r _ HS HB. rewrite HS in HB. injection HB as <- <-. auto.
  - intros x b r HTx HS HB HQx. rewrite HS in HB. binds HB. rename q0 into x1. pose proof (HM _ _ E0) as M1. unfold idp in M1. rewrite peek_ok in HB. cbn [bind] in HB. cbv zeta in HB.
    destruct (nth_at (peekK (K0 x1)) COMMA x1).
    + binds HB. rename q0 into x2. pose proof (mono_comma _ _ E1) as M2. unfold idp in M2. apply HNX with (n := 0%nat) in HB; auto. subst r.
      destruct (HI x x1 HTx E0 ltac:(lia)) as (t & Y1 & S1 & N1). destruct (comma_yields _ _ (tame_yields _ _ _ Y1 HTx) E1) as (tc & c & Y2 & S2 & _).
      destruct (S1 _ _ S2) as (i & Si). exists [t; tc], i. split; auto. apply (yields_trans _ [t] _ [tc] _ Y1 Y2).
    + assert (r = x1). { destruct (nth_at_ts _ ends x1); [injection HB as <- <-; reflexivity|]. destruct (negb _); injection HB as <- <-; reflexivity. } subst r.
      destruct (HI x x1 HTx E0 ltac:(lia)) as (t & Y1 & S1 & N1). destruct (S1 [] None) as (i & Si); [constructor|]. exists [t], i. auto.
  - lia.
Qed.
Lemma vwcg_group : good_group VALUE_WITH_COMMA_GROUP false (fun _ => True) (value_with_comma_group v).
Proof. apply (commas_group false v TS_VALUE_FIRST TS_ARRAY_END VALUE_WITH_COMMA_GROUP); [discriminate|exact Hm|apply value_item; exact Hv]. Qed.
Lemma kvwcg_group : good_group KEY_VALUE_WITH_COMMA_GROUP true (fun _ => True) (key_value_with_comma_group v).
Proof. apply (commas_group true (key_value v) TS_KEY_FIRST TS_INLINE_TABLE_END KEY_VALUE_WITH_COMMA_GROUP); [discriminate|apply mono_key_value; exact Hm|apply key_value_item]. Qed.
Lemma kvg_lines p p' : tame (p_rest p) -> key_value_group v p = Done p' -> nerr p' = nerr p -> khd (K0 p) <> LINE_BREAK -> khd (K0 p) <> EOF ->
  exists its is, yields p [TNode KEY_VALUE_GROUP its] p' /\ sh_items true its is /\ is <> [] /\ kv_lined its.
Proof.
  intros HT H HQ HK1 HK2. unfold key_value_group in H. cbn [start] in H. set (ps := push_event _ p) in *. assert (HN0 : nerr ps = nerr p) by (unfold ps; rewrite nerr_push; cbn; lia).
  binds H. pose proof (nerr_complete _ _ _ _ H) as M7. unfold loop in E. eapply items_loop with (table := true) in E; auto; [|..].
  - destruct E as (its & is & Y & S & HNE & HL). destruct (node_yields p its q KEY_VALUE_GROUP p' ltac:(discriminate) Y H) as [YN _]. exists its, is. split; auto. split; auto. split; [apply HNE; apply no_separator; auto|].
    apply HL. clear. intros x q H. destruct (is_group_separator x); [discriminate|]. binds H. rewrite peek_ok in H. cbn [bind] in H. binds H.
    destruct (at_ LINE_BREAK q1) eqn:EL; cbn [negb] in H; [|discriminate]. rewrite peek_ok in H. cbn [bind] in H.
    destruct (negb _); [discriminate|]. injection H as <-. unfold at_ in EL. rewrite nth_at_sig in EL by reflexivity. apply kind_eqb_eq in EL. exact EL.
  - intros x. destruct (is_group_separator x); [mdone|]. eapply mono_bind; [apply mono_key_value; exact Hm|]. unfold idp. intros q1 _. apply mono_any. intros n.
    eapply mono_bind with (st := idp). { destruct (nth_at n COMMA q1); [apply mono_comma|mdone]. }
    unfold idp. intros q2 _. destruct (negb (at_ LINE_BREAK q2)); [mdone|]. apply mono_any. intros n2. destruct (negb _); mdone.
  - intros x b r _ HS HB. rewrite HS in HB. injection HB as <- <-. auto.
  - intros x b r HTx HS HB HQx. rewrite HS in HB. binds HB. rename q0 into x1. pose proof (mono_key_value v Hm _ _ E0) as M1. unfold idp in M1. rewrite peek_ok in HB. cbn [bind] in HB.
    binds HB. rename q0 into x2. assert (r = x2). { destruct (negb (at_ LINE_BREAK x2)); [injection HB as <- <-; reflexivity|]. rewrite peek_ok in HB. cbn [bind] in HB. destruct (negb _); injection HB as <- <-; reflexivity. } subst r.
    destruct (nth_at (peekK (K0 x1)) COMMA x1).
    + pose proof (mono_comma _ _ E1) as M2. unfold idp in M2.
      destruct (key_value_item x x1 HTx E0 ltac:(lia)) as (t & Y1 & S1 & N1). destruct (comma_yields _ _ (tame_yields _ _ _ Y1 HTx) E1) as (tc & c & Y2 & S2 & _).
      destruct (S1 _ _ S2) as (i & Si). exists [t; tc], i. split; auto. apply (yields_trans _ [t] _ [tc] _ Y1 Y2).
    + injection E1 as <-. destruct (key_value_item x x1 HTx E0 ltac:(lia)) as (t & Y1 & S1 & N1). destruct (S1 [] None) as (i & Si); [constructor|]. exists [t], i. auto.
  - lia.
Qed.
Lemma kvg_group : good_group KEY_VALUE_GROUP true kv_lined (key_value_group v).
Proof. intros p p' HT H HQ H1 H2. destruct (kvg_lines p p' HT H HQ H1 H2) as (its & is & A & B & C & D). eauto 7. Qed.
End Items.

(** * Bodies *)
Lemma peek_head s K : ts_contains s EOF = true -> ts_contains s (knth (peekK K) K) = false -> khd K <> EOF.
Proof.
  intros HS H E. rewrite peekK_zero in H by (rewrite E; discriminate). fold (khd K) in H. rewrite E, HS in H. discriminate.
Qed.
(** The loop of a body: line breaks, dangling comments, then a group, until one of [ends] is ahead. *)
Lemma body_loop gk table R ends group (tail : pst -> res pst) : ts_contains ends EOF = true -> (forall p, mono p (group p) idp) -> good_group gk table R group ->
  (forall p, mono p (tail p) idp) -> (forall p p', tail p = Done p' -> nerr p' = nerr p -> p' = p) ->
  forall fuel p p', tame (p_rest p) -> loop_ fuel (fun p =>
    do p <- while_eat LINE_BREAK p;
    do p <- dangling_comment_groups p;
    do n <- peek_leading_comments p;
    if nth_at_ts n ends p then break p
    else do p <- group p; do p <- tail p; again p) p = Done p' -> nerr p' = nerr p ->
  exists cs, yields p cs p' /\ (forall n, exists gs m, sh_body gk table n cs gs m) /\ (khd (K0 p) = LINE_BREAK -> starts_line cs) /\ (khd (K0 p) = EOF -> cs = []) /\
    settled (K0 p') /\ ts_contains ends (knth (peekK (K0 p')) (K0 p')) = true /\
    ((forall its, R its -> line_tree (TNode gk its)) -> (forall p p', tail p = Done p' -> nerr p' = nerr p -> at_ts TS_LINE_END p = true) -> lined_out cs p').
Proof.
  intros HE HM HG HMt HTl. induction fuel as [|fuel IH]; intros p p' HT H HQ; [discriminate|]. cbn [loop_] in H.
  destruct (while_eat LINE_BREAK p) as [q1| | |] eqn:E1; cbn [bind] in H; try discriminate.
  destruct (dangling_comment_groups q1) as [q2| | |] eqn:E2; cbn [bind] in H; try discriminate.
  pose proof (mono_while_eat _ _ _ E1) as M1. pose proof (mono_dangling _ _ E2) as M2. unfold idp in M1, M2.
  destruct (while_eat_yields LINE_BREAK p q1 eq_refl ltac:(discriminate) E1) as (bs & Y1 & B1 & N1 & _ & Z1 & S1).
  pose proof (tame_yields _ _ _ Y1 HT) as HT1. destruct (dangling_yields gk table q1 q2 HT1 E2) as (ds & Y2 & ST & B2 & Z2 & _ & HLO).
  pose proof (tame_yields _ _ _ Y2 HT1) as HT2.
  assert (HSL : forall l, khd (K0 p) = LINE_BREAK -> starts_line (bs ++ l)).
  { intros l HL. specialize (S1 HL). destruct bs as [|b bs]; [contradiction|]. destruct (Forall_inv B1) as [w ->]. exact I. }
  assert (HZ : khd (K0 p) = EOF -> bs = [] /\ ds = [] /\ q2 = p).
  { intros HK. destruct (Z1 ltac:(rewrite HK; discriminate)) as [-> ->]. destruct Z2 as [-> ->]; auto. split; rewrite HK; discriminate. }
  assert (HBD : forall n, exists gs m, sh_body gk table n (bs ++ ds) gs m).
  { intros n. destruct (B2 (length bs + n)%nat) as (gs & m & HB). exists ([] ++ gs), m. eapply sh_body_app; [apply breaks_body; exact B1|exact HB]. }
  assert (HLD : lined_out (bs ++ ds) q2).
  { destruct (lined_breaks bs B1) as [LB EB]. destruct HLO as (L2 & F2 & D2). split; [|split].
    - apply lined_app; auto. destruct EB; [left; auto|right; right; left; auto].
    - apply Forall_app. split; [eapply Forall_impl; [|exact B1]; intros t (w & ->); constructor|exact F2].
    - apply (ended_trans bs q1); auto. destruct EB; [left; auto|right; left; auto]. }
  rewrite peek_ok in H. cbn [bind] in H. rewrite nth_at_ts_sig in H.
  destruct (ts_contains ends (knth (peekK (K0 q2)) (K0 q2))) eqn:EP; cbn [break] in H.
  - injection H as <-. exists (bs ++ ds). split; [eapply yields_trans; eauto|]. split; [exact HBD|]. split; [apply HSL|]. split; [|split; [exact ST|split; [exact EP|intros _ _; exact HLD]]].
    intros HK. destruct (HZ HK) as (-> & -> & _). reflexivity.
  - destruct (group q2) as [q3| | |] eqn:E3; cbn [bind] in H; try discriminate. destruct (tail q3) as [q4| | |] eqn:E4; cbn [bind again] in H; try discriminate.
    pose proof (HM _ _ E3) as M3. pose proof (HMt _ _ E4) as M4. unfold idp in M3, M4.
    assert (M5 : (nerr q4 <= nerr p')%nat).
    { clear -H HM HMt. match type of H with loop_ _ ?b _ = _ => assert (HB : forall p, mono p (b p) snd) end.
      { intros q. eapply mono_bind; [apply mono_while_eat|]. unfold idp. intros q5 _. eapply mono_bind; [apply mono_dangling|]. unfold idp. intros q6 _. apply mono_any. intros n.
        destruct (nth_at_ts n ends q6); [mdone|]. eapply mono_bind; [apply HM|]. unfold idp. intros q7 _. eapply mono_bind; [apply HMt|]. intros q8 _. mdone. }
      revert H. generalize q4. induction fuel as [|fuel IH]; intros q H; [discriminate|]. cbn [loop_] in H.
      match type of H with match ?b with _ => _ end = _ => destruct b as [[b' r]| | |] eqn:E end; try discriminate. apply HB in E. cbn [snd] in E.
      destruct b'; [apply IH in H; lia|injection H as <-; exact E]. }
    assert (q4 = q3) by (apply HTl; auto; lia). subst q4.
    destruct ST as [ST1 ST2]. destruct (HG q2 q3 HT2 E3 ltac:(lia) ST1 (peek_head _ _ HE EP)) as (its & is & Y3 & S3 & NE & HR).
    destruct (IH q3 p' (tame_yields _ _ _ Y3 HT2) H ltac:(lia)) as (cs & Y4 & B4 & _ & EZ4 & ST4 & EP4 & HL4).
    exists ((bs ++ ds) ++ TNode gk its :: cs). split; [|split; [|split; [|split; [|split; [exact ST4|split; [exact EP4|]]]]]].
    + apply (yields_trans _ (bs ++ ds) _ (_ :: cs) _ (yields_trans _ _ _ _ _ Y1 Y2)). apply (yields_trans _ [_] _ cs _ Y3 Y4).
    + intros n. destruct (HBD n) as (gs & m & HB). destruct (B4 0%nat) as (gs2 & m2 & HB2). exists (gs ++ GI (blanks m) is :: gs2), m2.
      eapply sh_body_app; eauto. constructor; auto.
    + rewrite <- app_assoc. apply HSL.
    + intros HK. destruct (HZ HK) as (_ & _ & ->). exfalso. exact (peek_head _ _ HE EP HK).
    + intros HRL HTE. destruct HLD as (L2 & F2 & D2). destruct (HL4 HRL HTE) as (L4 & F4 & D4).
      assert (HEN : ended [TNode gk its] q3).
      { right. right. pose proof (HTE _ _ E4 ltac:(lia)) as HX. rewrite at_ts_sig in HX. cbn in HX. destruct (kind_eqb (khd (K0 q3)) LINE_BREAK) eqn:EL; [apply kind_eqb_eq in EL; auto|].
        destruct (kind_eqb (khd (K0 q3)) EOF) eqn:EF; [apply kind_eqb_eq in EF; auto|discriminate]. }
      split; [|split].
      * apply lined_app; [exact L2| |].
        -- apply (lined_app [_] cs); [apply lined_one|exact L4|]. eapply ended_junction; eauto.
        -- destruct D2 as [D2|[D2|[D2|D2]]]; [left; auto|right; right; left; auto|contradiction|exfalso; exact (peek_head _ _ HE EP D2)].
      * apply Forall_app. split; [exact F2|]. constructor; auto.
      * apply (ended_trans (bs ++ ds) q2 (TNode gk its :: cs) p'); [exact D2|apply (yields_trans _ [_] _ cs _ Y3 Y4)|]. apply (ended_trans [_] q3 cs p'); auto.
Qed.
Lemma bracketed_good table group e : (forall p, mono p (group p) idp) -> good_group (group_kind table) table (fun _ => True) group -> forall p p', tame (p_rest p) ->
  bracketed (open_kind table) (close_kind table) (if table then TS_INLINE_TABLE_END else TS_ARRAY_END) group e (box_kind table) p = Done p' -> nerr p' = nerr p ->
  exists t x, yields p [t] p' /\ sh_value t x /\ khd (K0 p') <> COMMENT /\ (is_lc (khd (K0 p)) = false -> vlead x = []).
Proof.
  intros HM HG p p' HT H HQ. unfold bracketed in H. cbn [start] in H. set (ps := push_event _ p) in *. assert (HN0 : nerr ps = nerr p) by (unfold ps; rewrite nerr_push; cbn; lia).
  binds H. pose proof (mono_leading _ _ E) as M1. assert (HT0 : tame (p_rest ps)) by exact HT.
  destruct (leading_yields _ _ HT0 E) as (l & Y1 & L1 & N1 & K1 & Z1). pose proof (tame_yields _ _ _ Y1 HT0) as HT1.
  destruct (at_ (open_kind table) q) eqn:EA; cbn [negb] in H; [|discriminate]. destruct (eat (open_kind table) q) as [b q2] eqn:EE.
  assert (b = true) by (rewrite (eat_at _ _ EA) in EE; congruence). subst b. pose proof (nerr_eat _ _ _ _ EE) as M2.
  assert (HPO : plain_kind (open_kind table) = true /\ open_kind table <> EOF) by (destruct table; split; (reflexivity || discriminate)).
  assert (HPC : plain_kind (close_kind table) = true /\ close_kind table <> EOF) by (destruct table; split; (reflexivity || discriminate)).
  destruct (eat_yields q _ true q2 (proj1 HPO) (proj2 HPO) EE) as (_ & _ & _ & wo & Y2). pose proof (tame_yields _ _ _ Y2 HT1) as HT2.
  binds H. rename q0 into q3. pose proof (mono_trailing _ _ E0) as M3. destruct (trailing_yields _ _ HT2 E0) as (otr & otc & Y3 & T3 & N3 & _). pose proof (tame_yields _ _ _ Y3 HT2) as HT3.
  binds H. rename q0 into q4. destruct (eat (close_kind table) q4) as [closed q5] eqn:EE2. pose proof (nerr_eat _ _ _ _ EE2) as M5.
  binds H. rename q0 into q6. binds H. rename q0 into q7. pose proof (mono_trailing _ _ E3) as M7. pose proof (nerr_complete _ _ _ _ H) as M8.
  assert (M6 : (nerr q5 <= nerr q6)%nat /\ (closed = false -> (nerr q5 < nerr q6)%nat) /\ (closed = true -> q6 = q5)).
  { destruct closed; cbn [negb] in E2; [injection E2 as <-; repeat split; auto; try discriminate|]. binds E2. injection E2 as <-. rewrite nerr_error. repeat split; try lia; try discriminate. }
  set (ends := if table then TS_INLINE_TABLE_END else TS_ARRAY_END) in *. assert (HE : ts_contains ends EOF = true) by (destruct table; reflexivity).
  assert (M4 : (nerr q3 <= nerr q4)%nat).
  { refine (mono_loop _ _ q3 q4 E1). intros x. eapply mono_bind; [apply mono_while_eat|]. unfold idp. intros x4 _. eapply mono_bind; [apply mono_dangling|]. unfold idp. intros x5 _. apply mono_any. intros n.
    destruct (nth_at_ts n ends x5); [mdone|]. eapply mono_bind; [apply HM|]. intros x6 _. mdone. }
  unfold idp in *. destruct M6 as (M6 & M6f & M6t). destruct closed; [|specialize (M6f eq_refl); lia]. specialize (M6t eq_refl). subst q6.
  destruct (eat_yields q4 _ true q5 (proj1 HPC) (proj2 HPC) EE2) as (_ & _ & _ & wc & Y5).
  unfold loop in E1. destruct (body_loop (group_kind table) table (fun _ => True) ends group (fun p => Done p) HE HM HG ltac:(intros x; mdone) ltac:(intros x y HX _; congruence) _ q3 q4 HT3 E1 ltac:(lia)) as (es & Y4 & B4 & _).
  destruct (B4 0%nat) as (gs & n & HB). pose proof (tame_yields _ _ _ Y5 (tame_yields _ _ _ Y4 HT3)) as HT5.
  destruct (trailing_yields _ _ HT5 E3) as (tr & tc & Y7 & T7 & N7 & _).
  pose proof (yields_trans _ _ _ _ _ Y1 (yields_trans _ _ _ _ _ Y2 (yields_trans _ _ _ _ _ Y3 (yields_trans _ _ _ _ _ Y4 (yields_trans _ _ _ _ _ Y5 Y7))))) as Y.
  destruct (node_yields p _ _ (box_kind table) p' ltac:(destruct table; discriminate) Y H) as [YN HKN]. cbn [app] in YN.
  eexists _, (FBox table (comments_of l) otc gs tc). split; [exact YN|]. split; [eapply sh_box; eauto using sh_lead_ex|]. split; [rewrite HKN; exact N7|].
  intros HZ. rewrite (Z1 HZ). reflexivity.
Qed.
Lemma yields_depth p cs q d q' : yields (MkP (p_src p) (p_seen p) (p_rest p) d (p_tokens p) (p_events p)) cs q ->
  p_src q' = p_src q -> p_rest q' = p_rest q -> p_tokens q' = p_tokens q -> p_events q' = p_events q -> yields p cs q'.
Proof.
  intros [S (tr & c & n & H)] E1 E2 E3 E4. cbn [p_src p_rest p_tokens p_events] in *. split; [congruence|]. exists tr, c, n. rewrite E2, E3, E4. exact H.
Qed.
Lemma value_good stack : good_value (value stack).
Proof.
  induction stack as [|stack IH]; intros p p' HT H HQ; [discriminate|]. cbn [value] in H. rewrite peek_ok in H. cbn [bind] in H. rewrite nth_kind_sig in H.
  assert (HL : literal_kind (knth (peekK (K0 p)) (K0 p)) = true -> parse_literal_value p = Done p' ->
    exists t x, yields p [t] p' /\ sh_value t x /\ khd (K0 p') <> COMMENT /\ (is_lc (khd (K0 p)) = false -> vlead x = [])).
  { intros HK HP. apply literal_yields; auto. rewrite khd_drop_peek; auto. apply literal_plain. exact HK. }
  assert (HN : forall table group e, (forall p, mono p (group p) idp) -> good_group (group_kind table) table (fun _ => True) group ->
    parse_nested (bracketed (open_kind table) (close_kind table) (if table then TS_INLINE_TABLE_END else TS_ARRAY_END) group e (box_kind table)) p = Done p' ->
    exists t x, yields p [t] p' /\ sh_value t x /\ khd (K0 p') <> COMMENT /\ (is_lc (khd (K0 p)) = false -> vlead x = [])).
  { intros table group e HM HG HP. unfold parse_nested in HP. destruct (Nat.leb _ _); [apply strict_too_deep in HP; lia|]. binds HP.
    pose proof (nerr_exit _ _ HP) as M. unfold exit_nested in HP. destruct (p_depth q) as [|d] eqn:ED; [discriminate|]. injection HP as <-.
    destruct (bracketed_good table group e HM HG (enter_nested p) q HT E) as (t & x & Y & S & N & Z); [unfold enter_nested, nerr in *; cbn [p_events] in *; lia|].
    exists t, x. split; [|auto]. eapply yields_depth; [exact Y|reflexivity..]. }
  destruct (knth (peekK (K0 p)) (K0 p)); try (apply HL; auto; fail); try (apply strict_invalid_value in H; lia); try (apply strict_key_as_value in H; lia).
  - refine (HN false _ _ _ _ H); [apply mono_vwcg; apply mono_value|apply vwcg_group; [apply mono_value|exact IH]].
  - refine (HN true _ _ _ _ H); [apply mono_kvwcg; apply mono_value|apply kvwcg_group; [apply mono_value|exact IH]].
Qed.

(** * Sections and the whole document *)
Lemma tail_quiet p p' : (if negb (at_ts TS_LINE_END p) then invalid_line ExpectedLineBreak p else Done p) = Done p' -> nerr p' = nerr p -> p' = p /\ at_ts TS_LINE_END p = true.
Proof. destruct (at_ts TS_LINE_END p); cbn [negb]; [intros H; injection H as <-; auto|]. intros H HQ. apply strict_invalid_line in H. lia. Qed.
Lemma mono_tail p : mono p (if negb (at_ts TS_LINE_END p) then invalid_line ExpectedLineBreak p else Done p) idp.
Proof. destruct (negb _); [apply mono_invalid_line|mdone]. Qed.
Lemma lines_yields stack p p' : tame (p_rest p) -> section_lines (value stack) p = Done p' -> nerr p' = nerr p ->
  exists cs, yields p cs p' /\ (forall n, exists gs m, sh_body KEY_VALUE_GROUP true n cs gs m) /\ (khd (K0 p) = LINE_BREAK -> starts_line cs) /\ (khd (K0 p) = EOF -> cs = []) /\
    settled (K0 p') /\ ts_contains TS_NEXT_SECTION (knth (peekK (K0 p')) (K0 p')) = true /\ lined_out cs p'.
Proof.
  intros HT H HQ. unfold section_lines, loop in H.
  destruct (body_loop KEY_VALUE_GROUP true kv_lined TS_NEXT_SECTION (key_value_group (value stack)) (fun p => if negb (at_ts TS_LINE_END p) then invalid_line ExpectedLineBreak p else Done p)) with (fuel := S (length (p_rest p))) (p := p) (p' := p')
    as (cs & A1 & A2 & A3 & A4 & A5 & A6 & A7); auto.
  - apply mono_kvg. apply mono_value.
  - apply kvg_group; [apply mono_value|apply value_good].
  - intros x. apply mono_tail.
  - intros x y HX HY. apply tail_quiet; auto.
  - exists cs. split; auto. split; auto. split; auto. split; auto. split; auto. split; auto. apply A7; [intros its; constructor; auto|]. intros x y HX HY. apply (tail_quiet x y); auto.
Qed.
Lemma section_yields stack array e p p' : tame (p_rest p) -> section (head_kind array) (tail_kind array) e (table_kind array) (value stack) p = Done p' -> nerr p' = nerr p ->
  exists t, yields p [t] p' /\ settled (K0 p') /\ ts_contains TS_NEXT_SECTION (knth (peekK (K0 p')) (K0 p')) = true /\ (forall n es ts, sh_tables 0 es ts -> exists x, sh_tables n (t :: es) (x :: ts)) /\
    line_tree t /\ ended [t] p'.
Proof.
  intros HT H HQ. unfold section in H. cbn [start] in H. set (ps := push_event _ p) in *. assert (HN0 : nerr ps = nerr p) by (unfold ps; rewrite nerr_push; cbn; lia).
  binds H. pose proof (mono_leading _ _ E) as M1. assert (HT0 : tame (p_rest ps)) by exact HT.
  destruct (leading_yields _ _ HT0 E) as (l & Y1 & L1 & N1 & K1 & Z1). pose proof (tame_yields _ _ _ Y1 HT0) as HT1.
  destruct (at_ (head_kind array) q) eqn:EA; cbn [negb] in H; [|discriminate]. destruct (eat (head_kind array) q) as [b q2] eqn:EE.
  assert (b = true) by (rewrite (eat_at _ _ EA) in EE; congruence). subst b. pose proof (nerr_eat _ _ _ _ EE) as M2.
  assert (HY : forall k, (k = head_kind array \/ k = tail_kind array) -> forall x y, eat k x = (true, y) -> exists w, yields x [TToken k w] y).
  { intros k HK x y HX. destruct array, HK as [-> | ->]; cbn [head_kind tail_kind] in *.
    - eapply eat_pair_yields; eauto.
    - eapply eat_pair_yields; eauto.
    - destruct (eat_yields x BRACKET_START true y eq_refl ltac:(discriminate) HX) as (_ & _ & _ & HW). exact HW.
    - destruct (eat_yields x BRACKET_END true y eq_refl ltac:(discriminate) HX) as (_ & _ & _ & HW). exact HW. }
  destruct (HY _ (or_introl eq_refl) q q2 EE) as (wo & Y2). pose proof (tame_yields _ _ _ Y2 HT1) as HT2.
  binds H. rename q0 into q3. pose proof (mono_keys _ _ E0) as M3. destruct (eat (tail_kind array) q3) as [closed q4] eqn:EE2. pose proof (nerr_eat _ _ _ _ EE2) as M4.
  binds H. rename q0 into q5. binds H. rename q0 into q6. pose proof (mono_trailing _ _ E2) as M6. binds H. rename q0 into q7. pose proof (mono_tail _ _ E3) as M7. binds H. rename q0 into q8.
  pose proof (mono_lines _ (mono_value stack) _ _ E4) as M8. pose proof (nerr_complete _ _ _ _ H) as M9. unfold idp in *.
  assert (M5 : (nerr q4 <= nerr q5)%nat /\ (closed = false -> (nerr q4 < nerr q5)%nat) /\ (closed = true -> q5 = q4)).
  { destruct closed; cbn [negb] in E1; [injection E1 as <-; repeat split; auto; try discriminate|]. apply strict_invalid_line in E1. repeat split; try lia; try discriminate. }
  destruct M5 as (M5 & M5f & M5t). destruct closed; [|specialize (M5f eq_refl); lia]. specialize (M5t eq_refl). subst q5.
  destruct (HY _ (or_intror eq_refl) q3 q4 EE2) as (wc & Y4).
  destruct (keys_yields q2 q3 E0 ltac:(lia)) as [(kts & ks & Y3 & S3)|HF].
  2: { exfalso. clear -EE2 HF. unfold eat, at_ in EE2. destruct array; cbn [tail_kind nth_at] in EE2; [rewrite composite_sig in EE2; unfold composite in EE2|rewrite nth_kind_sig in EE2]; fold (khd (K0 q3)) in EE2; rewrite HF in EE2; discriminate EE2. }
  pose proof (tame_yields _ _ _ Y4 (tame_yields _ _ _ Y3 HT2)) as HT4. destruct (trailing_yields _ _ HT4 E2) as (tr & tc & Y6 & T6 & N6 & _). pose proof (tame_yields _ _ _ Y6 HT4) as HT6.
  destruct (tail_quiet _ _ E3 ltac:(lia)) as [-> HLE].
  destruct (lines_yields stack q6 q8 HT6 E4 ltac:(lia)) as (body & Y8 & B8 & SL & SE & ST8 & EP8 & L8 & F8 & D8).
  pose proof (yields_trans _ _ _ _ _ Y1 (yields_trans _ _ _ _ _ Y2 (yields_trans _ _ _ _ _ Y3 (yields_trans _ _ _ _ _ Y4 (yields_trans _ _ _ _ _ Y6 Y8))))) as Y.
  destruct (node_yields p _ _ (table_kind array) p' ltac:(destruct array; discriminate) Y H) as [YN HKN]. cbn [app] in YN.
  assert (HLN : khd (K0 q6) = LINE_BREAK \/ khd (K0 q6) = EOF).
  { rewrite at_ts_sig in HLE. cbn in HLE. destruct (kind_eqb (khd (K0 q6)) LINE_BREAK) eqn:EL; [apply kind_eqb_eq in EL; auto|]. destruct (kind_eqb (khd (K0 q6)) EOF) eqn:EF; [|discriminate].
    apply kind_eqb_eq in EF. auto. }
  assert (HSB : starts_line body) by (destruct HLN as [HLN|HLN]; [auto|rewrite (SE HLN); exact I]).
  eexists. split; [exact YN|]. split; [rewrite HKN; exact ST8|]. split; [rewrite HKN; exact EP8|]. split; [|split].
  - intros n es ts HS. destruct (B8 0%nat) as (gs & m & HB). exists (FTable array (comments_of l) ks tc gs (blanks n)). eapply sh_tables_cons; eauto using sh_lead_ex.
  - eapply lt_table; eauto.
  - assert (HE6 : ended (l ++ TToken (head_kind array) wo :: TNode KEYS kts :: TToken (tail_kind array) wc :: tr) q6) by (right; right; exact HLN).
    pose proof (ended_trans _ _ _ _ HE6 Y8 D8) as HX. rewrite <- app_assoc in HX. cbn [app] in HX. unfold ended in *. rewrite HKN. cbn [lkinds flat_map tkinds]. rewrite app_nil_r. exact HX.
Qed.
Lemma mono_root_body stack x : mono x (do p <- while_eat LINE_BREAK x; do n <- peek_leading_comments p;
   if nth_at n EOF p then break p
   else if nth_at n DOUBLE_BRACKET_START p then do p <- array_of_table (value stack) p; again p
   else if nth_at n BRACKET_START p then do p <- table (value stack) p; again p
   else do p <- unknown_line p; again p) snd.
Proof.
  eapply mono_bind; [apply mono_while_eat|]. unfold idp. intros q4 _. apply mono_any. intros n.
  destruct (nth_at n EOF q4); [mdone|].
  destruct (nth_at n DOUBLE_BRACKET_START q4). { eapply mono_bind; [apply mono_section; apply mono_value|]. intros q5 _. mdone. }
  destruct (nth_at n BRACKET_START q4). { eapply mono_bind; [apply mono_section; apply mono_value|]. intros q5 _. mdone. }
  eapply mono_bind with (st := idp); [|intros q5 _; mdone]. intros a H. apply strict_unknown in H. unfold idp. lia.
Qed.
Lemma breaks_tables bs es ts : Forall is_break bs -> forall n, sh_tables (length bs + n) es ts -> sh_tables n (bs ++ es) ts.
Proof.
  induction 1 as [|t bs [w ->] HF IH]; intros n H; cbn [app length] in *; auto. constructor. apply IH. rewrite <- Nat.add_succ_comm. exact H.
Qed.
Lemma root_loop stack : forall fuel p p', tame (p_rest p) -> settled (K0 p) -> ts_contains TS_NEXT_SECTION (knth (peekK (K0 p)) (K0 p)) = true -> loop_ fuel (fun p =>
    do p <- while_eat LINE_BREAK p;
    do n <- peek_leading_comments p;
    if nth_at n EOF p then break p
    else if nth_at n DOUBLE_BRACKET_START p then do p <- array_of_table (value stack) p; again p
    else if nth_at n BRACKET_START p then do p <- table (value stack) p; again p
    else do p <- unknown_line p; again p) p = Done p' -> nerr p' = nerr p ->
  exists cs, yields p cs p' /\ settled (K0 p') /\ knth (peekK (K0 p')) (K0 p') = EOF /\ (forall n, exists ts, sh_tables n cs ts) /\ (khd (K0 p) = EOF -> cs = []) /\ lined_out cs p'.
Proof.
  induction fuel as [|fuel IH]; intros p p' HT HST HNX H HQ; [discriminate|]. cbn [loop_] in H.
  destruct (while_eat LINE_BREAK p) as [q1| | |] eqn:E1; cbn [bind] in H; try discriminate.
  destruct (while_eat_yields LINE_BREAK p q1 eq_refl ltac:(discriminate) E1) as (bs & _ & _ & _ & _ & Z1 & _). destruct (Z1 (proj1 HST)) as [_ ->]. clear Z1 bs.
  rewrite peek_ok in H. cbn [bind] in H. rewrite nth_at_sig in H by reflexivity.
  destruct (kind_eqb (knth (peekK (K0 p)) (K0 p)) EOF) eqn:EF; cbn [break] in H.
  { injection H as <-. apply kind_eqb_eq in EF. exists []. split; [apply yields_refl|]. split; [exact HST|]. split; [exact EF|]. split; [intros n; exists []; constructor|]. split; [auto|]. split; [apply lined_nil|]. split; [constructor|left; reflexivity]. }
  assert (HML : forall q, loop_ fuel (fun p =>
    do p <- while_eat LINE_BREAK p;
    do n <- peek_leading_comments p;
    if nth_at n EOF p then break p
    else if nth_at n DOUBLE_BRACKET_START p then do p <- array_of_table (value stack) p; again p
    else if nth_at n BRACKET_START p then do p <- table (value stack) p; again p
    else do p <- unknown_line p; again p) q = Done p' -> (nerr q <= nerr p')%nat).
  { clear. induction fuel as [|fuel IH]; intros q H; [discriminate|]. cbn [loop_] in H.
    match type of H with match ?b with _ => _ end = _ => destruct b as [[b' r]| | |] eqn:E end; try discriminate. apply mono_root_body in E. cbn [snd] in E.
    destruct b'; [apply IH in H; lia|injection H as <-; exact E]. }
  assert (HSEC : forall array e, (do q <- section (head_kind array) (tail_kind array) e (table_kind array) (value stack) p; again q) = Done (true, p) -> True) by auto.
  assert (HGO : forall array e q, section (head_kind array) (tail_kind array) e (table_kind array) (value stack) p = Done q ->
    loop_ fuel (fun p =>
    do p <- while_eat LINE_BREAK p;
    do n <- peek_leading_comments p;
    if nth_at n EOF p then break p
    else if nth_at n DOUBLE_BRACKET_START p then do p <- array_of_table (value stack) p; again p
    else if nth_at n BRACKET_START p then do p <- table (value stack) p; again p
    else do p <- unknown_line p; again p) q = Done p' ->
    exists cs, yields p cs p' /\ settled (K0 p') /\ knth (peekK (K0 p')) (K0 p') = EOF /\ (forall n, exists ts, sh_tables n cs ts) /\ (khd (K0 p) = EOF -> cs = []) /\ lined_out cs p').
  { intros array e q HS HL. pose proof (HML _ HL) as M2. pose proof (mono_section _ (mono_value stack) _ _ _ _ _ _ HS) as M1. unfold idp in M1.
    destruct (section_yields stack array e p q HT HS ltac:(lia)) as (t & Y & ST & NX & HN & LT & LE).
    destruct (IH q p' (tame_yields _ _ _ Y HT) ST NX HL ltac:(lia)) as (cs & Y2 & ST2 & EF2 & HN2 & EZ2 & L2 & F2 & D2). exists (t :: cs).
    split; [apply (yields_trans _ [t] _ cs _ Y Y2)|]. split; [exact ST2|]. split; [exact EF2|]. split; [intros n; destruct (HN2 0%nat) as (ts & Hts); destruct (HN n cs ts Hts) as (x & Hx); eauto|]. split; [|split; [|split]].
    - intros HE. exfalso. rewrite peekK_zero in EF by (rewrite HE; discriminate). fold (khd (K0 p)) in EF. rewrite HE, kind_eqb_refl in EF. discriminate.
    - apply (lined_app [t] cs); [apply lined_one|exact L2|]. eapply ended_junction; eauto.
    - constructor; auto.
    - apply (ended_trans [t] q cs p'); auto. }
  clear HSEC. destruct (nth_at (peekK (K0 p)) DOUBLE_BRACKET_START p) eqn:ED.
  { destruct (array_of_table (value stack) p) as [q| | |] eqn:ES; cbn [bind again] in H; try discriminate. eapply (HGO true); eauto. }
  rewrite nth_at_sig in H by reflexivity.
  destruct (kind_eqb (knth (peekK (K0 p)) (K0 p)) BRACKET_START) eqn:EB.
  { destruct (table (value stack) p) as [q| | |] eqn:ES; cbn [bind again] in H; try discriminate. eapply (HGO false); eauto. }
  destruct (unknown_line p) as [q| | |] eqn:ES; cbn [bind again] in H; try discriminate. apply strict_unknown in ES. apply HML in H. lia.
Qed.
Theorem root_yields stack p p' : tame (p_rest p) -> root (value stack) p = Done p' -> nerr p' = nerr p ->
  exists cs d, yields p [TNode ROOT cs] p' /\ sh_doc (TNode ROOT cs) d /\ settled (K0 p') /\ knth (peekK (K0 p')) (K0 p') = EOF /\ lined cs /\ Forall line_tree cs.
Proof.
  intros HT H HQ. unfold root in H. cbn [start] in H. set (ps := push_event _ p) in *. assert (HN0 : nerr ps = nerr p) by (unfold ps; rewrite nerr_push; cbn; lia).
  binds H. pose proof (mono_lines _ (mono_value stack) _ _ E) as M1. binds H. pose proof (nerr_complete _ _ _ _ H) as M3.
  pose proof (mono_loop _ (mono_root_body stack) _ _ E0) as M2. unfold idp in *.
  destruct (lines_yields stack ps q HT E ltac:(lia)) as (es & Y1 & B1 & _ & _ & ST & NX & L1 & F1 & D1). unfold loop in E0.
  destruct (root_loop stack _ q q0 (tame_yields _ _ _ Y1 HT) ST NX E0 ltac:(lia)) as (cs & Y2 & ST2 & EF2 & HN2 & EZ2 & L2 & F2 & D2).
  destruct (B1 0%nat) as (gs & n & HB). destruct (HN2 n) as (ts & Hts).
  destruct (node_yields p _ _ ROOT p' ltac:(discriminate) (yields_trans _ _ _ _ _ Y1 Y2) H) as [YN HKN].
  exists (es ++ cs), (FDoc gs ts). rewrite HKN. split; [exact YN|]. split; [econstructor; eauto|]. split; [exact ST2|]. split; [exact EF2|]. split; [|apply Forall_app; auto].
  apply lined_app; auto. eapply ended_junction; eauto.
Qed.
