(** Final theorems about TOML strings (C08, C09, C35). *)
From Coq Require Import String Ascii List NArith Bool Arith Lia.
From Verif Require Import Base SyntaxKind TextModel Regex LexerModel LexerSpec LexerProofs TomlGrammar LexScalars LexSound LexNumbers LexerProps
  TomlTextModel TomlStringGrammar TomlTextProofs.
Import ListNotations.
Open Scope N_scope.
Open Scope list_scope.

(** [v] allows the escapes of TOML v1.1.0 *)
Definition v11 (v : toml_version) : bool := negb (is_v1_0_0 v).

(** The text [w] followed by [s] is lexed as one token of kind [k] covering exactly [w]. *)
Definition one_token (k : kind) (w s : str) : Prop :=
  forall seg l, lex seg (w ++ s) = Some l -> exists t ts, tokens l = t :: ts /\ tkind t = k /\ tspan t = MkSpan 0 (len_bytes w).
Definition one_token_anywhere (k : kind) (w s : str) : Prop :=
  forall seg p l t, lex seg (p ++ w ++ s) = Some l -> In t (tokens l) -> tkind t <> EOF -> sstart (tspan t) = len_bytes p ->
  tkind t = k /\ tspan t = MkSpan (len_bytes p) (len_bytes (p ++ w)).
Lemma always_one k w s : always_lexed k w s -> one_token k w s /\ one_token_anywhere k w s.
Proof.
  intros H. split.
  - intros seg l HL. eapply lexed_first; eauto.
  - intros seg p l t HL Ht Hk Hst. eapply lexed_at; eauto.
Qed.

(** * C08 *)
Lemma basic_proof v b s after : basic_body (v11 v) b s -> ends_value after ->
  try_from_basic_string ([34] ++ b ++ [34]) v = DOk s /\
  one_token BASIC_STRING ([34] ++ b ++ [34]) after /\ one_token_anywhere BASIC_STRING ([34] ++ b ++ [34]) after.
Proof. intros H HE. split; [apply try_basic; exact H|]. apply always_one. eapply always_basic; eauto. Qed.
Theorem C08_basic_strings : forall v b s after, basic_body (v11 v) b s -> ends_value after ->
  try_from_basic_string ([34] ++ b ++ [34]) v = DOk s /\
  one_token BASIC_STRING ([34] ++ b ++ [34]) after /\ one_token_anywhere BASIC_STRING ([34] ++ b ++ [34]) after.
Proof. exact basic_proof. Qed.
Print Assumptions C08_basic_strings.

Lemma literal_proof b after : literal_body b -> ends_value after ->
  try_from_literal_string ([39] ++ b ++ [39]) = DOk b /\
  one_token LITERAL_STRING ([39] ++ b ++ [39]) after /\ one_token_anywhere LITERAL_STRING ([39] ++ b ++ [39]) after.
Proof. intros H HE. split; [apply try_literal; exact H|]. apply always_one. apply always_literal; auto. Qed.
Theorem C08_literal_strings : forall b after, literal_body b -> ends_value after ->
  try_from_literal_string ([39] ++ b ++ [39]) = DOk b /\
  one_token LITERAL_STRING ([39] ++ b ++ [39]) after /\ one_token_anywhere LITERAL_STRING ([39] ++ b ++ [39]) after.
Proof. exact literal_proof. Qed.
Print Assumptions C08_literal_strings.

(** Multi-line literal strings are all lexed as one token. *)
Lemma ml_literal_token_proof b0 b after : after_delimiter b0 b -> ml_literal_body 0 b -> ends_value after ->
  one_token MULTI_LINE_LITERAL_STRING ([39;39;39] ++ b0 ++ [39;39;39]) after /\
  one_token_anywhere MULTI_LINE_LITERAL_STRING ([39;39;39] ++ b0 ++ [39;39;39]) after.
Proof. intros HA H HE. apply always_one. apply always_ml_literal; auto. eapply ml_literal_prefix; eauto. Qed.
Theorem C08_ml_literal_tokens : forall b0 b after, after_delimiter b0 b -> ml_literal_body 0 b -> ends_value after ->
  one_token MULTI_LINE_LITERAL_STRING ([39;39;39] ++ b0 ++ [39;39;39]) after /\
  one_token_anywhere MULTI_LINE_LITERAL_STRING ([39;39;39] ++ b0 ++ [39;39;39]) after.
Proof. exact ml_literal_token_proof. Qed.
Print Assumptions C08_ml_literal_tokens.

(** FULL STATEMENT (false): without [simple_start].  Missing: bodies that start with CRLF or with two
    line feeds, see [C08_ml_literal_refuted]. *)
Theorem C08_ml_literal_partial : forall b0 b, after_delimiter b0 b -> ml_literal_body 0 b -> simple_start b0 b ->
  try_from_multi_line_literal_string ([39;39;39] ++ b0 ++ [39;39;39]) = DOk b.
Proof. exact try_ml_literal. Qed.
Print Assumptions C08_ml_literal_partial.

(** The newline after the delimiter is not removed when it is CRLF, and a second line feed is removed too. *)
Theorem C08_ml_literal_refuted : exists b0 b b1 b2, after_delimiter b0 b /\ ml_literal_body 0 b /\
  try_from_multi_line_literal_string ([39;39;39] ++ b0 ++ [39;39;39]) <> DOk b /\
  after_delimiter b1 b2 /\ ml_literal_body 0 b2 /\
  try_from_multi_line_literal_string ([39;39;39] ++ b1 ++ [39;39;39]) <> DOk b2.
Proof.
  exists [13;10;97], [97], [10;10;97], [10;97].
  split; [apply (ad_nl [13;10] [97]); right; reflexivity|].
  split; [apply ml_char; [unfold literal_char; lia|constructor]|].
  split; [vm_compute; discriminate|].
  split; [apply (ad_nl [10] [10;97]); left; reflexivity|].
  split; [apply (ml_newline 0 [10] [97]); [left; reflexivity|apply ml_char; [unfold literal_char; lia|constructor]]|].
  vm_compute. discriminate.
Qed.
Print Assumptions C08_ml_literal_refuted.

(** FULL STATEMENT (false): without the last three hypotheses.  Missing: as above, and bodies that end
    with an escaped backslash, and Unicode spaces after a line-ending backslash, see [C08_ml_basic_refuted]. *)
Lemma ml_basic_proof v b0 b s after : after_delimiter b0 b -> ml_basic_body (v11 v) 0 b s -> ends_value after ->
  ~ last_is_backslash b0 ->
  (simple_start b0 b -> ascii_spaces_only b ->
   try_from_multi_line_basic_string ([34;34;34] ++ b0 ++ [34;34;34]) v = DOk s) /\
  one_token MULTI_LINE_BASIC_STRING ([34;34;34] ++ b0 ++ [34;34;34]) after /\
  one_token_anywhere MULTI_LINE_BASIC_STRING ([34;34;34] ++ b0 ++ [34;34;34]) after.
Proof.
  intros HA H HE HB. split; [intros; eapply try_ml_basic; eauto|].
  apply always_one. destruct (ml_basic_prefix _ _ _ _ HA H) as (s0 & H0). eapply always_ml_basic; eauto.
Qed.
Theorem C08_ml_basic_partial : forall v b0 b s after, after_delimiter b0 b -> ml_basic_body (v11 v) 0 b s -> ends_value after ->
  ~ last_is_backslash b0 ->
  (simple_start b0 b -> ascii_spaces_only b ->
   try_from_multi_line_basic_string ([34;34;34] ++ b0 ++ [34;34;34]) v = DOk s) /\
  one_token MULTI_LINE_BASIC_STRING ([34;34;34] ++ b0 ++ [34;34;34]) after /\
  one_token_anywhere MULTI_LINE_BASIC_STRING ([34;34;34] ++ b0 ++ [34;34;34]) after.
Proof. exact ml_basic_proof. Qed.
Print Assumptions C08_ml_basic_partial.

(** [\"""a\\\"""] is one string of TOML, but the lexer takes the closing quotes for escaped; and a
    no-break space after a line-ending backslash belongs to the string, but is removed. *)
Theorem C08_ml_basic_refuted :
  (exists b s, ml_basic_body true 0 b s /\ ~ one_token MULTI_LINE_BASIC_STRING ([34;34;34] ++ b ++ [34;34;34]) []) /\
  (exists b s, ml_basic_body true 0 b s /\ simple_start b b /\
     try_from_multi_line_basic_string ([34;34;34] ++ b ++ [34;34;34]) V1_1_0 <> DOk s).
Proof.
  split.
  - exists [97;92;92], [97;92]. split.
    + apply mb_char; [unfold basic_unescaped; lia|]. apply (mb_escape true 0 [92] 92 [] []); constructor.
    + intros H. destruct (lex seg1 ([34;34;34] ++ [97;92;92] ++ [34;34;34])) as [l|] eqn:E; [|vm_compute in E; discriminate].
      destruct (H seg1 l E) as (t & ts & H1 & H2 & H3). vm_compute in E. inversion E; subst l. simpl in H1. inversion H1; subst t.
      simpl in H2. discriminate.
  - exists [97;92;10;160;98], [97;160;98]. split; [|split].
    + apply mb_char; [unfold basic_unescaped; lia|]. apply (mb_trim true 0 [] [10] [] [160;98] [160;98]).
      * constructor.
      * left; reflexivity.
      * constructor.
      * simpl. unfold wschar. lia.
      * apply mb_char; [unfold basic_unescaped, non_ascii; lia|]. apply mb_char; [unfold basic_unescaped; lia|constructor].
    + split; intros r E; discriminate.
    + vm_compute. discriminate.
Qed.
Print Assumptions C08_ml_basic_refuted.

(** Witnesses: strings of every sort, with escapes, and what the model computes for them. *)
Example C08_basic_example : basic_body true (lit "tab\t \u00e9\x41\e\""") (lit "tab" ++ [9; 32; 0xe9; 65; 27; 34]) /\ ends_value (lit ", 1").
Proof.
  split; [|simpl; auto 10]. 
  repeat match goal with
  | |- basic_body _ (lit ?s) _ => let x := eval vm_compute in (lit s) in change (lit s) with x
  | |- basic_body _ _ (lit ?s ++ ?t) => let x := eval vm_compute in (lit s ++ t) in change (lit s ++ t) with x
  | |- basic_body _ (92 :: 116 :: ?r) _ => apply (bb_escape true [116] 9 r); [constructor|]
  | |- basic_body _ (92 :: 34 :: ?r) _ => apply (bb_escape true [34] 34 r); [constructor|]
  | |- basic_body _ (92 :: 101 :: ?r) _ => apply (bb_escape true [101] 27 r); [constructor; reflexivity|]
  | |- basic_body _ (92 :: 117 :: ?a :: ?b :: ?c :: ?d :: ?r) _ =>
      apply (bb_escape true [117; a; b; c; d] 0xe9 r); [apply esc_u; [apply (hex4_num 0xe9); lia|reflexivity|unfold scalar_value; lia]|]
  | |- basic_body _ (92 :: 120 :: ?a :: ?b :: ?r) _ =>
      apply (bb_escape true [120; a; b] 65 r); [apply esc_x; [reflexivity|apply (hexnum_snoc [52] 4 49 1 (hexnum_snoc [] 0 52 4 hexnum_nil (hex_09 4 ltac:(lia))) (hex_09 1 ltac:(lia)))|reflexivity]|]
  | |- basic_body _ (_ :: _) _ => apply bb_char; [unfold basic_unescaped, wschar; lia|]
  | |- basic_body _ [] _ => constructor
  end.
Qed.
Example C08_basic_computed :
  try_from_basic_string (lit """tab\t \u00e9\x41\e\"""" ") V1_1_0 = DOk (lit "tab" ++ [9; 32; 0xe9; 65; 27; 34; 34]).
Proof. vm_compute. reflexivity. Qed.
Example C08_ml_basic_example : after_delimiter [10; 97; 92; 10; 32; 34; 34] [97; 92; 10; 32; 34; 34] /\
  ml_basic_body true 0 [97; 92; 10; 32; 34; 34] [97; 34; 34] /\ ~ last_is_backslash [10; 97; 92; 10; 32; 34; 34] /\
  simple_start [10; 97; 92; 10; 32; 34; 34] [97; 92; 10; 32; 34; 34] /\ ascii_spaces_only [97; 92; 10; 32; 34; 34].
Proof.
  split; [apply (ad_nl [10]); left; reflexivity|]. split; [|split; [|split]].
  - apply mb_char; [unfold basic_unescaped; lia|]. apply (mb_trim true 0 [] [10] [32] [34; 34]).
    + constructor.
    + left; reflexivity.
    + apply tr_ws; [left; reflexivity|constructor].
    + simpl. unfold wschar. lia.
    + apply mb_quote; [lia|]. apply mb_quote; [lia|]. constructor.
  - intros (p & E). apply (f_equal (@rev N)) in E. rewrite rev_app_distr in E. simpl in E. inversion E.
  - split; intros r E; discriminate.
  - repeat first [apply Forall_nil|apply Forall_cons; [intros K; first [vm_compute in K; discriminate|unfold ascii_space; lia]|]].
Qed.
Example C08_ml_literal_example : after_delimiter [10; 39; 97; 13; 10; 39; 39] [39; 97; 13; 10; 39; 39] /\
  ml_literal_body 0 [39; 97; 13; 10; 39; 39] /\ simple_start [10; 39; 97; 13; 10; 39; 39] [39; 97; 13; 10; 39; 39].
Proof.
  split; [apply (ad_nl [10]); left; reflexivity|]. split.
  - apply ml_quote; [lia|]. apply ml_char; [unfold literal_char; lia|]. apply (ml_newline 0 [13; 10]); [right; reflexivity|].
    apply ml_quote; [lia|]. apply ml_quote; [lia|]. constructor.
  - split; intros r E; discriminate.
Qed.

(** * C09 *)
(** FULL STATEMENT (false): for every text.  The texts that survive are exactly those without NUL, BEL
    and VT (and without ESC in TOML v1.0.0), whose escapes \0 \a \v \e are not escapes of TOML. *)
Theorem C09_basic_string_partial : forall v s, Forall is_scalar s ->
  (try_from_basic_string (to_basic_string s) v = DOk s <-> Forall (decodable_by (v11 v)) s).
Proof. exact basic_round_trip. Qed.
Print Assumptions C09_basic_string_partial.

Lemma basic_encoded_proof v s after : Forall is_scalar s -> Forall (decodable_by (v11 v)) s -> ends_value after ->
  one_token BASIC_STRING (to_basic_string s) after /\ exists b, to_basic_string s = [34] ++ b ++ [34] /\ basic_body (v11 v) b s.
Proof.
  intros H1 H2 H3. pose proof (to_basic_body _ _ H1 H2) as HB. split; [|eexists; split; [reflexivity|exact HB]].
  apply always_one. eapply always_basic; eauto.
Qed.
(** What is written is a TOML string with that value, and is lexed as one string. *)
Theorem C09_basic_string_is_toml_partial : forall v s after, Forall is_scalar s -> Forall (decodable_by (v11 v)) s -> ends_value after ->
  one_token BASIC_STRING (to_basic_string s) after /\ exists b, to_basic_string s = [34] ++ b ++ [34] /\ basic_body (v11 v) b s.
Proof. exact basic_encoded_proof. Qed.
Print Assumptions C09_basic_string_is_toml_partial.

(** What is written for a key is one TOML key (not a dotted one, not empty) with that value, and is decoded so. *)
Theorem C09_key_partial : forall v s, Forall is_scalar s -> ~ placeholder s -> Forall (decodable_by (v11 v)) s ->
  simple_key (v11 v) (to_key_string s) s /\ decode_key (to_key_string s) v = DOk s.
Proof. exact key_round_trip. Qed.
Print Assumptions C09_key_partial.

(** Every key of the TOML grammar decodes to the value TOML defines. *)
Theorem C08_keys : forall v w s, simple_key (v11 v) w s -> decode_key w v = DOk s.
Proof. exact simple_key_decodes. Qed.
Print Assumptions C08_keys.
Example C08_key_example : simple_key true (lit "bare-Key_1") (lit "bare-Key_1") /\ simple_key false (lit """a.b""") (lit "a.b").
Proof.
  split.
  - apply key_bare; [discriminate|]. repeat first [apply Forall_nil|apply Forall_cons; [unfold unquoted_key_char; vm_compute; intuition discriminate|]].
  - apply (key_basic false (lit "a.b")). repeat (apply bb_char; [unfold basic_unescaped, wschar; vm_compute; intuition discriminate|]). constructor.
Qed.

Lemma literal_encoded_proof s after : literal_body s -> ends_value after ->
  try_from_literal_string (to_literal_string s) = DOk s /\ one_token LITERAL_STRING (to_literal_string s) after.
Proof. intros H1 H2. destruct (literal_proof s after H1 H2) as (K1 & K2 & _). auto. Qed.
Theorem C09_literal_string_partial : forall s after, literal_body s -> ends_value after ->
  try_from_literal_string (to_literal_string s) = DOk s /\ one_token LITERAL_STRING (to_literal_string s) after.
Proof. exact literal_encoded_proof. Qed.
Print Assumptions C09_literal_string_partial.

Theorem C09_ml_literal_string_partial : forall s, ml_literal_body 0 s -> not_start 10 s ->
  try_from_multi_line_literal_string (to_multi_line_literal_string s) = DOk s.
Proof. exact ml_literal_round_trip. Qed.
Print Assumptions C09_ml_literal_string_partial.
Theorem C09_ml_basic_string_partial : forall v s, ml_basic_body (v11 v) 0 s s -> not_start 10 s -> ascii_spaces_only s ->
  try_from_multi_line_basic_string (to_multi_line_basic_string s) v = DOk s.
Proof. exact ml_basic_round_trip. Qed.
Print Assumptions C09_ml_basic_string_partial.

(** NUL as a string, [${x}] as a key, an escape character in v1.0.0, a text starting with a line feed
    as a multi-line string: none comes back. *)
Theorem C09_round_trip_refuted :
  try_from_basic_string (to_basic_string [0]) V1_1_0 <> DOk [0] /\
  try_from_basic_string (to_basic_string [27]) V1_0_0 <> DOk [27] /\
  decode_key (to_key_string (lit "${x}")) V1_1_0 <> DOk (lit "${x}") /\
  try_from_multi_line_literal_string (to_multi_line_literal_string [10; 97]) <> DOk [10; 97].
Proof. repeat split; vm_compute; discriminate. Qed.
Print Assumptions C09_round_trip_refuted.

Example C09_example : Forall is_scalar (lit "a""\" ++ [10; 0x1F600; 1]) /\ Forall (decodable_by false) (lit "a""\" ++ [10; 0x1F600; 1]) /\
  ~ placeholder (lit "a""\" ++ [10; 0x1F600; 1]) /\ literal_body (lit "C:\dir") /\ ml_literal_body 0 [97; 10; 98].
Proof.
  split; [|split; [|split; [|split]]].
  - repeat first [apply Forall_nil|apply Forall_cons; [unfold is_scalar; vm_compute; intuition (try discriminate; try lia)|]].
  - repeat first [apply Forall_nil|apply Forall_cons; [unfold decodable_by; vm_compute; intuition (try discriminate; try lia)|]].
  - intros (u & E & _). discriminate.
  - repeat first [apply Forall_nil|apply Forall_cons; [unfold literal_char; vm_compute; intuition (try discriminate; try lia)|]].
  - apply ml_char; [unfold literal_char; lia|]. apply (ml_newline 0 [10]); [left; reflexivity|]. apply ml_char; [unfold literal_char; lia|constructor].
Qed.
Example C09_computed : to_basic_string (lit "a""\" ++ [10; 0x1F600; 1]) = lit """a\""\\\n" ++ [0x1F600] ++ lit "\u0001""".
Proof. vm_compute. reflexivity. Qed.

(** * C35 *)
(** FULL STATEMENT (false): every basic string token that decodes is a TOML basic string with the decoded
    value.  Missing: tokens with [\u+], [\U+] or [\x+], see [C35_basic_refuted]. *)
Lemma basic_sound_proof seg source l t v w s : Forall is_scalar source ->
  lex seg source = Some l -> In t (tokens l) -> tkind t = BASIC_STRING -> slice source (tspan t) = Some w ->
  try_from_basic_string w v = DOk s -> no_plus_escape w ->
  exists b, w = [34] ++ b ++ [34] /\ basic_body (v11 v) b s.
Proof. exact (basic_token_sound seg source l t v w s). Qed.
Theorem C35_basic_partial : forall seg source l t v w s, Forall is_scalar source ->
  lex seg source = Some l -> In t (tokens l) -> tkind t = BASIC_STRING -> slice source (tspan t) = Some w ->
  try_from_basic_string w v = DOk s -> no_plus_escape w ->
  exists b, w = [34] ++ b ++ [34] /\ basic_body (v11 v) b s.
Proof. exact basic_sound_proof. Qed.
Print Assumptions C35_basic_partial.

Theorem C35_literal : forall seg source l t w s, Forall is_scalar source ->
  lex seg source = Some l -> In t (tokens l) -> tkind t = LITERAL_STRING -> slice source (tspan t) = Some w ->
  try_from_literal_string w = DOk s -> w = [39] ++ s ++ [39] /\ literal_body s.
Proof. exact literal_token_sound. Qed.
Print Assumptions C35_literal.

(** [\u+041] decodes to [A]. *)
Theorem C35_basic_refuted : exists w s, try_from_basic_string w V1_1_0 = DOk s /\ one_token BASIC_STRING w [] /\
  ~ exists b, w = [34] ++ b ++ [34] /\ basic_body true b s.
Proof.
  exists (lit """\u+041"""), [65]. split; [vm_compute; reflexivity|]. split.
  - intros seg l H. 
    assert (E : always_lexed BASIC_STRING (lit """\u+041""") []).
    { intros c HR. apply (basic_lexed c (lit "\u+041") []); [|intros r E; discriminate|exact HR].
      vm_compute. apply qf_bs; [unfold plain_in_string; lia|]. repeat (apply qf_ord; [unfold plain_in_string; lia|]). constructor. }
    eapply lexed_first; eauto.
  - intros (b & E & HB).
    assert (EB : b = lit "\u+041").
    { vm_compute in E. inversion E as [E1]. change [92; 117; 43; 48; 52; 49; 34] with ([92; 117; 43; 48; 52; 49] ++ [34]) in E1.
      apply app_inj_tail in E1 as [E1 _]. rewrite <- E1. reflexivity. }
    subst b. vm_compute in HB. inversion HB as [|c b s Hc|e x b s He Hb E1 E2]; subst.
    inversion He; subst; simpl in E1; inversion E1; subst.
      destruct (hexnum_chars _ _ H) as [|y h Hy Hh]; [discriminate|]. simpl in E1. inversion E1; subst. lia.
Qed.
Print Assumptions C35_basic_refuted.

Example C35_example :
  let w := lit """a\\\""b\u0041""" in
  try_from_basic_string w V1_0_0 = DOk (lit "a\""bA") /\ no_plus_escape w /\
  option_map (fun l => map tkind (tokens l)) (lex seg1 w) = Some [BASIC_STRING; EOF].
Proof.
  split; [vm_compute; reflexivity|]. split; [|vm_compute; reflexivity].
  intros p c r E. exfalso.
  assert (HI : In 43 (lit """a\\\""b\u0041""")) by (rewrite E; apply in_or_app; right; simpl; auto).
  vm_compute in HI. repeat (destruct HI as [HI|HI]; [discriminate|]). exact HI.
Qed.
