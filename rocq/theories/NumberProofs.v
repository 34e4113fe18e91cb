(** Proofs about number literals. *)
From Coq Require Import String Ascii List NArith ZArith Bool Arith Lia ZifyBool.
From Verif Require Import Base SyntaxKind TextModel Regex LexerModel LexerSpec LexerProofs TomlGrammar LexScalars LexSound LexNumbers
  TomlTextModel NumberModel NumberSpec.
Import ListNotations.
Open Scope N_scope.
Open Scope list_scope.

(** * The loop computes the positional value *)
Definition is_digit (radix : N) (c : char) : Prop := to_digit radix c = Some (digit_of c).

Lemma to_digit_of radix c d : to_digit radix c = Some d -> d = digit_of c /\ c <> 95 /\ d < radix.
Proof.
  unfold to_digit, hex_value, digit_of, in_range. intros H.
  destruct ((48 <=? c) && (c <=? 57)) eqn:E1.
  { destruct (c - 48 <? radix) eqn:E; inversion H; subst. replace (c <=? 57) with true by lia. lia. }
  destruct ((97 <=? c) && (c <=? 102)) eqn:E2.
  { destruct (c - 87 <? radix) eqn:E; inversion H; subst. replace (c <=? 57) with false by lia. replace (c <=? 70) with false by lia. lia. }
  destruct ((65 <=? c) && (c <=? 70)) eqn:E3; [|discriminate].
  destruct (c - 55 <? radix) eqn:E; inversion H; subst. replace (c <=? 57) with false by lia. replace (c <=? 70) with true by lia. lia.
Qed.

Lemma without_nil s : without_underscores (95 :: s) = without_underscores s.
Proof. reflexivity. Qed.
Lemma without_cons c s : c <> 95 -> without_underscores (c :: s) = c :: without_underscores s.
Proof. intros H. unfold without_underscores. cbn [filter]. replace (N.eqb c 95) with false by lia. reflexivity. Qed.
Lemma without_app a b : without_underscores (a ++ b) = without_underscores a ++ without_underscores b.
Proof. unfold without_underscores. apply filter_app. Qed.

(** value so far, continued by [s] *)
Definition final (neg : bool) (radix : N) (acc : Z) (s : str) : Z :=
  (acc * Z.of_N (radix ^ digit_count s) + (if neg then -1 else 1) * Z.of_N (positional radix s))%Z.
Definition sign_ok (neg : bool) (acc : Z) : Prop := if neg then (acc <= 0)%Z else (0 <= acc)%Z.

Lemma fits_spec z : fits_i64 z = true <-> in_i64 z.
Proof. unfold fits_i64, in_i64. change (2 ^ 63)%Z with 9223372036854775808%Z. lia. Qed.
Lemma not_fits_spec z : fits_i64 z = false <-> ~ in_i64 z.
Proof. rewrite <- fits_spec. destruct (fits_i64 z); split; congruence. Qed.

Lemma positional_bound radix s : 1 < radix -> Forall (fun c => c = 95 \/ is_digit radix c) s ->
  positional radix s < radix ^ digit_count s.
Proof.
  intros HR. induction 1 as [|c s Hc Hs IH]; cbn [positional digit_count]; [simpl; lia|].
  destruct (N.eqb_spec c 95) as [->|Hne]; auto. destruct Hc as [Hc|Hc]; [contradiction|].
  apply to_digit_of in Hc as (_ & _ & Hd). rewrite N.add_1_l, N.pow_succ_r'. nia.
Qed.

Lemma final_cons neg radix acc c s : c <> 95 ->
  final neg radix acc (c :: s) = final neg radix (if neg then acc * Z.of_N radix - Z.of_N (digit_of c) else acc * Z.of_N radix + Z.of_N (digit_of c))%Z s.
Proof.
  intros H. unfold final. cbn [positional digit_count]. replace (N.eqb c 95) with false by lia.
  rewrite N.add_1_l, N.pow_succ_r', N2Z.inj_mul, N2Z.inj_add, N2Z.inj_mul. destruct neg; nia.
Qed.

Lemma final_mono neg radix acc s : 1 < radix -> sign_ok neg acc ->
  if neg then (final neg radix acc s <= acc)%Z else (acc <= final neg radix acc s)%Z.
Proof.
  intros HR HS. unfold final, sign_ok in *.
  assert (1 <= radix ^ digit_count s). { pose proof (N.pow_nonzero radix (digit_count s)). lia. }
  destruct neg; nia.
Qed.

Lemma radix_loop_value neg radix : 1 < radix -> forall s acc, sign_ok neg acc -> in_i64 acc ->
  Forall (fun c => c = 95 \/ is_digit radix c) s ->
  radix_loop neg radix acc (without_underscores s) =
  if fits_i64 (final neg radix acc s) then IOk (final neg radix acc s) else IErr (if neg then INegOverflow else IPosOverflow).
Proof.
  intros HR. induction s as [|c s IH]; intros acc HS HF HD.
  - unfold final. simpl. replace (acc * 1 + _)%Z with acc by (destruct neg; lia).
    apply fits_spec in HF. rewrite HF. reflexivity.
  - inversion HD as [|? ? H1 H2]; subst. destruct (N.eq_dec c 95) as [->|Hne].
    + rewrite without_nil, IH by auto. unfold final. reflexivity.
    + destruct H1 as [H1|H1]; [contradiction|]. rewrite without_cons by auto. cbn [radix_loop]. rewrite H1.
      rewrite final_cons by auto.
      set (m := (acc * Z.of_N radix)%Z). set (a := (if neg then m - Z.of_N (digit_of c) else m + Z.of_N (digit_of c))%Z).
      assert (Hm : sign_ok neg m) by (unfold sign_ok, m in *; destruct neg; nia).
      assert (Ha : sign_ok neg a) by (unfold sign_ok, a in *; destruct neg; lia).
      assert (Hma : if neg then (a <= m)%Z else (m <= a)%Z) by (unfold a; destruct neg; lia).
      pose proof (final_mono neg radix a s HR Ha) as Hf.
      destruct (fits_i64 m) eqn:Em; cbn [negb].
      * destruct (fits_i64 a) eqn:Ea; cbn [negb].
        -- apply IH; auto. apply fits_spec; auto.
        -- replace (fits_i64 (final neg radix a s)) with false; auto. symmetry. apply not_fits_spec. apply not_fits_spec in Ea.
           unfold in_i64, sign_ok in *. destruct neg; lia.
      * replace (fits_i64 (final neg radix a s)) with false; auto. symmetry. apply not_fits_spec. apply not_fits_spec in Em.
        unfold in_i64, sign_ok in *. destruct neg; lia.
Qed.

Lemma radix_loop_digits neg radix : forall s acc z, radix_loop neg radix acc s = IOk z -> Forall (is_digit radix) s.
Proof.
  induction s as [|c s IH]; intros acc z H; [constructor|]. cbn [radix_loop] in H.
  destruct (to_digit radix c) as [d|] eqn:E; [|discriminate]. cbv zeta in H.
  destruct (negb (fits_i64 (acc * Z.of_N radix))); [discriminate|].
  match type of H with (if ?b then _ else _) = _ => destruct b end; [discriminate|].
  constructor; eauto. destruct (to_digit_of _ _ _ E) as [-> _]. exact E.
Qed.

Lemma digits_of_filter radix s : Forall (is_digit radix) (without_underscores s) -> Forall (fun c => c = 95 \/ is_digit radix c) s.
Proof.
  intros H. rewrite Forall_forall in *. intros c Hc. destruct (N.eq_dec c 95) as [->|Hne]; auto. right. apply H.
  unfold without_underscores. apply filter_In. split; auto. lia.
Qed.

Definition value_or_overflow (z : Z) : int_result :=
  if fits_i64 z then IOk z else IErr (if (z <? 0)%Z then INegOverflow else IPosOverflow).

Lemma zero_in : in_i64 0. Proof. unfold in_i64. lia. Qed.

Lemma from_radix_unsigned radix s : 1 < radix -> Forall (fun c => c = 95 \/ is_digit radix c) s -> without_underscores s <> [] ->
  from_str_radix (without_underscores s) radix = value_or_overflow (Z.of_N (positional radix s)).
Proof.
  intros HR HD Hne.
  assert (E : from_str_radix (without_underscores s) radix = radix_loop false radix 0 (without_underscores s)).
  { destruct (without_underscores s) as [|c u] eqn:E; [contradiction|]. cbn [from_str_radix].
    assert (HI : In c s). { assert (HI : In c (without_underscores s)) by (rewrite E; left; reflexivity). apply filter_In in HI. tauto. }
    rewrite Forall_forall in HD. destruct (HD c HI) as [->|HC].
    - exfalso. assert (HI' : In 95 (without_underscores s)) by (rewrite E; left; reflexivity). apply filter_In in HI' as [_ K]. discriminate.
    - destruct (N.eqb c 43 || N.eqb c 45) eqn:EC; auto. unfold is_digit, to_digit, hex_value, in_range in HC.
      replace ((48 <=? c) && (c <=? 57)) with false in HC by lia. replace ((97 <=? c) && (c <=? 102)) with false in HC by lia.
      replace ((65 <=? c) && (c <=? 70)) with false in HC by lia. discriminate. }
  rewrite E, radix_loop_value by (auto using zero_in; unfold sign_ok; lia).
  unfold final, value_or_overflow. replace (0 * _ + 1 * Z.of_N (positional radix s))%Z with (Z.of_N (positional radix s)) by lia.
  replace (Z.of_N (positional radix s) <? 0)%Z with false by lia. reflexivity.
Qed.
Lemma from_radix_signed (neg : bool) radix s : 1 < radix -> Forall (fun c => c = 95 \/ is_digit radix c) s -> without_underscores s <> [] ->
  from_str_radix ((if neg then 45 else 43) :: without_underscores s) radix =
  value_or_overflow (if neg then - Z.of_N (positional radix s) else Z.of_N (positional radix s))%Z.
Proof.
  intros HR HD Hne.
  assert (E : from_str_radix ((if neg then 45 else 43) :: without_underscores s) radix = radix_loop neg radix 0 (without_underscores s)).
  { cbn [from_str_radix]. replace (N.eqb (if neg then 45 else 43) 43 || N.eqb (if neg then 45 else 43) 45) with true by (destruct neg; reflexivity).
    destruct (without_underscores s); [contradiction|]. destruct neg; reflexivity. }
  rewrite E, radix_loop_value by (auto using zero_in; destruct neg; unfold sign_ok; lia).
  unfold final, value_or_overflow.
  destruct neg.
  - replace (0 * _ + -1 * Z.of_N (positional radix s))%Z with (- Z.of_N (positional radix s))%Z by lia.
    destruct (fits_i64 (- Z.of_N (positional radix s))) eqn:EF; auto. apply not_fits_spec in EF.
    replace (- Z.of_N (positional radix s) <? 0)%Z with true; auto. unfold in_i64 in EF. lia.
  - replace (0 * _ + 1 * Z.of_N (positional radix s))%Z with (Z.of_N (positional radix s)) by lia.
    replace (Z.of_N (positional radix s) <? 0)%Z with false by lia. reflexivity.
Qed.

(** * Digits of the grammar *)
Lemma run_digits d (P : char -> Prop) w : (forall c, d c = true -> P c) -> lang (g_run (RCls d)) w -> Forall (fun c => c = 95 \/ P c) w.
Proof.
  intros Hd H. unfold g_run in H. remember (RStar (RAlt (RCls d) (RSeq g_us (RCls d)))) as r eqn:E.
  induction H; inversion E; subst; [constructor|]. apply Forall_app. split; auto.
  apply lang_alt_inv in H as [H|H].
  - apply lang_cls_inv in H as (c & -> & Hc). auto.
  - apply lang_seq_inv in H as (x & y & -> & Hx & Hy). apply lang_chr_inv in Hx as ->. apply lang_cls_inv in Hy as (c & -> & Hc).
    cbn [app]. constructor; auto.
Qed.
Lemma drun_digits d (P : char -> Prop) w : (forall c, d c = true -> P c) -> (forall c, P c -> c <> 95) -> lang (RSeq (RCls d) (g_run (RCls d))) w ->
  Forall (fun c => c = 95 \/ P c) w /\ without_underscores w <> [].
Proof.
  intros Hd HP H. apply nonempty_seq_cls in H as (x & v & -> & Hx & Hv). split.
  - constructor; auto. eapply run_digits; eauto.
  - rewrite without_cons; auto. discriminate.
Qed.

Lemma digit_in_range radix lo hi : (lo, hi, radix) = (48, 57, 10) \/ (lo, hi, radix) = (48, 55, 8) \/ (lo, hi, radix) = (48, 49, 2) ->
  forall c, in_range lo hi c = true -> is_digit radix c.
Proof.
  intros H c Hc. unfold is_digit, to_digit, hex_value, digit_of, in_range in *.
  assert (48 <= c <= 57) by (destruct H as [H|[H|H]]; inversion H; subst; lia).
  replace ((48 <=? c) && (c <=? 57)) with true by lia. replace (c <=? 57) with true by lia.
  replace (c - 48 <? radix) with true; auto. symmetry. destruct H as [H|[H|H]]; inversion H; subst; lia.
Qed.
Lemma digit_hex c : in_range 48 57 c || in_range 65 70 c || in_range 97 102 c = true -> is_digit 16 c.
Proof.
  intros Hc. unfold is_digit, to_digit, hex_value, digit_of, in_range in *.
  destruct ((48 <=? c) && (c <=? 57)) eqn:E1.
  { replace (c <=? 57) with true by lia. replace (c - 48 <? 16) with true by lia. reflexivity. }
  destruct ((97 <=? c) && (c <=? 102)) eqn:E2.
  { replace (c <=? 57) with false by lia. replace (c <=? 70) with false by lia. replace (c - 87 <? 16) with true by lia. reflexivity. }
  replace ((65 <=? c) && (c <=? 70)) with true by lia.
  replace (c <=? 57) with false by lia. replace (c <=? 70) with true by lia. replace (c - 55 <? 16) with true by lia. reflexivity.
Qed.
Lemma is_digit_us radix c : is_digit radix c -> c <> 95.
Proof. intros H. apply to_digit_of in H. tauto. Qed.

Lemma udec_digits ds : lang g_unsigned_dec_int ds -> Forall (fun c => c = 95 \/ is_digit 10 c) ds /\ without_underscores ds <> [].
Proof.
  assert (HD := digit_in_range 10 48 57 (or_introl eq_refl)).
  intros H. apply lang_alt_inv in H as [H|H].
  - apply lang_cls_inv in H as (c & -> & Hc). split; [constructor; auto|]. rewrite without_cons; [discriminate|]. apply (is_digit_us 10); auto.
  - apply nonempty_seq_cls in H as (x & v & -> & Hx & Hv). apply lang_seq_inv in Hv as (a & b & -> & Ha & Hb).
    assert (HX : is_digit 10 x) by (apply HD; ucls; lia).
    split; [|rewrite without_cons; [discriminate|apply (is_digit_us 10); auto]].
    constructor; auto. apply (run_digits (in_range 48 57) (is_digit 10)); auto. unfold g_run. constructor; auto.
Qed.

Lemma literal_converts k w z : int_literal k w z -> integer_of_token k w = Some (value_or_overflow z).
Proof.
  intros [ds H|ds H|ds H|ds H|ds H|ds H]; cbn [integer_of_token]; f_equal.
  - apply udec_digits in H as [H1 H2]. apply from_radix_unsigned; auto; lia.
  - apply udec_digits in H as [H1 H2]. unfold try_from_decimal. rewrite without_cons by discriminate. apply (from_radix_signed false); auto; lia.
  - apply udec_digits in H as [H1 H2]. unfold try_from_decimal. rewrite without_cons by discriminate. apply (from_radix_signed true); auto; lia.
  - apply (drun_digits _ (is_digit 16)) in H as [H1 H2]; [|apply digit_hex|apply is_digit_us].
    unfold try_from_hexadecimal, after_prefix. change 2 with (len_bytes (lit "0x")). rewrite drop_bytes_len_app. apply from_radix_unsigned; auto; lia.
  - apply (drun_digits _ (is_digit 8)) in H as [H1 H2]; [|apply digit_in_range; auto|apply is_digit_us].
    unfold try_from_octal, after_prefix. change 2 with (len_bytes (lit "0o")). rewrite drop_bytes_len_app. apply from_radix_unsigned; auto; lia.
  - apply (drun_digits _ (is_digit 2)) in H as [H1 H2]; [|apply digit_in_range; auto|apply is_digit_us].
    unfold try_from_binary, after_prefix. change 2 with (len_bytes (lit "0b")) at 1. rewrite drop_bytes_len_app. apply from_radix_unsigned; auto; lia.
Qed.

(** Every integer of the grammar denotes an integer. *)
Lemma scalar_denotes k w : k = INTEGER_DEC \/ k = INTEGER_HEX \/ k = INTEGER_OCT \/ k = INTEGER_BIN ->
  (scalar k w <-> exists z, int_literal k w z).
Proof.
  intros Hk. split.
  - intros H. destruct H as [w H|w H|w H|w H| | | | | | | ]; try (destruct Hk as [?|[?|[?|?]]]; discriminate).
    + apply lang_seq_inv in H as (sg & ds & -> & Hs & Hd). apply sign_inv in Hs as [->|[->| ->]]; eexists; [apply IL_dec|apply IL_plus|apply IL_minus]; auto.
    + apply lang_seq_inv in H as (p & ds & -> & Hp & Hd). apply g_str_inv in Hp as ->. eexists. apply IL_hex; auto.
    + apply lang_seq_inv in H as (p & ds & -> & Hp & Hd). apply g_str_inv in Hp as ->. eexists. apply IL_oct; auto.
    + apply lang_seq_inv in H as (p & ds & -> & Hp & Hd). apply g_str_inv in Hp as ->. eexists. apply IL_bin; auto.
  - intros (z & H). destruct H.
    + apply S_dec. apply (LSeq _ _ [] ds); auto. apply sign_lang; auto.
    + apply S_dec. apply (LSeq _ _ [43] ds); auto. apply sign_lang; auto.
    + apply S_dec. apply (LSeq _ _ [45] ds); auto. apply sign_lang; auto.
    + apply S_hex. constructor; auto. apply g_str_inv; reflexivity.
    + apply S_oct. constructor; auto. apply g_str_inv; reflexivity.
    + apply S_bin. constructor; auto. apply g_str_inv; reflexivity.
Qed.

(** * Tokens of the lexer *)
Definition int_kind (k : kind) : Prop := k = INTEGER_DEC \/ k = INTEGER_HEX \/ k = INTEGER_OCT \/ k = INTEGER_BIN.

Lemma from_radix_chars s radix z : radix <= 16 -> from_str_radix s radix = IOk z -> forall c, In c s -> c <> 58 /\ c <> 124 /\ (c <> 43 /\ c <> 45 /\ c <> 120 /\ c <> 111 \/ exists r, s = c :: r /\ (c = 43 \/ c = 45)).
Proof.
  intros HR H c Hc. destruct s as [|x s]; [contradiction|]. cbn [from_str_radix] in H.
  assert (HD : forall u neg acc z', radix_loop neg radix acc u = IOk z' -> forall y, In y u -> y <> 58 /\ y <> 124 /\ y <> 43 /\ y <> 45 /\ y <> 120 /\ y <> 111).
  { intros u neg acc z' HL y Hy. apply radix_loop_digits in HL. rewrite Forall_forall in HL. specialize (HL y Hy).
    unfold is_digit, to_digit, hex_value, in_range in HL.
    destruct ((48 <=? y) && (y <=? 57)) eqn:E1; [lia|]. destruct ((97 <=? y) && (y <=? 102)) eqn:E2; [lia|].
    destruct ((65 <=? y) && (y <=? 70)) eqn:E3; [lia|discriminate]. }
  destruct (N.eqb x 43 || N.eqb x 45) eqn:E.
  - destruct s as [|y s]; [discriminate|]. destruct Hc as [<-|Hc].
    + repeat split; try lia. right. exists (y :: s). split; auto. lia.
    + destruct (HD _ _ _ _ H c Hc) as (K1 & K2 & K3 & K4 & K5 & K6). repeat split; auto.
  - destruct (HD _ _ _ _ H c Hc) as (K1 & K2 & K3 & K4 & K5 & K6). repeat split; auto.
Qed.

Lemma in_without c s : c <> 95 -> In c s -> In c (without_underscores s).
Proof. intros H1 H2. apply filter_In. split; auto. lia. Qed.

Lemma signed_regex_head r w : signed (lang r) w -> forall x, (forall u, lang r u -> exists b, u = 48 :: x :: b) ->
  exists sg b, w = sg ++ 48 :: x :: b /\ (sg = [] \/ sg = [43] \/ sg = [45]) /\ lang r (48 :: x :: b).
Proof.
  intros (sg & u & -> & Hs & Hu) x Hx. destruct (Hx u Hu) as (b & ->). exists sg, b. auto.
Qed.

(** A prefixed literal token that converts is unsigned and has neither colon nor bar. *)
Lemma prefixed_clean r x w z : signed (lang r) w -> (forall u, lang r u -> exists b, u = 48 :: x :: b) ->
  (x = 120 \/ x = 111 \/ x = 98) -> forall radix, radix <= 16 -> (x = 98 -> radix = 2) ->
  after_prefix w (fun s => from_str_radix (without_underscores s) radix) = IOk z ->
  unsigned_text w /\ no_colon_bar w.
Proof.
  intros HS Hx Hx3 radix HR HB H.
  destruct (signed_regex_head _ _ HS x Hx) as (sg & b & -> & Hs & HL).
  unfold after_prefix in H. destruct Hs as [->|Hs].
  - change ([] ++ 48 :: x :: b) with (48 :: x :: b) in *.
    assert (ED : drop_bytes 2 (48 :: x :: b) = Some b).
    { change (48 :: x :: b) with ([48; x] ++ b). replace 2 with (len_bytes [48; x]); [apply drop_bytes_len_app|].
      destruct Hx3 as [->|[->| ->]]; reflexivity. }
    rewrite ED in H. split.
    + intros c r' E. inversion E; subst. lia.
    + assert (HC := from_radix_chars _ _ _ HR H).
      split; intros [K|[K|K]]; try lia; apply (in_without _ b) in K; try lia; destruct (HC _ K); lia.
  - exfalso. assert (ED : drop_bytes 2 (sg ++ 48 :: x :: b) = Some (x :: b)).
    { destruct Hs as [->| ->].
      - change ([43] ++ 48 :: x :: b) with ([43; 48] ++ (x :: b)). change 2 with (len_bytes [43; 48]). apply drop_bytes_len_app.
      - change ([45] ++ 48 :: x :: b) with ([45; 48] ++ (x :: b)). change 2 with (len_bytes [45; 48]). apply drop_bytes_len_app. }
    rewrite ED in H. rewrite without_cons in H by lia.
    cbn [from_str_radix] in H. replace (N.eqb x 43 || N.eqb x 45) with false in H by lia.
    apply radix_loop_digits in H. inversion H as [|? ? HD _]; subst.
    unfold is_digit, to_digit, hex_value, in_range in HD.
    replace ((48 <=? x) && (x <=? 57)) with false in HD by lia.
    destruct ((97 <=? x) && (x <=? 102)) eqn:E2.
    + assert (x = 98) by lia. subst x. rewrite HB in HD by reflexivity. discriminate.
    + replace ((65 <=? x) && (x <=? 70)) with false in HD by lia. discriminate.
Qed.

Lemma token_converts_literal k w z : int_kind k -> text_ok k w -> integer_of_token k w = Some (IOk z) -> int_literal k w z /\ in_i64 z.
Proof.
  intros HK HT H.
  assert (HC : clean_number k w).
  { destruct HK as [->|[->|[->| ->]]]; cbn [integer_of_token] in H; inversion H as [H']; clear H; cbn [text_ok] in HT.
    - split; [|exact I]. assert (HC := from_radix_chars _ 10 _ ltac:(lia) H').
      split; intros K; apply (in_without _ w) in K; try lia; destruct (HC _ K); lia.
    - destruct (prefixed_clean REGEX_INTEGER_HEX 120 w z HT hex_shape ltac:(auto) 16 ltac:(lia) ltac:(lia) H') as [K1 K2]. split; auto.
    - destruct (prefixed_clean REGEX_INTEGER_OCT 111 w z HT oct_shape ltac:(auto) 8 ltac:(lia) ltac:(lia) H') as [K1 K2]. split; auto.
    - destruct (prefixed_clean REGEX_INTEGER_BIN 98 w z HT bin_shape ltac:(auto) 2 ltac:(lia) ltac:(lia) H') as [K1 K2]. split; auto. }
  assert (HS : scalar k w).
  { apply number_text_toml; auto. destruct HK as [->|[->|[->| ->]]]; reflexivity. }
  apply (scalar_denotes k w HK) in HS as (z' & HZ).
  pose proof (literal_converts _ _ _ HZ) as E. rewrite H in E. unfold value_or_overflow in E.
  destruct (fits_i64 z') eqn:EF; inversion E; subst. split; auto. apply fits_spec; auto.
Qed.

Lemma from_radix_no_panic s r : from_str_radix s r <> IPanic.
Proof.
  assert (HL : forall u neg acc, radix_loop neg r acc u <> IPanic).
  { induction u as [|c u IH]; intros neg acc; cbn [radix_loop]; [discriminate|]. destruct (to_digit r c); [|discriminate]. cbv zeta.
    destruct (negb (fits_i64 (acc * Z.of_N r))); [discriminate|]. match goal with |- (if ?b then _ else _) <> _ => destruct b end; [discriminate|apply IH]. }
  destruct s as [|c s]; [discriminate|]. cbn [from_str_radix]. destruct (N.eqb c 43 || N.eqb c 45); auto. destruct s; [discriminate|auto].
Qed.
Lemma drop2_ascii a b r : a < 128 -> b < 128 -> drop_bytes 2 (a :: b :: r) = Some r.
Proof.
  intros Ha Hb. assert (E : len_bytes [a; b] = 2) by (cbn [len_bytes]; unfold len_utf8; replace (a <? 128) with true by lia; replace (b <? 128) with true by lia; reflexivity).
  rewrite <- E. apply (drop_bytes_len_app [a; b]).
Qed.
Lemma token_no_panic k w : int_kind k -> text_ok k w -> integer_of_token k w <> Some IPanic.
Proof.
  assert (HP : forall r x radix, signed (lang r) w -> (forall u, lang r u -> exists b, u = 48 :: x :: b) -> x < 128 ->
     after_prefix w (fun s => from_str_radix (without_underscores s) radix) <> IPanic).
  { intros r x radix HS Hx Hlt. destruct (signed_regex_head _ _ HS x Hx) as (sg & b & -> & Hs & HL). unfold after_prefix.
    destruct Hs as [->|[->| ->]]; cbn [app]; rewrite drop2_ascii by lia; apply from_radix_no_panic. }
  intros HK HT E. destruct HK as [->|[->|[->| ->]]]; cbn [integer_of_token] in E; inversion E as [E']; clear E; cbn [text_ok] in HT.
  - exact (from_radix_no_panic _ _ E').
  - exact (HP _ 120 _ HT hex_shape ltac:(lia) E').
  - exact (HP _ 111 _ HT oct_shape ltac:(lia) E').
  - exact (HP _ 98 _ HT bin_shape ltac:(lia) E').
Qed.

(** * Floats *)
Lemma is_ascii_digit_range c : is_ascii_digit c = in_range 48 57 c.
Proof. reflexivity. Qed.

Lemma us_at_mid a b : underscore_misplaced (a ++ 95 :: b) (length a) =
  match a with [] => None | _ => Some (match rev a, b with x :: _, y :: _ => negb (is_ascii_digit x) || negb (is_ascii_digit y) | _, _ => true end) end.
Proof.
  destruct a as [|x a] using rev_ind; [reflexivity|]. clear IHa.
  assert (EL : length (a ++ [x]) = S (length a)) by (rewrite app_length; simpl; lia).
  assert (E0 : nth_error ((a ++ [x]) ++ 95 :: b) (S (length a)) = Some 95).
  { rewrite nth_error_app2 by lia. rewrite EL, Nat.sub_diag. reflexivity. }
  assert (E1 : nth_error ((a ++ [x]) ++ 95 :: b) (length a) = Some x).
  { rewrite <- app_assoc. rewrite nth_error_app2 by lia. rewrite Nat.sub_diag. reflexivity. }
  assert (E2 : nth_error ((a ++ [x]) ++ 95 :: b) (S (S (length a))) = nth_error b 0).
  { rewrite nth_error_app2 by lia. rewrite EL. replace (S (S (length a)) - S (length a))%nat with 1%nat by lia. reflexivity. }
  unfold underscore_misplaced. rewrite EL, E0, E1, E2, N.eqb_refl. rewrite rev_app_distr. cbn [rev app].
  destruct (a ++ [x]) eqn:E; [destruct a; discriminate|]. destruct b; reflexivity.
Qed.

Lemma any_misplaced_false value is : any_misplaced value is = Some false <-> (forall i, In i is -> underscore_misplaced value i = Some false).
Proof.
  induction is as [|i is IH]; cbn [any_misplaced]; [split; [intros _ i []|reflexivity]|].
  destruct (underscore_misplaced value i) as [[|]|] eqn:E.
  - split; [discriminate|]. intros H. rewrite (H i) in E; [discriminate|left; reflexivity].
  - rewrite IH. split; intros H j; [intros [<-|Hj]; auto|intros Hj; apply H; right; auto].
  - split; [discriminate|]. intros H. rewrite (H i) in E; [discriminate|left; reflexivity].
Qed.

Lemma underscores_checked w : any_misplaced w (seq 0 (length w)) = Some false <-> underscores_ok w.
Proof.
  rewrite any_misplaced_false. split.
  - intros H a b ->. specialize (H (length a)). rewrite us_at_mid in H.
    assert (HI : In (length a) (seq 0 (length (a ++ 95 :: b)))) by (apply in_seq; rewrite app_length; simpl; lia).
    specialize (H HI). destruct a as [|x a] using rev_ind; [discriminate|]. rewrite rev_app_distr in H. cbn [rev app] in H.
    destruct (a ++ [x]) eqn:E; [destruct a; discriminate|]. rewrite <- E.
    destruct b as [|y b]; [discriminate|]. inversion H as [H0]. rewrite !is_ascii_digit_range in H0.
    apply orb_false_iff in H0 as [H1 H2]. apply negb_false_iff in H1, H2. split; eauto.
  - intros HU i Hi. apply in_seq in Hi. destruct (nth_error w i) as [c|] eqn:E; [|apply nth_error_None in E; lia].
    destruct (N.eq_dec c 95) as [->|Hne].
    + apply nth_error_split in E as (a & b & -> & <-). rewrite us_at_mid. destruct (HU a b eq_refl) as ((a' & d & -> & Hd) & (d' & b' & -> & Hd')).
      rewrite rev_app_distr. cbn [rev app]. destruct (a' ++ [d]) eqn:E; [destruct a'; discriminate|]. rewrite !is_ascii_digit_range, Hd. cbn [negb orb].
      f_equal. apply negb_false_iff. exact Hd'.
    + unfold underscore_misplaced. rewrite E. replace (N.eqb c 95) with false by lia. reflexivity.
Qed.


(** Computable form of [underscores_ok]; [p] tells whether a digit comes before. *)
Fixpoint us_okb (p : bool) (s : str) : bool :=
  match s with
  | [] => true
  | c :: s' => if N.eqb c 95 then p && match s' with d :: _ => in_range 48 57 d | [] => false end && us_okb false s'
               else us_okb (in_range 48 57 c) s'
  end.
Lemma us_okb_sound : forall s p, us_okb p s = true -> forall a b, s = a ++ 95 :: b ->
  ((a = [] /\ p = true) \/ exists a' d, a = a' ++ [d] /\ in_range 48 57 d = true) /\ (exists d b', b = d :: b' /\ in_range 48 57 d = true).
Proof.
  induction s as [|c s IH]; intros p H a b E; [destruct a; discriminate|]. cbn [us_okb] in H. destruct a as [|y a]; inversion E; subst.
  - cbn in H. apply andb_true_iff in H as [H _]. apply andb_true_iff in H as [H1 H2]. destruct b as [|d b]; [discriminate|]. split; eauto.
  - assert (K : exists q, us_okb q (a ++ 95 :: b) = true /\ (q = true -> in_range 48 57 y = true)).
    { destruct (N.eqb y 95); [|eauto]. apply andb_true_iff in H as [_ H]. exists false. split; auto. discriminate. }
    destruct K as (q & Hq & Hy). destruct (IH q Hq a b eq_refl) as [[[-> K]|(a' & d & -> & Hd)] H2].
    + split; auto. right. exists [], y. auto.
    + split; auto. right. exists (y :: a'), d. auto.
Qed.
Lemma us_okb_ok w : us_okb false w = true -> underscores_ok w.
Proof. intros H a b E. destruct (us_okb_sound _ _ H a b E) as [[[_ K]|K] H2]; [discriminate|auto]. Qed.

Lemma run_okb u v : lang (g_run g_digit) u -> us_okb true v = true -> us_okb true (u ++ v) = true.
Proof.
  unfold g_run. intros H Hv. remember (RStar _) as r eqn:E. induction H; inversion E; subst; auto. rewrite <- app_assoc.
  apply lang_alt_inv in H as [H|H].
  - apply lang_cls_inv in H as (c & -> & Hc). cbn [app us_okb]. replace (N.eqb c 95) with false by (ucls; lia). rewrite Hc. auto.
  - apply lang_seq_inv in H as (x & y & -> & Hx & Hy). apply lang_chr_inv in Hx as ->. apply lang_cls_inv in Hy as (c & -> & Hc).
    cbn [app us_okb]. rewrite N.eqb_refl. replace (N.eqb c 95) with false by (ucls; lia). rewrite Hc, IHlang2 by auto. reflexivity.
Qed.
Lemma zp_okb u v : lang g_zero_prefixable_int u -> us_okb true v = true -> us_okb false (u ++ v) = true.
Proof.
  intros H Hv. apply nonempty_seq_cls in H as (x & u' & -> & Hx & Hu). cbn [app us_okb].
  replace (N.eqb x 95) with false by (ucls; lia). rewrite Hx. apply run_okb; auto.
Qed.
Lemma ud_zp u : lang g_unsigned_dec_int u -> lang g_zero_prefixable_int u.
Proof.
  intros H. apply lang_alt_inv in H as [H|H].
  - rewrite <- (app_nil_r u). constructor; auto. constructor.
  - apply lang_seq_inv in H as (a & b & -> & Ha & Hb). apply lang_cls_inv in Ha as (x & -> & Hx). constructor.
    + constructor. ucls. lia.
    + apply lang_seq_inv in Hb as (p & q & -> & Hp & Hq). constructor; auto.
Qed.
Lemma exp_okb e v p : lang g_exp e -> us_okb true v = true -> us_okb p (e ++ v) = true.
Proof.
  intros H Hv. apply nonempty_seq_cls in H as (x & e' & -> & Hx & H). apply lang_seq_inv in H as (sg & ds & -> & Hs & Hd).
  cbn [app us_okb]. replace (N.eqb x 95) with false by lia.
  assert (K : us_okb false ((sg ++ ds) ++ v) = true).
  { rewrite <- app_assoc. apply sign_inv in Hs as [->|[->| ->]]; cbn [app]; [|change (us_okb false (ds ++ v) = true)|change (us_okb false (ds ++ v) = true)]; apply zp_okb; auto. }
  replace (in_range 48 57 x) with false by (ucls; lia). exact K.
Qed.
Lemma frac_okb f v p : lang g_frac f -> us_okb true v = true -> us_okb p (f ++ v) = true.
Proof.
  intros H Hv. apply nonempty_seq_chr in H as (ds & -> & Hd). change (us_okb false (ds ++ v) = true). apply zp_okb; auto.
Qed.
Lemma g_float_parts w : lang g_float w -> exists sg a f e, w = sg ++ a ++ f ++ e /\ (sg = [] \/ sg = [43] \/ sg = [45]) /\
  lang g_unsigned_dec_int a /\ (f = [] \/ lang g_frac f) /\ (e = [] \/ lang g_exp e) /\ (f <> [] \/ e <> []).
Proof.
  intros H. apply lang_seq_inv in H as (i & t & -> & Hi & Ht). apply lang_seq_inv in Hi as (sg & a & -> & Hs & Ha). apply sign_inv in Hs.
  apply lang_alt_inv in Ht as [Ht|Ht].
  - exists sg, a, [], t. rewrite <- app_assoc. repeat split; auto. right. intros ->. apply nonempty_seq_cls in Ht as (x & e' & K & _). discriminate.
  - apply lang_seq_inv in Ht as (f & e & -> & Hf & He). exists sg, a, f, e. rewrite <- app_assoc. repeat split; auto.
    + apply lang_opt_inv in He as [He|He]; auto.
    + left. intros ->. apply nonempty_seq_chr in Hf as (ds & K & _). discriminate.
Qed.
Lemma special_inv w : lang g_special_float w -> exists sg s, w = sg ++ s /\ (sg = [] \/ sg = [43] \/ sg = [45]) /\ (s = lit "inf" \/ s = lit "nan").
Proof.
  intros H. apply lang_seq_inv in H as (sg & s & -> & Hs & H). apply sign_inv in Hs. exists sg, s. repeat split; auto.
  apply lang_alt_inv in H as [H|H]; apply g_str_inv in H; auto.
Qed.
Lemma float_underscores w : scalar FLOAT w -> underscores_ok w.
Proof.
  intros H. apply us_okb_ok. inversion H as [| | | |w' HF|w' HF| | | | | ]; subst.
  - apply g_float_parts in HF as (sg & a & f & e & -> & Hs & Ha & Hf & He & _).
    assert (K : us_okb false (a ++ f ++ e) = true).
    { apply zp_okb; [apply ud_zp; auto|].
      assert (KE : us_okb true e = true). { destruct He as [->|He]; auto. rewrite <- (app_nil_r e). apply exp_okb; auto. }
      destruct Hf as [->|Hf]; auto. apply frac_okb; auto. }
    destruct Hs as [->|[->| ->]]; exact K.
  - apply special_inv in HF as (sg & s & -> & [->|[->| ->]] & [->| ->]); reflexivity.
Qed.

(** The valid float that the leading zero check rejects: a zero integer part directly followed by
    an upper case exponent. *)
Definition zero_upper_exponent (w : str) : Prop :=
  ~ In 46 w /\ exists sg r, w = sg ++ 48 :: 69 :: r /\ (sg = [] \/ sg = [43] \/ sg = [45]).

Definition rejected_zero (w : str) : bool :=
  let n := int_number (int_slice w) in (1 <? len_bytes n) && match n with c :: _ => N.eqb c 48 | [] => false end.

Lemma take_while_app_stop {A} (p : A -> bool) a x b : forallb p a = true -> p x = false -> take_while p (a ++ x :: b) = a.
Proof. induction a as [|y a IH]; simpl; intros H1 H2; [rewrite H2; reflexivity|]. apply andb_true_iff in H1 as [-> H1]. f_equal. auto. Qed.
Lemma take_while_all_ok {A} (p : A -> bool) a : forallb p a = true -> take_while p a = a.
Proof. induction a as [|y a IH]; simpl; intros H1; auto. apply andb_true_iff in H1 as [-> H1]. f_equal. auto. Qed.

Lemma ud_first a : lang g_unsigned_dec_int a -> exists x r, a = x :: r /\ in_range 48 57 x = true /\ (x = 48 -> r = []).
Proof.
  intros H. apply lang_alt_inv in H as [H|H].
  - apply lang_cls_inv in H as (c & -> & Hc). exists c, []. auto.
  - apply nonempty_seq_cls in H as (x & v & -> & Hx & Hv). exists x, v. repeat split; [ucls; lia|]. intros ->. discriminate.
Qed.
Lemma zp_chars a : lang g_zero_prefixable_int a -> forallb k_digit_ a = true.
Proof. revert a. change (chars_in g_zero_prefixable_int k_digit_). unfold g_zero_prefixable_int, g_run, g_digit, g_us, RChr. ci. Qed.
Lemma exp_chars e : lang g_exp e -> forallb (fun c => negb (N.eqb c 46)) e = true.
Proof. revert e. change (chars_in g_exp (fun c => negb (N.eqb c 46))). unfold g_exp, g_zero_prefixable_int, g_run, g_digit, g_us, g_sign, RChr, ROpt. ci. Qed.

Lemma int_number_sign sg x r : (sg = [] \/ sg = [43] \/ sg = [45]) -> in_range 48 57 x = true -> int_number (sg ++ x :: r) = x :: r.
Proof. intros [->|[->| ->]] H; cbn [app int_number]; auto. replace (N.eqb x 43 || N.eqb x 45) with false by (ucls; lia). reflexivity. Qed.

Lemma rejected_zero_first sg x r s : (sg = [] \/ sg = [43] \/ sg = [45]) -> in_range 48 57 x = true -> int_slice (sg ++ s) = sg ++ x :: r ->
  (x = 48 -> r = []) -> rejected_zero (sg ++ s) = false.
Proof.
  intros Hs Hx E Hz. unfold rejected_zero. rewrite E, int_number_sign by auto. cbv zeta. destruct (N.eqb_spec x 48) as [->|_].
  - rewrite Hz by auto. reflexivity.
  - apply andb_false_r.
Qed.

Lemma no_dot_existsb w : existsb (fun c => N.eqb c 46) w = false <-> ~ In 46 w.
Proof.
  split.
  - intros H K. assert (E : existsb (fun c => N.eqb c 46) w = true); [|congruence]. apply existsb_exists. exists 46. auto.
  - intros H. destruct (existsb _ w) eqn:E; auto. apply existsb_exists in E as (x & Hx & Ex). apply N.eqb_eq in Ex as ->. contradiction.
Qed.

Lemma float_zero w : scalar FLOAT w -> ~ zero_upper_exponent w -> rejected_zero w = false.
Proof.
  intros H HZ. inversion H as [| | | |w' HF|w' HF| | | | | ]; subst.
  2: { apply special_inv in HF as (sg & s & -> & [->|[->| ->]] & [->| ->]); reflexivity. }
  apply g_float_parts in HF as (sg & a & f & e & -> & Hs & Ha & Hf & He & Hne).
  pose proof (zp_chars _ (ud_zp _ Ha)) as HD. destruct (ud_first _ Ha) as (x & r & -> & Hx & Hz).
  assert (HP : forall p, (forall c, k_digit_ c = true -> p c = true) -> p 43 = true -> p 45 = true -> forallb p (sg ++ x :: r) = true).
  { intros p H1 H2 H3. rewrite forallb_app. replace (forallb p sg) with true by (destruct Hs as [->|[->| ->]]; cbn [forallb]; rewrite ?H2, ?H3; reflexivity).
    apply forallb_forall. intros c Hc. apply H1. rewrite forallb_forall in HD. auto. }
  assert (H46 : forallb (fun c => negb (N.eqb c 46)) (sg ++ x :: r) = true) by (apply HP; auto; cls).
  assert (H101 : forallb (fun c => negb (N.eqb c 101)) (sg ++ x :: r) = true) by (apply HP; auto; cls).
  destruct Hf as [->|Hf].
  - destruct He as [->|He]; [destruct Hne; contradiction|]. cbn [app] in *.
    assert (ND : ~ In 46 (sg ++ x :: r ++ e)).
    { intros K. change (x :: r ++ e) with ((x :: r) ++ e) in K. rewrite app_assoc in K. apply in_app_or in K as [K|K].
      - rewrite forallb_forall in H46. specialize (H46 _ K). discriminate.
      - apply exp_chars in He. rewrite forallb_forall in He. specialize (He _ K). discriminate. }
    pose proof He as He'. apply nonempty_seq_cls in He' as (y & e' & -> & Hy & _).
    destruct (N.eq_dec y 101) as [->|Ny].
    + eapply rejected_zero_first; eauto. unfold int_slice. apply no_dot_existsb in ND. rewrite ND.
      change (sg ++ x :: r ++ 101 :: e') with (sg ++ (x :: r) ++ 101 :: e'). rewrite app_assoc. apply take_while_app_stop; auto.
    + assert (y = 69) by lia. subst y. destruct (N.eq_dec x 48) as [->|Nx].
      * exfalso. apply HZ. split; auto. rewrite Hz by auto. exists sg, e'. auto.
      * eapply (rejected_zero_first sg x (take_while (fun c => negb (N.eqb c 101)) (r ++ 69 :: e'))); auto; [|intros K; contradiction].
        unfold int_slice. apply no_dot_existsb in ND. rewrite ND.
        assert (forallb (fun c => negb (N.eqb c 101)) sg = true) by (destruct Hs as [->|[->| ->]]; reflexivity).
        clear - Hs Hx. destruct Hs as [->|[->| ->]]; cbn [app take_while]; replace (negb (N.eqb x 101)) with true by (ucls; lia); reflexivity.
  - apply nonempty_seq_chr in Hf as (ds & -> & _).
    eapply (rejected_zero_first sg x r); auto. unfold int_slice.
    replace (existsb _ _) with true.
    2: { symmetry. apply existsb_exists. exists 46. split; auto. apply in_or_app. right. apply in_or_app. right. left. reflexivity. }
    change ((46 :: ds) ++ e) with (46 :: ds ++ e). rewrite app_assoc. apply take_while_app_stop; auto.
Qed.

Lemma take_while_prefix {A} (p : A -> bool) a b : forallb p a = true -> take_while p (a ++ b) = a ++ take_while p b.
Proof. induction a as [|y a IH]; simpl; intros H; auto. apply andb_true_iff in H as [-> H]. rewrite IH; auto. Qed.
Lemma rejected_pair sg y r : (sg = [] \/ sg = [43] \/ sg = [45]) -> in_range 48 57 y = true \/ y = 95 -> rejected_zero (sg ++ 48 :: y :: r) = true.
Proof.
  intros Hs Hy. unfold rejected_zero.
  assert (E : exists t, int_slice (sg ++ 48 :: y :: r) = sg ++ 48 :: y :: t).
  { unfold int_slice. destruct (existsb _ _).
    - exists (take_while (fun c => negb (N.eqb c 46)) r). change (sg ++ 48 :: y :: r) with (sg ++ [48; y] ++ r). rewrite app_assoc, take_while_prefix, <- app_assoc; auto.
      rewrite forallb_app. assert (negb (N.eqb y 46) = true) by (destruct Hy as [Hy| ->]; ucls; lia). cbn [forallb]. destruct Hs as [->|[->| ->]]; cbn; lia.
    - exists (take_while (fun c => negb (N.eqb c 101)) r). change (sg ++ 48 :: y :: r) with (sg ++ [48; y] ++ r). rewrite app_assoc, take_while_prefix, <- app_assoc; auto.
      rewrite forallb_app. assert (negb (N.eqb y 101) = true) by (destruct Hy as [Hy| ->]; ucls; lia). cbn [forallb]. destruct Hs as [->|[->| ->]]; cbn; lia. }
  destruct E as (t & ->). rewrite int_number_sign by auto. cbv zeta. cbn [len_bytes]. assert (1 <= len_utf8 y) by (unfold len_utf8; repeat destruct (_ <? _); lia).
  change (len_utf8 48) with 1. rewrite N.eqb_refl, andb_true_r. lia.
Qed.
Lemma rejected_upper w : zero_upper_exponent w -> rejected_zero w = true.
Proof.
  intros (ND & sg & r & -> & Hs). unfold rejected_zero, int_slice. apply no_dot_existsb in ND. rewrite ND.
  change (sg ++ 48 :: 69 :: r) with (sg ++ [48; 69] ++ r). rewrite app_assoc, take_while_prefix.
  - rewrite <- app_assoc. cbn [app]. rewrite int_number_sign by auto. cbv zeta. cbn [len_bytes]. change (len_utf8 48) with 1. change (len_utf8 69) with 1.
    rewrite N.eqb_refl, andb_true_r. lia.
  - destruct Hs as [->|[->| ->]]; reflexivity.
Qed.

(** Removing the underscores of a TOML float gives a text the standard library accepts. *)
Lemma run_without u : lang (g_run g_digit) u -> lang (RStar g_digit) (without_underscores u).
Proof.
  unfold g_run. intros H. remember (RStar (RAlt _ _)) as r eqn:E. induction H; inversion E; subst; [constructor|].
  rewrite without_app. constructor; auto. apply lang_alt_inv in H as [H|H].
  - apply lang_cls_inv in H as (c & -> & Hc). rewrite without_cons by (ucls; lia). constructor. exact Hc.
  - apply lang_seq_inv in H as (x & y & -> & Hx & Hy). apply lang_chr_inv in Hx as ->. apply lang_cls_inv in Hy as (c & -> & Hc).
    cbn [app]. rewrite without_nil, without_cons by (ucls; lia). constructor. exact Hc.
Qed.
Lemma zp_without u : lang g_zero_prefixable_int u -> lang r_digits1 (without_underscores u).
Proof.
  intros H. apply nonempty_seq_cls in H as (x & v & -> & Hx & Hv). rewrite without_cons by (ucls; lia).
  change (x :: without_underscores v) with ([x] ++ without_underscores v). constructor; [constructor; auto|]. apply run_without; auto.
Qed.
Lemma plus_star r w : lang (RPlus r) w -> lang (RStar r) w.
Proof. intros H. apply lang_seq_inv in H as (a & b & -> & Ha & Hb). constructor; auto. Qed.
Lemma float_parses w : scalar FLOAT w -> lang rust_float (without_underscores w).
Proof.
  intros H. inversion H as [| | | |w' HF|w' HF| | | | | ]; subst.
  - apply g_float_parts in HF as (sg & a & f & e & -> & Hs & Ha & Hf & He & _). rewrite !without_app. constructor.
    { apply sign_lang. destruct Hs as [->|[->| ->]]; auto. }
    apply LAltR, LAltR, LAltR. unfold r_number. rewrite app_assoc. constructor.
    + apply ud_zp, zp_without in Ha. destruct Hf as [->|Hf]; [rewrite app_nil_r; apply LAltL; auto|].
      apply LAltR, LAltL. constructor; auto. apply nonempty_seq_chr in Hf as (ds & -> & Hd). rewrite without_cons by discriminate.
      change (46 :: without_underscores ds) with ([46] ++ without_underscores ds). constructor; [constructor; reflexivity|].
      apply zp_without in Hd. apply plus_star; auto.
    + apply lang_opt_inv. destruct He as [->|He]; auto. left. apply nonempty_seq_cls in He as (x & e' & -> & Hx & He).
      rewrite without_cons by lia. apply lang_seq_inv in He as (s2 & ds & -> & Hs2 & Hd). rewrite without_app.
      change (x :: ?t) with ([x] ++ t). constructor; [constructor; auto|]. constructor.
      * apply sign_lang. apply sign_inv in Hs2 as [->|[->| ->]]; auto.
      * apply zp_without; auto.
  - apply special_inv in HF as (sg & s & -> & Hs & Hs'). rewrite without_app. constructor.
    { apply sign_lang. destruct Hs as [->|[->| ->]]; auto. }
    apply full_match_spec. destruct Hs' as [->| ->]; reflexivity.
Qed.
Lemma rust_chars w : lang rust_float w -> forallb (fun c => negb (N.eqb c 58) && negb (N.eqb c 124)) w = true.
Proof.
  revert w. change (chars_in rust_float (fun c => negb (N.eqb c 58) && negb (N.eqb c 124))).
  unfold rust_float, r_number, r_exp, r_digits0, r_digits1, r_inf, r_infinity, r_nan, NumberSpec.ci, g_digit, g_sign, RPlus, ROpt, RChr. ci.
Qed.

(** [parse] accepts exactly the documented grammar of the standard library. *)
Definition parses_documented {F} (parse : str -> option F) : Prop := forall s, parse s <> None <-> lang rust_float s.

Lemma try_from_float_eq {F} (parse : str -> option F) w : try_from_float parse w =
  match any_misplaced w (seq 0 (length w)) with
  | None => FPanic
  | Some true => FErr FUnderscore
  | Some false => if rejected_zero w then FErr FLeadingZero else match parse (without_underscores w) with Some f => FOk f | None => FErr FStd end
  end.
Proof. reflexivity. Qed.

Lemma float_literal_converts {F} (parse : str -> option F) w : parses_documented parse ->
  scalar FLOAT w -> ~ zero_upper_exponent w -> exists f, parse (without_underscores w) = Some f /\ try_from_float parse w = FOk f.
Proof.
  intros HP HS HZ. pose proof (float_parses _ HS) as HL. apply HP in HL.
  destruct (parse (without_underscores w)) as [f|] eqn:E; [|contradiction]. exists f. split; auto.
  rewrite try_from_float_eq, (proj2 (underscores_checked w) (float_underscores _ HS)).
  rewrite (float_zero _ HS HZ), E. reflexivity.
Qed.

Lemma float_token_converts {F} (parse : str -> option F) w f : parses_documented parse -> text_ok FLOAT w ->
  try_from_float parse w = FOk f -> scalar FLOAT w /\ ~ zero_upper_exponent w /\ parse (without_underscores w) = Some f.
Proof.
  intros HP HT H. rewrite try_from_float_eq in H.
  destruct (any_misplaced w (seq 0 (length w))) as [[|]|] eqn:EU; try discriminate. apply underscores_checked in EU.
  destruct (rejected_zero w) eqn:EZ; [discriminate|].
  destruct (parse (without_underscores w)) as [f'|] eqn:EP; [|discriminate]. inversion H; subst f'. clear H.
  assert (HL : lang rust_float (without_underscores w)) by (apply HP; rewrite EP; discriminate).
  apply rust_chars in HL. rewrite forallb_forall in HL.
  split; [|split; auto].
  - apply number_text_toml; auto. split.
    + split; intros K; apply in_without in K; try discriminate; specialize (HL _ K); discriminate.
    + split; auto. intros sg d r E Hs. destruct (in_range 48 57 d || N.eqb d 95) eqn:ED; auto.
      assert (HY : in_range 48 57 d = true \/ d = 95) by (apply orb_true_iff in ED as [ED|ED]; auto; apply N.eqb_eq in ED; auto).
      rewrite E, (rejected_pair sg d r Hs HY) in EZ. discriminate.
  - intros K. apply rejected_upper in K. congruence.
Qed.

Lemma any_misplaced_no_panic w : (forall r, w <> 95 :: r) -> any_misplaced w (seq 0 (length w)) <> None.
Proof.
  intros HW. generalize (seq 0 (length w)). induction l as [|i l IH]; cbn [any_misplaced]; [discriminate|].
  destruct (underscore_misplaced w i) as [[|]|] eqn:E; [discriminate|auto|]. unfold underscore_misplaced in E.
  destruct (nth_error w i) as [c|] eqn:EN; [|discriminate]. destruct (N.eqb_spec c 95) as [->|]; [|discriminate].
  destruct i; [destruct w as [|y w]; inversion EN; subst; exfalso; eapply HW; eauto|].
  destruct (nth_error w i), (nth_error w (S (S i))); discriminate.
Qed.

(** A token that begins with an underscore is a key. *)
Lemma underscore_start c t c2 r : rest c = 95 :: r -> advance_token c = Some (inl t, c2) -> tkind t = BARE_KEY.
Proof.
  intros HR H. unfold advance_token in H. rewrite HR in H. destruct (adv_bump_cons c 95 r HR) as (HB & HR2 & HC). cbv zeta in H. rewrite HC in H.
  assert (KI : forall a s, a <> 95 -> is_keyword (a :: s) (bump c) = false).
  { intros a s Ha. unfold is_keyword, matches_str. rewrite HC. replace (N.eqb 95 a) with false by lia. reflexivity. }
  change (is_whitespace 95) with false in H. change (is_line_break 95) with false in H. change (is_ascii_digit 95) with false in H.
  change (is_word_start 95) with true in H.
  change (N.eqb 95 c_hash) with false in H. change (N.eqb 95 c_dquote) with false in H. change (N.eqb 95 c_squote) with false in H.
  change (N.eqb 95 c_plus) with false in H. change (N.eqb 95 c_minus) with false in H. change (N.eqb 95 c_lbrace) with false in H.
  change (N.eqb 95 c_rbrace) with false in H. change (N.eqb 95 c_lbracket) with false in H. change (N.eqb 95 c_rbracket) with false in H.
  change (N.eqb 95 c_comma) with false in H. change (N.eqb 95 c_dot) with false in H. change (N.eqb 95 c_eq) with false in H.
  cbv iota in H. unfold lit in H. cbn [list_ascii_of_string map] in H. rewrite !KI in H by discriminate. cbn [orb] in H.
  unfold key in H. destruct (is_token_separator_with_dot _); inversion H; reflexivity.
Qed.
