(** Numbers in JSON texts: which words are numbers, what they are read as. *)
From Coq Require Import String Ascii List NArith ZArith Bool Arith Lia.
From Verif Require Import Base TextModel Regex LexerModel LexerSpec LexerProofs NumberSpec LexScalars DateTimeProofs JsonModel JsonSpec JsonLex.
Import ListNotations.
Open Scope N_scope.
Open Scope list_scope.

Lemma k_digit_iff c : k_digit c = true <-> 48 <= c <= 57.
Proof. unfold k_digit, in_range. rewrite andb_true_iff, !N.leb_le. tauto. Qed.

Lemma lang_star_cls p s : lang (RStar (RCls p)) s <-> Forall (fun c => p c = true) s.
Proof.
  split.
  - remember (RStar (RCls p)) as r eqn:E. induction 1; try discriminate; [constructor|]. injection E as ->.
    match goal with H : lang (RCls p) _ |- _ => apply lang_cls_inv in H as (c & -> & Hc) end. cbn [app]. constructor; auto.
  - induction 1 as [|c s Hc HF IH]; [constructor|]. change (c :: s) with ([c] ++ s). apply LStarS; auto. constructor. exact Hc.
Qed.
Lemma lang_digits s : lang (RPlus (RCls k_digit)) s <-> jdigits s.
Proof.
  unfold RPlus, jdigits. rewrite lang_seq_inv. split.
  - intros (u & v & -> & Hu & Hv). apply lang_cls_inv in Hu as (c & -> & Hc). apply lang_star_cls in Hv. split; [discriminate|].
    cbn [app]. constructor; [apply k_digit_iff; auto|]. eapply Forall_impl; [|exact Hv]. intros a. apply k_digit_iff.
  - intros [HN HF]. destruct s as [|c s]; [contradiction|]. exists [c], s. split; [reflexivity|]. split.
    + apply lang_cls_inv. exists c. split; auto. apply k_digit_iff. apply (Forall_inv HF).
    + apply lang_star_cls. eapply Forall_impl; [|exact (Forall_inv_tail HF)]. intros a. apply k_digit_iff.
Qed.
Lemma lang_opt r s : lang (ROpt r) s <-> lang r s \/ s = [].
Proof. unfold ROpt. rewrite lang_alt_inv, lang_eps_inv. tauto. Qed.
Lemma lang_chr c s : lang (RChr c) s <-> s = [c].
Proof.
  unfold RChr. rewrite lang_cls_inv. split.
  - intros (x & -> & H). apply N.eqb_eq in H. subst. reflexivity.
  - intros ->. exists c. split; auto. apply N.eqb_refl.
Qed.
(** without colons the optional colon is absent *)
Lemma lang_colon r s : ~ In 58 s -> lang (colon_opt r) s <-> lang r s.
Proof.
  intros H. unfold colon_opt. rewrite lang_seq_inv. split.
  - intros (u & v & -> & Hu & Hv). apply lang_opt in Hu as [Hu|Hu].
    + apply lang_chr in Hu. subst u. exfalso. apply H. left. reflexivity.
    + subst u. exact Hv.
  - intros Hr. exists [], s. split; [reflexivity|]. split; [|exact Hr]. apply lang_opt. auto.
Qed.
Lemma lang_star_colon r s : ~ In 58 s -> lang (RStar (colon_opt r)) s <-> lang (RStar r) s.
Proof.
  intros H. split; intros HL.
  - remember (RStar (colon_opt r)) as q eqn:E. induction HL; try discriminate; [constructor|]. injection E as ->.
    apply LStarS.
    + apply lang_colon; auto. intros HI. apply H. apply in_or_app. auto.
    + apply IHHL2; auto. intros HI. apply H. apply in_or_app. auto.
  - remember (RStar r) as q eqn:E. induction HL; try discriminate; [constructor|]. injection E as ->.
    apply LStarS.
    + apply lang_colon; auto. intros HI. apply H. apply in_or_app. auto.
    + apply IHHL2; auto. intros HI. apply H. apply in_or_app. auto.
Qed.

Definition jneg (neg : bool) : str := if neg then [45] else [].
Lemma lang_minus s : lang (ROpt (RChr 45)) s <-> exists neg, s = jneg neg.
Proof.
  rewrite lang_opt, lang_chr. split.
  - intros [-> | ->]; [exists true|exists false]; reflexivity.
  - intros [[|] ->]; auto.
Qed.
Lemma k_e_iff c : k_e c = true <-> c = 101 \/ c = 69.
Proof. unfold k_e. rewrite orb_true_iff, !N.eqb_eq. tauto. Qed.
Lemma k_sign_iff c : k_sign c = true <-> c = 43 \/ c = 45.
Proof. unfold k_sign. rewrite orb_true_iff, !N.eqb_eq. tauto. Qed.
Lemma k_1_9_iff c : k_1_9 c = true <-> 49 <= c <= 57.
Proof. unfold k_1_9, in_range. rewrite andb_true_iff, !N.leb_le. tauto. Qed.

Lemma no_app (x : N) a b : ~ In x (a ++ b) <-> ~ In x a /\ ~ In x b.
Proof. rewrite in_app_iff. tauto. Qed.

Lemma lang_exp s : lang (RSeq (RCls k_e) (RSeq (ROpt (RCls k_sign)) (RPlus (RCls k_digit)))) s <-> s <> [] /\ exists v, jexp_text s v.
Proof.
  rewrite lang_seq_inv. split.
  - intros (u & v & -> & Hu & Hv). apply lang_cls_inv in Hu as (c & -> & Hc). apply k_e_iff in Hc.
    apply lang_seq_inv in Hv as (a & b & -> & Ha & Hb). apply lang_digits in Hb. split; [discriminate|].
    apply lang_opt in Ha as [Ha|Ha].
    + apply lang_cls_inv in Ha as (d & -> & Hd). apply k_sign_iff in Hd as [-> | ->]; eexists; [apply JX_plus|apply JX_minus]; auto.
    + subst a. eexists. apply JX_plain; auto.
  - intros [HN (v & HV)]. inversion HV as [|e f He Hf|e f He Hf|e f He Hf]; subst; [contradiction|..].
    + exists [e], f. split; [reflexivity|]. split; [apply lang_cls_inv; exists e; split; auto; apply k_e_iff; auto|].
      apply lang_seq_inv. exists [], f. split; [reflexivity|]. split; [apply lang_opt; auto|apply lang_digits; auto].
    + exists [e], (43 :: f). split; [reflexivity|]. split; [apply lang_cls_inv; exists e; split; auto; apply k_e_iff; auto|].
      apply lang_seq_inv. exists [43], f. split; [reflexivity|]. split; [apply lang_opt; left; apply lang_cls_inv; exists 43; auto|apply lang_digits; auto].
    + exists [e], (45 :: f). split; [reflexivity|]. split; [apply lang_cls_inv; exists e; split; auto; apply k_e_iff; auto|].
      apply lang_seq_inv. exists [45], f. split; [reflexivity|]. split; [apply lang_opt; left; apply lang_cls_inv; exists 45; auto|apply lang_digits; auto].
Qed.
Lemma lang_frac s : lang (RSeq (RChr 46) (RPlus (RCls k_digit))) s <-> s <> [] /\ exists f, jfrac_text s f.
Proof.
  rewrite lang_seq_inv. split.
  - intros (u & v & -> & Hu & Hv). apply lang_chr in Hu. subst u. apply lang_digits in Hv. split; [discriminate|]. exists v. constructor. exact Hv.
  - intros [HN (f & HF)]. inversion HF; subst; [contradiction|]. exists [46], f. split; [reflexivity|]. split; [apply lang_chr; reflexivity|apply lang_digits; auto].
Qed.

Lemma float_lang w : ~ In 58 w ->
  lang J_REGEX_FLOAT w <->
  exists neg i f fd x xv, w = jneg neg ++ i ++ f ++ x /\ jdigits i /\ jfrac_text f fd /\ jexp_text x xv /\ (f <> [] \/ x <> []).
Proof.
  intros HC. unfold J_REGEX_FLOAT. rewrite lang_seq_inv. split.
  - intros (u & v & -> & Hu & Hv). apply lang_minus in Hu as [neg ->].
    apply lang_seq_inv in Hv as (i & t & -> & Hi & Ht). apply lang_digits in Hi.
    apply no_app in HC as [_ HC]. apply no_app in HC as [_ HC].
    exists neg, i. apply lang_alt_inv in Ht as [Ht|Ht].
    + apply (proj1 (lang_colon _ _ HC)) in Ht. apply lang_seq_inv in Ht as (f & x & -> & Hf & Hx). apply no_app in HC as [HC _].
      apply lang_exp in Hx as [Hx0 [xv Hx]]. apply lang_opt in Hf as [Hf|Hf].
      * apply (proj1 (lang_colon _ _ HC)) in Hf. apply lang_frac in Hf as [_ [fd Hf]]. exists f, fd, x, xv. repeat split; auto; apply Hi.
      * subst f. exists [], [], x, xv. repeat split; auto; try apply Hi. constructor.
    + apply lang_frac in Ht as [Ht0 [fd Hf]]. exists t, fd, [], 0%Z. rewrite app_nil_r. repeat split; auto; try apply Hi. constructor.
  - intros (neg & i & f & fd & x & xv & -> & Hi & Hf & Hx & HN). exists (jneg neg), (i ++ f ++ x). split; [reflexivity|]. split; [apply lang_minus; eauto|].
    apply no_app in HC as [_ HC]. apply no_app in HC as [_ HC].
    apply lang_seq_inv. exists i, (f ++ x). split; [reflexivity|]. split; [apply lang_digits; auto|].
    apply lang_alt_inv. destruct x as [|xc x].
    + right. rewrite app_nil_r. apply lang_frac. split; [|eauto]. destruct HN; auto.
    + left. apply lang_colon; auto. apply lang_seq_inv. exists f, (xc :: x). split; [reflexivity|]. split; [|apply lang_exp; split; [discriminate|eauto]].
      apply lang_opt. destruct f as [|fc f]; [auto|left]. apply no_app in HC as [HC _]. apply lang_colon; auto. apply lang_frac. split; [discriminate|eauto].
Qed.
Lemma int_lang w : ~ In 58 w -> lang J_REGEX_INTEGER_DEC w <-> exists neg i, w = jneg neg ++ i /\ jint_text i.
Proof.
  intros HC. unfold J_REGEX_INTEGER_DEC. rewrite lang_seq_inv. split.
  - intros (u & v & -> & Hu & Hv). apply lang_minus in Hu as [neg ->]. exists neg, v. split; [reflexivity|].
    apply no_app in HC as [_ HC]. apply lang_alt_inv in Hv as [Hv|Hv].
    + apply (proj1 (lang_colon _ _ HC)) in Hv. apply lang_seq_inv in Hv as (a & b & -> & Ha & Hb). apply lang_cls_inv in Ha as (c & -> & Hc). apply k_1_9_iff in Hc.
      apply no_app in HC as [_ HC]. apply (proj1 (lang_star_colon _ _ HC)) in Hb. apply lang_star_cls in Hb. split.
      * split; [discriminate|]. cbn [app]. constructor; [lia|]. eapply Forall_impl; [|exact Hb]. intros y. apply k_digit_iff.
      * cbn [app hd]. lia.
    + apply lang_chr in Hv. subst v. split; auto. split; [discriminate|]. constructor; auto. lia.
  - intros (neg & i & -> & [HN HF] & HZ). exists (jneg neg), i. split; [reflexivity|]. split; [apply lang_minus; eauto|].
    apply no_app in HC as [_ HC]. destruct i as [|c i]; [contradiction|]. apply lang_alt_inv. destruct (N.eq_dec c 48) as [->|Hc].
    + right. apply lang_chr. apply HZ. reflexivity.
    + left. apply lang_colon; auto. apply lang_seq_inv. exists [c], i. split; [reflexivity|]. pose proof (Forall_inv HF) as H0. cbn in H0. split.
      * apply lang_cls_inv. exists c. split; auto. apply k_1_9_iff. lia.
      * apply lang_star_colon; [intros HI; apply HC; right; exact HI|]. apply lang_star_cls. eapply Forall_impl; [|exact (Forall_inv_tail HF)]. intros y. apply k_digit_iff.
Qed.

Lemma number_words w : ~ In 58 w ->
  full_match J_REGEX_FLOAT w || full_match J_REGEX_INTEGER_DEC w = true <-> exists neg m x, jnumber_text true w neg m x.
Proof.
  intros HC. rewrite orb_true_iff, !full_match_spec, float_lang, int_lang by auto. split.
  - intros [(neg & i & f & fd & x & xv & -> & Hi & Hf & Hx & HN)|(neg & i & -> & Hi)].
    + do 3 eexists. apply JNumberText with (1 := Hf) (2 := Hx). right. auto.
    + do 3 eexists. replace (jneg neg ++ i) with ((if neg then [45] else []) ++ i ++ [] ++ []) by (rewrite !app_nil_r; reflexivity).
      apply JNumberText with (1 := JF_none) (2 := JX_none). left. exact Hi.
  - intros (neg & m & x & H). inversion H as [neg0 i f fd xt xv Hf Hx HI]; subst.
    destruct f as [|fc f]; [destruct xt as [|xc xt]|].
    + destruct HI as [HI|(_ & _ & [HI|HI])]; try contradiction. right. exists neg, i. rewrite !app_nil_r. auto.
    + left. exists neg, i, [], fd, (xc :: xt), xv. repeat split; auto; try (destruct HI as [[HI _]|(_ & HI & _)]; apply HI). right. discriminate.
    + left. exists neg, i, (fc :: f), fd, xt, xv. repeat split; auto; try (destruct HI as [[HI _]|(_ & HI & _)]; apply HI). left. discriminate.
Qed.

(** the characters of numbers *)
Definition numchar (c : char) : Prop := 48 <= c <= 57 \/ c = 45 \/ c = 43 \/ c = 46 \/ c = 101 \/ c = 69.
Lemma digits_numchar s : jdigits s -> Forall numchar s.
Proof. intros [_ H]. eapply Forall_impl; [|exact H]. unfold numchar. intros; lia. Qed.
Lemma number_chars z w neg m x : jnumber_text z w neg m x -> Forall numchar w /\ exists c r, w = c :: r /\ (48 <= c <= 57 \/ c = 45).
Proof.
  intros H. inversion H as [neg0 i f fd xt xv Hf Hx HI]; subst.
  assert (Hi : jdigits i) by (destruct HI as [[HI _]|(_ & HI & _)]; apply HI). split.
  - repeat (apply Forall_app; split).
    + destruct neg; constructor; auto. unfold numchar. auto.
    + apply digits_numchar. exact Hi.
    + inversion Hf; subst; constructor; [unfold numchar; auto|]. apply digits_numchar. auto.
    + inversion Hx as [|e g He Hg|e g He Hg|e g He Hg]; subst; [constructor|..]; repeat (constructor; [unfold numchar; destruct He; lia|]); try (apply digits_numchar; exact Hg).
      all: constructor; [unfold numchar; lia|]; apply digits_numchar; exact Hg.
  - destruct neg; cbn [app]; [eauto|]. destruct Hi as [HN HF]. destruct i as [|c i]; [contradiction|]. exists c. eexists. split; [reflexivity|]. left. apply (Forall_inv HF).
Qed.
Lemma numchar_nonsep c : numchar c -> nonsep c = true.
Proof.
  unfold numchar, nonsep, j_is_token_separator, j_is_whitespace, j_is_line_break. intros H.
  apply negb_true_iff. rewrite !orb_false_iff, !N.eqb_neq. lia.
Qed.

(** * Reading *)
Lemma digit_iff c : is_ascii_digit c = true <-> 48 <= c <= 57.
Proof. unfold is_ascii_digit, in_range. rewrite andb_true_iff, !N.leb_le. tauto. Qed.
Lemma digits_value_fold s : forall a, Forall (fun c => 48 <= c <= 57) s -> fold_left (fun a c => 10 * a + (c - 48)) s a = a * 10 ^ N.of_nat (length s) + positional 10 s.
Proof.
  induction s as [|c s IH]; intros a HF; cbn [fold_left length].
  - cbn [positional]. change (10 ^ N.of_nat 0) with 1. lia.
  - rewrite IH by (eapply Forall_inv_tail; eauto). rewrite positional_cons by (try apply (Forall_inv HF); apply (Forall_inv_tail HF)).
    rewrite Nat2N.inj_succ, N.pow_succ_r'. lia.
Qed.
Lemma digits_value_positional s : Forall (fun c => 48 <= c <= 57) s -> digits_value s = positional 10 s.
Proof. intros H. unfold digits_value. rewrite digits_value_fold by auto. lia. Qed.

Lemma digits_forallb s : Forall (fun c => 48 <= c <= 57) s -> forallb is_ascii_digit s = true.
Proof. intros H. apply forallb_forall. intros c Hc. apply digit_iff. rewrite Forall_forall in H. auto. Qed.
Definition nodigit (s : str) : Prop := match s with [] => True | c :: _ => is_ascii_digit c = false end.
Lemma take_digits s r : Forall (fun c => 48 <= c <= 57) s -> nodigit r -> take_while is_ascii_digit (s ++ r) = s /\ drop_while is_ascii_digit (s ++ r) = r.
Proof.
  intros HF HN. rewrite take_while_app, drop_while_app by (apply digits_forallb; auto).
  destruct r as [|c r]; cbn [take_while drop_while]; [rewrite app_nil_r; auto|]. cbn in HN. rewrite HN, app_nil_r. auto.
Qed.

Lemma f64_parse_tail neg i f fd x xv : jdigits i -> jfrac_text f fd -> jexp_text x xv ->
  f64_parse ((if neg : bool then [45] else []) ++ i ++ f ++ x) = Some (f64_of_decimal neg (positional 10 (i ++ fd)) (xv - Z.of_nat (length fd))).
Proof.
  intros Hi Hf Hx.
  assert (HX : nodigit x).
  { inversion Hx as [|e g He Hg|e g He Hg|e g He Hg]; subst; cbn; auto; destruct He as [-> | ->]; reflexivity. }
  assert (HFX : nodigit (f ++ x)) by (inversion Hf; subst; cbn; auto).
  assert (HS : (let '(n, s) := match (if neg then [45] else []) ++ i ++ f ++ x with
                   | y :: r => if N.eqb y 45 then (true, r) else if N.eqb y 43 then (false, r) else (false, (if neg then [45] else []) ++ i ++ f ++ x)
                   | [] => (false, (if neg then [45] else []) ++ i ++ f ++ x) end in (n, s)) = (neg, i ++ f ++ x)).
  { destruct neg; [reflexivity|]. cbn [app]. destruct Hi as [HN HF]. destruct i as [|c i]; [contradiction|]. pose proof (Forall_inv HF) as Hc. cbn in Hc. cbn [app].
    rewrite (proj2 (N.eqb_neq c 45)) by lia. rewrite (proj2 (N.eqb_neq c 43)) by lia. reflexivity. }
  unfold f64_parse. 
  destruct (match (if neg then [45] else []) ++ i ++ f ++ x with
            | [] => _ | _ :: _ => _ end) as [n s]. injection HS as -> ->.
  destruct (take_digits i (f ++ x) (proj2 Hi) HFX) as [-> ->].
  assert (HE : match f ++ x with
               | y :: r => if N.eqb y 46 then (take_while is_ascii_digit r, drop_while is_ascii_digit r) else ([], f ++ x)
               | [] => ([], f ++ x) end = (fd, x)).
  { inversion Hf as [|g Hg]; subst.
    - cbn [app]. inversion Hx as [|e g He Hg|e g He Hg|e g He Hg]; subst; auto; destruct He as [-> | ->]; reflexivity.
    - cbn [app]. change (46 =? 46) with true. cbn iota. destruct (take_digits fd x (proj2 Hg) HX) as [-> ->]. reflexivity. }
  rewrite HE.
  assert (HFD : Forall (fun c => 48 <= c <= 57) (i ++ fd)).
  { apply Forall_app. split; [apply Hi|]. inversion Hf; subst; [constructor|]. match goal with H : jdigits fd |- _ => apply H end. }
  assert (HNN : nil_str (i ++ fd) = false) by (destruct Hi as [HN _]; destruct i; [contradiction|reflexivity]).
  rewrite HNN, digits_value_positional by auto.
  inversion Hx as [|e g He Hg|e g He Hg|e g He Hg]; subst; [reflexivity|..].
  all: assert (HG : N.eqb e 101 || N.eqb e 69 = true) by (apply orb_true_iff; rewrite !N.eqb_eq; exact He); rewrite HG.
  - destruct Hg as [HN HF]. destruct g as [|c g]; [contradiction|]. pose proof (Forall_inv HF) as Hc. cbn in Hc.
    rewrite (proj2 (N.eqb_neq c 45)) by lia. rewrite (proj2 (N.eqb_neq c 43)) by lia. cbn [nil_str orb].
    rewrite digits_forallb by auto. cbn [negb]. rewrite digits_value_positional by auto. reflexivity.
  - change (43 =? 45) with false. change (43 =? 43) with true. cbn iota. destruct Hg as [HN HF]. destruct g as [|c g]; [contradiction|]. cbn [nil_str orb].
    rewrite digits_forallb by auto. cbn [negb]. rewrite digits_value_positional by auto. reflexivity.
  - change (45 =? 45) with true. cbn iota. destruct Hg as [HN HF]. destruct g as [|c g]; [contradiction|]. cbn [nil_str orb].
    rewrite digits_forallb by auto. cbn [negb]. rewrite digits_value_positional by auto. reflexivity.
Qed.

Lemma f64_parse_number z w neg m x : jnumber_text z w neg m x ->
  exists v, f64_parse w = Some v /\ number_of_f64 w v = jnumber_value neg m x.
Proof.
  intros H. inversion H as [neg0 i f fd xt xv Hf Hx HI]; subst.
  assert (Hi : jdigits i) by (destruct HI as [[HI _]|(_ & HI & _)]; apply HI).
  eexists. split; [apply f64_parse_tail; eauto|]. unfold number_of_f64, jnumber_value.
  destruct (f64_of_decimal _ _ _); [reflexivity|].
  match goal with |- number_from_f64 (Fin ?b 0 _) = _ => destruct b; reflexivity end.
Qed.
