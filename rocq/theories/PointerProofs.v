(** Proofs about the JSON pointers of schema references: encodings, escapes and the walk. *)
From Coq Require Import String Ascii List NArith ZArith Bool Arith Lia ZifyBool ZifyN.
From Verif Require Import Base JsonModel PointerModel PointerSpec.
From Verif Require TomlTextModel.
Import ListNotations.
Open Scope N_scope.
Open Scope list_scope.

Ltac ranges := unfold decodes_to, continuation, in_range.
Ltac divs := zify; Z.to_euclidean_division_equations; lia.

(** * UTF-8 *)
Lemma decode_encode c bs : is_scalar c -> decode_utf8 (encode_utf8 c ++ bs) = option_map (cons c) (decode_utf8 bs).
Proof.
  intros [H1 H2]. unfold encode_utf8.
  destruct (N.ltb_spec c 0x80) as [A|A]; [cbn [app decode_utf8]; replace (c <? 0x80) with true by lia; reflexivity|].
  destruct (N.ltb_spec c 0x800) as [B|B].
  { cbn [app decode_utf8]. replace (0xC0 + c / 64 <? 0x80) with false by divs. replace (in_range 0xC0 0xDF (0xC0 + c / 64)) with true by (ranges; divs).
    cbv zeta. replace ((0xC0 + c / 64 - 0xC0) * 64 + (0x80 + c mod 64 - 0x80)) with c by divs.
    replace (continuation (0x80 + c mod 64)) with true by (ranges; divs). replace (decodes_to 0x80 0x7FF c) with true by (ranges; divs). reflexivity. }
  destruct (N.ltb_spec c 0x10000) as [C|C].
  { cbn [app decode_utf8]. replace (0xE0 + c / 4096 <? 0x80) with false by divs. replace (in_range 0xC0 0xDF (0xE0 + c / 4096)) with false by (ranges; divs).
    replace (in_range 0xE0 0xEF (0xE0 + c / 4096)) with true by (ranges; divs).
    cbv zeta. replace ((0xE0 + c / 4096 - 0xE0) * 4096 + (0x80 + (c / 64) mod 64 - 0x80) * 64 + (0x80 + c mod 64 - 0x80)) with c by divs.
    replace (continuation (0x80 + c mod 64)) with true by (ranges; divs). replace (continuation (0x80 + (c / 64) mod 64)) with true by (ranges; divs).
    replace (decodes_to 0x800 0xFFFF c) with true by (ranges; divs). reflexivity. }
  cbn [app decode_utf8]. replace (0xF0 + c / 262144 <? 0x80) with false by divs. replace (in_range 0xC0 0xDF (0xF0 + c / 262144)) with false by (ranges; divs).
  replace (in_range 0xE0 0xEF (0xF0 + c / 262144)) with false by (ranges; divs). replace (in_range 0xF0 0xF7 (0xF0 + c / 262144)) with true by (ranges; divs).
  cbv zeta. replace ((0xF0 + c / 262144 - 0xF0) * 262144 + (0x80 + (c / 4096) mod 64 - 0x80) * 4096 + (0x80 + (c / 64) mod 64 - 0x80) * 64 + (0x80 + c mod 64 - 0x80)) with c by divs.
  replace (continuation (0x80 + c mod 64)) with true by (ranges; divs). replace (continuation (0x80 + (c / 64) mod 64)) with true by (ranges; divs).
  replace (continuation (0x80 + (c / 4096) mod 64)) with true by (ranges; divs).
  replace (decodes_to 0x10000 0x10FFFF c) with true by (ranges; divs). reflexivity.
Qed.
Lemma decode_all s : Forall is_scalar s -> decode_utf8 (flat_map encode_utf8 s) = Some s.
Proof. induction 1 as [|c s Hc Hs IH]; [reflexivity|]. cbn [flat_map]. rewrite decode_encode, IH by exact Hc. reflexivity. Qed.
Lemma utf8_encode c bs : utf8 c bs -> encode_utf8 c = bs.
Proof.
  unfold encode_utf8. intros H. destruct H as [a H|a b H1 H2|a b c H1 H2 H3 H4|a b c d H1 H2 H3 H4 H5].
  - replace (a <? 0x80) with true by lia. reflexivity.
  - replace (a * 64 + b <? 0x80) with false by lia. replace (a * 64 + b <? 0x800) with true by lia. repeat f_equal; divs.
  - replace ((a * 64 + b) * 64 + c <? 0x80) with false by lia. replace ((a * 64 + b) * 64 + c <? 0x800) with false by lia. replace ((a * 64 + b) * 64 + c <? 0x10000) with true by lia.
    repeat f_equal; divs.
  - replace (((a * 64 + b) * 64 + c) * 64 + d <? 0x80) with false by lia. replace (((a * 64 + b) * 64 + c) * 64 + d <? 0x800) with false by lia. replace (((a * 64 + b) * 64 + c) * 64 + d <? 0x10000) with false by lia.
    repeat f_equal; divs.
Qed.

(** * Percent encoding *)
Lemma hex_digit_value h x : hex_digit h x -> TomlTextModel.hex_value h = Some x.
Proof.
  unfold TomlTextModel.hex_value, in_range. intros H. destruct H as [n H|n H|n H].
  - replace ((48 <=? 48 + n) && (48 + n <=? 57)) with true by lia. f_equal. lia.
  - replace ((48 <=? 55 + n) && (55 + n <=? 57)) with false by lia. replace ((97 <=? 55 + n) && (55 + n <=? 102)) with false by lia.
    replace ((65 <=? 55 + n) && (55 + n <=? 70)) with true by lia. f_equal. lia.
  - replace ((48 <=? 87 + n) && (87 + n <=? 57)) with false by lia. replace ((97 <=? 87 + n) && (87 + n <=? 102)) with true by lia. f_equal. lia.
Qed.
Lemma percent_escaped bytes b e : escaped_bytes bytes b -> percent_bytes (b ++ e) = bytes ++ percent_bytes e.
Proof.
  induction 1 as [|h l x y bytes b Hh Hl Hb IH]; [reflexivity|]. cbn [app percent_bytes]. change (37 =? 37) with true. cbv iota.
  rewrite (hex_digit_value _ _ Hh), (hex_digit_value _ _ Hl), IH. reflexivity.
Qed.
Lemma percent_fragment s e : fragment s e -> percent_bytes e = flat_map encode_utf8 s.
Proof.
  induction 1 as [|c s e Hc H IH|c bytes b s e Hu Hb H IH]; [reflexivity| |].
  - cbn [percent_bytes flat_map]. replace (c =? 37) with false by lia. rewrite IH. reflexivity.
  - rewrite (percent_escaped _ _ _ Hb). cbn [flat_map]. rewrite IH, (utf8_encode _ _ Hu). reflexivity.
Qed.
Lemma percent_decode_fragment lossy s e : fragment s e -> Forall is_scalar s -> percent_decode lossy e = s.
Proof. intros H Hs. unfold percent_decode. rewrite (percent_fragment _ _ H), decode_all by exact Hs. reflexivity. Qed.

(** * Tokens *)
Lemma split_slash_some s : exists p ps, split_slash s = p :: ps.
Proof. induction s as [|c s (p & ps & IH)]; [exists [], []; reflexivity|]. cbn [split_slash]. rewrite IH. destruct (N.eqb c 47); eauto. Qed.
Lemma split_no_slash s r : Forall (fun c => c <> 47) s -> split_slash (s ++ 47 :: r) = s :: split_slash r.
Proof.
  induction 1 as [|c s Hc Hs IH]; [reflexivity|]. cbn [app split_slash]. rewrite IH. replace (c =? 47) with false by lia. reflexivity.
Qed.
Lemma split_last s : Forall (fun c => c <> 47) s -> split_slash s = [s].
Proof. induction 1 as [|c s Hc Hs IH]; [reflexivity|]. cbn [split_slash]. rewrite IH. replace (c =? 47) with false by lia. reflexivity. Qed.
Lemma escape_char_cases c : (c = 126 /\ escape_char c = [126; 48]) \/ (c = 47 /\ escape_char c = [126; 49]) \/ (c <> 126 /\ c <> 47 /\ escape_char c = [c]).
Proof.
  destruct (N.eq_dec c 126) as [-> |A]; [left; auto|]. destruct (N.eq_dec c 47) as [-> |B]; [right; left; auto|]. right. right. split; [exact A|]. split; [exact B|].
  unfold escape_char. replace (c =? 126) with false by lia. replace (c =? 47) with false by lia. reflexivity.
Qed.
Lemma escape_no_slash t : Forall (fun c => c <> 47) (escape t).
Proof.
  unfold escape. induction t as [|c t IH]; [constructor|]. cbn [flat_map]. apply Forall_app. split; [|exact IH].
  destruct (escape_char_cases c) as [[_ ->]|[[_ ->]|(A & B & ->)]]; repeat constructor; lia.
Qed.
Lemma split_pointer t ts : split_slash (escape t ++ pointer_text ts) = map escape (t :: ts).
Proof.
  revert t. induction ts as [|u ts IH]; intros t.
  - cbn [pointer_text flat_map map]. rewrite app_nil_r. apply split_last, escape_no_slash.
  - change (pointer_text (u :: ts)) with (47 :: escape u ++ pointer_text ts). rewrite split_no_slash by apply escape_no_slash. rewrite IH. reflexivity.
Qed.
Lemma escape_nonempty t : t <> [] -> nonempty (escape t) = true.
Proof. destruct t as [|c t]; [congruence|]. intros _. unfold escape. cbn [flat_map]. destruct (escape_char_cases c) as [[_ ->]|[[_ ->]|(A & B & ->)]]; reflexivity. Qed.
Lemma segments_of ts : Forall (fun t => t <> []) ts -> filter nonempty (split_slash (pointer_text ts)) = map escape ts.
Proof.
  destruct ts as [|t ts]; [reflexivity|]. intros H. change (pointer_text (t :: ts)) with (47 :: escape t ++ pointer_text ts). cbn [split_slash]. change (47 =? 47) with true. cbv iota. cbn [filter nonempty].
  rewrite split_pointer. induction H as [|u us Hu Hus IH]; [reflexivity|]. cbn [map filter]. rewrite escape_nonempty, IH by exact Hu. reflexivity.
Qed.

Lemma replace2_skip p q r c s : c <> p -> replace2 p q r (c :: s) = c :: replace2 p q r s.
Proof. intros H. cbn [replace2]. destruct s as [|d s]; [reflexivity|]. replace (c =? p) with false by lia. reflexivity. Qed.
Lemma replace2_other p q r c d s : d <> q -> replace2 p q r (c :: d :: s) = c :: replace2 p q r (d :: s).
Proof. intros H. cbn [replace2]. replace (d =? q) with false by lia. rewrite andb_false_r. reflexivity. Qed.
Lemma replace2_hit p q r s : replace2 p q r (p :: q :: s) = r :: replace2 p q r s.
Proof. cbn [replace2]. rewrite !N.eqb_refl. reflexivity. Qed.
Lemma unescape_escape t : unescape (escape t) = t.
Proof.
  unfold unescape. induction t as [|c t IH]; [reflexivity|]. change (escape (c :: t)) with (escape_char c ++ escape t).
  destruct (escape_char_cases c) as [[-> ->]|[[-> ->]|(A & B & ->)]]; cbn [app].
  - rewrite (replace2_other 126 49 47 126 48) by lia. rewrite (replace2_skip 126 49 47 48) by lia. rewrite replace2_hit, IH. reflexivity.
  - rewrite replace2_hit. rewrite replace2_skip by lia. rewrite IH. reflexivity.
  - rewrite replace2_skip by exact A. rewrite replace2_skip by exact A. rewrite IH. reflexivity.
Qed.

(** * Array indices *)
Lemma digits_number_app t d : digits_number (t ++ [d]) = 10 * digits_number t + (d - 48).
Proof. unfold digits_number. rewrite fold_left_app. reflexivity. Qed.
Lemma array_index_digits t n : array_index t n -> all_digits t = true /\ digits_number t = n /\ exists c rest, t = c :: rest /\ 49 <= c <= 57.
Proof.
  induction 1 as [d Hd Hne|t n d Ht IH Hd]; unfold digit in Hd.
  - split; [|split]; [unfold all_digits, is_ascii_digit, in_range; cbn [forallb]; lia|reflexivity|]. exists d, []. split; [reflexivity|lia].
  - destruct IH as (A & B & c & rest & -> & Hc). split; [|split].
    + unfold all_digits in *. change ((c :: rest) ++ [d]) with (c :: (rest ++ [d])). cbv iota. change (c :: rest ++ [d]) with ((c :: rest) ++ [d]). rewrite forallb_app, A. cbn [forallb]. unfold is_ascii_digit, in_range. lia.
    + rewrite digits_number_app, B. reflexivity.
    + exists c, (rest ++ [d]). split; [reflexivity|exact Hc].
Qed.
Lemma index_parses t n : index_of t n -> n < 2 ^ 64 -> parse_usize t = Some n.
Proof.
  intros [[-> ->]|H] Hn; [reflexivity|]. destruct (array_index_digits _ _ H) as (A & B & c & rest & -> & Hc).
  unfold parse_usize. cbv zeta. replace (c =? 43) with false by lia. rewrite A, B. replace (n <? 2 ^ 64) with true by lia. reflexivity.
Qed.
Lemma digits_index t : Forall digit t -> forall c rest, t = c :: rest -> c <> 48 -> array_index t (digits_number t).
Proof.
  induction t as [|d t IH] using rev_ind; intros HF c rest E Hc; [discriminate|].
  apply Forall_app in HF. destruct HF as [HF Hd]. inversion Hd as [|? ? Hd' _]; subst. rewrite digits_number_app. destruct t as [|x t].
  - cbn [app] in *. injection E as -> <-. change (digits_number []) with 0. replace (10 * 0 + (c - 48)) with (c - 48) by lia. apply index_first; assumption.
  - injection E as -> E. apply index_more; [|exact Hd']. eapply IH; [exact HF|reflexivity|exact Hc].
Qed.
Lemma parse_index t n : parse_usize t = Some n -> ~ odd_index t -> index_of t n.
Proof.
  unfold parse_usize. cbv zeta. intros H Ho. destruct t as [|c rest]; [discriminate|].
  destruct (N.eqb_spec c 43) as [-> |Hc]; [exfalso; apply Ho; exists 43, rest; auto|].
  destruct (all_digits (c :: rest)) eqn:A; [|discriminate]. destruct (digits_number (c :: rest) <? 2 ^ 64); [|discriminate]. injection H as <-.
  destruct (N.eq_dec c 48) as [-> |H48].
  - destruct rest as [|x rest]; [left; auto|]. exfalso. apply Ho. exists 48, (x :: rest). split; [reflexivity|]. right. split; [reflexivity|discriminate].
  - right. apply digits_index with (c := c) (rest := rest); auto. unfold all_digits in A. apply Forall_forall. intros x Hx. rewrite forallb_forall in A. specialize (A x Hx). unfold is_ascii_digit, in_range in A. unfold digit. lia.
Qed.

(** * The walk *)
Lemma member_in k v es : member k es = Some v -> In (k, v) es.
Proof.
  induction es as [|[k' w] es IH]; [discriminate|]. cbn [member]. destruct (str_eqb k k') eqn:E; intros H; [|right; auto].
  injection H as ->. left. apply str_eqb_eq in E. congruence.
Qed.
Lemma in_member k v es : NoDup (map fst es) -> In (k, v) es -> member k es = Some v.
Proof.
  induction es as [|[k' w] es IH]; intros HN HI; [contradiction|]. cbn [member map fst] in *. inversion HN as [|? ? HN1 HN2]; subst.
  destruct (str_eqb k k') eqn:E.
  - apply str_eqb_eq in E. subst k'. destruct HI as [HI|HI]; [congruence|]. exfalso. apply HN1. change k with (fst (k, v)). apply in_map, HI.
  - destruct HI as [HI|HI]; [|auto]. injection HI as -> ->. assert (str_eqb k k = true) by (apply str_eqb_eq; reflexivity). congruence.
Qed.
Lemma denotes_walk ts v w : denotes ts v w -> regular v -> walk (map escape ts) v = Some w.
Proof.
  induction 1 as [v|t ts entries v w HI HD IH|t n ts items v w HX HE HD IH]; intros HR; [reflexivity| |]; cbn [map walk enter]; rewrite unescape_escape.
  - inversion HR as [| | | | |? HN HF]; subst. rewrite (in_member _ _ _ HN HI). apply IH. rewrite Forall_forall in HF. exact (HF _ HI).
  - inversion HR as [| | | |? HF HL|]; subst. assert (Hn : (N.to_nat n < length items)%nat) by (apply nth_error_Some; congruence).
    rewrite (index_parses _ _ HX) by lia. rewrite HE. apply IH. rewrite Forall_forall in HF. apply HF. eapply nth_error_In, HE.
Qed.
Lemma walk_denotes ts : Forall (fun t => ~ odd_index t) ts -> forall v w, walk (map escape ts) v = Some w -> denotes ts v w.
Proof.
  induction 1 as [|t ts Ht Hts IH]; intros v w; [intros H; injection H as <-; constructor|]. cbn [map walk]. destruct (enter (escape t) v) as [u|] eqn:E; [|discriminate].
  intros H. unfold enter in E. rewrite unescape_escape in E. destruct v as [| | | |items|entries]; try discriminate.
  - destruct (parse_usize t) as [n|] eqn:P; [|discriminate]. eapply denotes_element; [apply parse_index; [exact P|exact Ht]|exact E|apply IH, H].
  - eapply denotes_member; [apply member_in, E|apply IH, H].
Qed.
Lemma pointer_scalars ts : Forall (Forall is_scalar) ts -> Forall is_scalar (pointer_text ts).
Proof.
  intros HS. assert (A : is_scalar 47 /\ is_scalar 126 /\ is_scalar 48 /\ is_scalar 49) by (unfold is_scalar; lia). destruct A as (A1 & A2 & A3 & A4).
  induction HS as [|t ts Ht Hts IH]; [constructor|]. change (pointer_text (t :: ts)) with (47 :: escape t ++ pointer_text ts). constructor; [exact A1|]. apply Forall_app. split; [|exact IH].
  clear -Ht A1 A2 A3 A4. unfold escape. induction Ht as [|c t Hc Ht IH]; [apply Forall_nil|]. cbn [flat_map]. apply Forall_app. split; [|exact IH].
  destruct (escape_char_cases c) as [[_ ->]|[[_ ->]|(_ & _ & ->)]]; repeat (apply Forall_cons; [assumption|]); apply Forall_nil.
Qed.
