(** C60: a JSON pointer in a schema reference leads to the value that RFC 6901 says it denotes. *)
From Coq Require Import String Ascii List NArith ZArith Bool Arith Lia ZifyBool ZifyN.
From Verif Require Import Base JsonModel PointerModel PointerSpec PointerProofs.
Import ListNotations.
Open Scope N_scope.
Open Scope list_scope.

(** ** C60, part 1: every value that a pointer denotes is found, however the fragment is encoded.
    Missing from the full claim: empty tokens (see [C60_empty_token_refuted]). *)
Theorem C60_found_partial : forall lossy doc ts e w,
  regular doc ->
  Forall (fun t => t <> []) ts ->
  Forall (Forall is_scalar) ts ->
  fragment (pointer_text ts) e ->
  denotes ts doc w ->
  resolve_pointer lossy doc (35 :: e) = Some w.
Proof.
  intros lossy doc ts e w HR HN HS HF HD. unfold resolve_pointer. change (35 =? 35) with true. cbv iota.
  pose proof (pointer_scalars _ HS) as HP.
  assert (HW : walk (filter nonempty (split_slash (percent_decode lossy e))) doc = Some w).
  { rewrite (percent_decode_fragment lossy _ _ HF HP), (segments_of _ HN). apply denotes_walk; assumption. }
  destruct e as [|c e]; [|exact HW].
  assert (HT : pointer_text ts = []). { pose proof (percent_decode_fragment lossy _ _ HF HP) as K. cbn in K. congruence. }
  destruct ts as [|t ts]; [inversion HD; reflexivity|discriminate HT].
Qed.
Print Assumptions C60_found_partial.

(** ** C60, part 2: nothing else is found. Missing from the full claim: empty tokens, and tokens that read as
    a number although RFC 6901 gives them no element (see [C60_index_refuted]). *)
Theorem C60_only_partial : forall lossy doc ts e w,
  Forall (fun t => t <> []) ts ->
  Forall (Forall is_scalar) ts ->
  Forall (fun t => ~ odd_index t) ts ->
  fragment (pointer_text ts) e ->
  resolve_pointer lossy doc (35 :: e) = Some w ->
  denotes ts doc w.
Proof.
  intros lossy doc ts e w HN HS HO HF. unfold resolve_pointer. change (35 =? 35) with true. cbv iota.
  pose proof (pointer_scalars _ HS) as HP.
  destruct e as [|c e].
  - intros H. injection H as <-. assert (HT : pointer_text ts = []). { pose proof (percent_decode_fragment lossy _ _ HF HP) as K. cbn in K. congruence. }
    destruct ts as [|t ts]; [constructor|discriminate HT].
  - rewrite (percent_decode_fragment lossy _ _ HF HP), (segments_of _ HN). apply walk_denotes, HO.
Qed.
Print Assumptions C60_only_partial.

(** ** C60, part 3: a reference of another form is no pointer. *)
Theorem C60_not_a_pointer : forall lossy doc s, (forall e, s <> 35 :: e) -> resolve_pointer lossy doc s = None.
Proof.
  intros lossy doc [|c s] H; [reflexivity|]. unfold resolve_pointer. destruct (N.eqb_spec c 35) as [-> |_]; [|reflexivity]. exfalso. eapply H. reflexivity.
Qed.
Print Assumptions C60_not_a_pointer.

(** A document with members named [a/b], [m~n], [é%] and an array, and a pointer through all of them. *)
Definition sample : jvalue :=
  JObject [(lit "a/b", JObject [(lit "m~n", JArray [JNull; JObject [([233; 37], JBool true)]])]); (lit "a", JNull)].
Definition sample_tokens : list str := [lit "a/b"; lit "m~n"; lit "1"; [233; 37]].
(** [/a~1b/m~0n/1/%C3%a9%25] *)
Definition sample_fragment : str := lit "/a~1b/m~0n/1/%C3%a9%25".
Example C60_example_text : pointer_text sample_tokens = lit "/a~1b/m~0n/1/" ++ [233; 37].
Proof. reflexivity. Qed.
Example C60_example_hypotheses :
  regular sample /\ Forall (fun t => t <> []) sample_tokens /\ Forall (Forall is_scalar) sample_tokens /\
  Forall (fun t => ~ odd_index t) sample_tokens /\ fragment (pointer_text sample_tokens) sample_fragment /\
  denotes sample_tokens sample (JBool true).
Proof.
  split; [|split; [|split; [|split; [|split]]]].
  - unfold sample. apply regular_object; [repeat constructor; cbn; intuition congruence|]. constructor; [|constructor; [constructor|constructor]].
    apply regular_object; [repeat constructor; cbn; tauto|]. constructor; [|constructor]. apply regular_array; [|reflexivity]. constructor; [constructor|]. constructor; [|constructor].
    apply regular_object; [repeat constructor; cbn; tauto|]. repeat constructor.
  - repeat constructor; discriminate.
  - unfold sample_tokens, is_scalar. repeat constructor; vm_compute; intuition discriminate.
  - unfold sample_tokens, odd_index. repeat constructor; intros (c & rest & E & H); injection E as <- <-; destruct H as [H|[H _]]; discriminate.
  - rewrite C60_example_text. change sample_fragment with (lit "/a~1b/m~0n/1/" ++ (lit "%C3%a9" ++ (lit "%25" ++ []))).
    assert (K : forall s t e, Forall (fun c => c <> 37) s -> fragment t e -> fragment (s ++ t) (s ++ e)) by (intros s t e HF HE; induction HF; [exact HE|apply fragment_plain; assumption]).
    apply K; [repeat constructor; discriminate|]. apply fragment_escaped with (bytes := [195; 169]).
    + exact (utf8_two 3 41 ltac:(lia) ltac:(lia)).
    + apply (escaped_cons 67 51 12 3); [exact (hex_upper 12 ltac:(lia))|exact (hex_decimal 3 ltac:(lia))|].
      apply (escaped_cons 97 57 10 9); [exact (hex_lower 10 ltac:(lia))|exact (hex_decimal 9 ltac:(lia))|]. constructor.
    + apply fragment_escaped with (bytes := [37]); [exact (utf8_one 37 ltac:(lia))| |constructor].
      apply (escaped_cons 50 53 2 5); [exact (hex_decimal 2 ltac:(lia))|exact (hex_decimal 5 ltac:(lia))|constructor].
  - eapply denotes_member; [left; reflexivity|]. eapply denotes_member; [left; reflexivity|].
    eapply denotes_element with (n := 1); [right; exact (index_first 49 ltac:(unfold digit; lia) ltac:(lia))|reflexivity|]. eapply denotes_member; [left; reflexivity|constructor].
Qed.
Example C60_example : resolve_pointer (fun _ => []) sample (35 :: sample_fragment) = Some (JBool true).
Proof. vm_compute. reflexivity. Qed.

(** ** What the code does otherwise: empty tokens are dropped, so the pointer [#/a//b], which denotes the
    member [b] of the member with the empty name of [a], is read as [#/a/b]; and [#/] is the whole document. *)
Definition nameless : jvalue :=
  JObject [(lit "a", JObject [([], JObject [(lit "b", JNull)]); (lit "b", JBool true)]); ([], JBool false)].
Theorem C60_empty_token_refuted :
  exists doc w, regular doc /\ denotes [lit "a"; []; lit "b"] doc w /\
    fragment (pointer_text [lit "a"; []; lit "b"]) (lit "/a//b") /\
    (forall lossy, exists u, resolve_pointer lossy doc (lit "#/a//b") = Some u /\ u <> w) /\
    denotes [[]] doc (JBool false) /\ (forall lossy, resolve_pointer lossy doc (lit "#/") = Some doc).
Proof.
  exists nameless, JNull. split; [|split; [|split; [|split; [|split]]]].
  - unfold nameless. apply regular_object; [repeat constructor; cbn; intuition congruence|]. constructor; [|constructor; [constructor|constructor]].
    apply regular_object; [repeat constructor; cbn; intuition congruence|]. constructor; [|constructor; [constructor|constructor]]. apply regular_object; [repeat constructor; cbn; tauto|]. repeat constructor.
  - eapply denotes_member; [left; reflexivity|]. eapply denotes_member; [left; reflexivity|]. eapply denotes_member; [left; reflexivity|constructor].
  - cbn. repeat (apply fragment_plain; [discriminate|]). constructor.
  - intros lossy. exists (JBool true). split; [reflexivity|discriminate].
  - eapply denotes_member; [right; left; reflexivity|constructor].
  - intros lossy. reflexivity.
Qed.
Print Assumptions C60_empty_token_refuted.

(** Tokens that are no index of RFC 6901 select elements: [+1], and [01] with its leading zero. And a
    fragment without its first slash, which is no pointer, is taken as one. *)
Theorem C60_index_refuted :
  let doc := JArray [JNull; JBool true] in
  (forall lossy, resolve_pointer lossy doc (lit "#/+1") = Some (JBool true)) /\
  (forall lossy, resolve_pointer lossy doc (lit "#/01") = Some (JBool true)) /\
  (forall w, ~ denotes [lit "+1"] doc w) /\ (forall w, ~ denotes [lit "01"] doc w) /\
  (forall lossy, resolve_pointer lossy (JObject [(lit "a", JNull)]) (lit "#a") = Some JNull) /\
  (forall ts, ~ fragment (pointer_text ts) (lit "a")).
Proof.
  cbv zeta. split; [|split; [|split; [|split; [|split]]]]; try (intros lossy; vm_compute; reflexivity).
  - intros w H. inversion H as [| |? n ? ? ? ? [[E _]|E] _ _]; subst; [discriminate|]. apply array_index_digits in E. destruct E as (_ & _ & c & rest & E & Hc). injection E as <- _. lia.
  - intros w H. inversion H as [| |? n ? ? ? ? [[E _]|E] _ _]; subst; [discriminate|]. apply array_index_digits in E. destruct E as (_ & _ & c & rest & E & Hc). injection E as <- _. lia.
  - intros [|t ts] H; inversion H as [|? ? ? ? ? E|? bs b ? ? Hu Hb]; subst.
    destruct Hb as [|h l x y bs b]; [|discriminate]. inversion Hu.
Qed.
Print Assumptions C60_index_refuted.
