(** The text of a document has no comments and is nested no deeper than the document. *)
From Coq Require Import String Ascii List NArith ZArith Bool Arith Lia.
From Verif Require Import Base SyntaxKind TextModel LexerModel TomlTextModel FormatPieces FormatterModel FormatterLayout FormatterSpec ParseBack ReadBack TextTreeModel
  SerdeModel SerdeSpec SerdeTokens SerdeBack SerdeLayout SerdeSections SerdeWhole.
Import ListNotations.
Open Scope N_scope.
Open Scope list_scope.

(** * The same data is nested alike *)
Lemma same_value_nest : forall v v', same_value v v' -> vnest v' = vnest v.
Proof.
  fix IH 3. intros v v' H. destruct H as [|table lead otc gs tc lead' otc' gs' tc' HF]; [reflexivity|]. rewrite !vnest_box, <- !items_nest. f_equal.
  induction HF as [|i i' its its' HI HF IHF]; [reflexivity|]. cbn [isnest fold_right]. fold (isnest its). fold (isnest its'). rewrite IHF. f_equal. destruct HI as [l ks r w c l' ks' r' w' c' _ HV]. exact (IH w w' HV).
Qed.
Lemma same_items_nest its its' : Forall2 same_item its its' -> isnest its' = isnest its.
Proof. induction 1 as [|i i' its its' HI HF IH]; [reflexivity|]. cbn [isnest fold_right]. fold (isnest its). fold (isnest its'). rewrite IH. f_equal. destruct HI as [l ks r w c l' ks' r' w' c' _ HV]. exact (same_value_nest w w' HV). Qed.
Lemma same_data_nest d d' : same_data d d' -> dnest d' = dnest d.
Proof.
  intros [H1 H2]. unfold dnest. rewrite <- !items_nest, (same_items_nest _ _ H1). f_equal. induction H2 as [|t t' ts ts' (_ & _ & HT) HF IH]; [reflexivity|]. cbn [fold_right]. rewrite IH, <- !items_nest, (same_items_nest _ _ HT). reflexivity.
Qed.

(** * No comments *)
Section Quiet.
Context (show : list N -> str).
Definition quiet (p : piece) : Prop := fst p <> COMMENT.
Lemma key_quiet k : quiet (key_token k).
Proof. unfold quiet, key_token. cbn [fst]. destruct (k_kind k); discriminate. Qed.
Lemma value_quiet : forall v, Forall quiet (value_content (fv show v)).
Proof.
  fix IH 1. intros [s|k vs|k es]; cbn [fv value_content map app opt_comment].
  - constructor; [|constructor]. unfold quiet. cbn [fst]. destruct s; discriminate.
  - apply Forall_cons; [discriminate|]. apply Forall_app. split; [|apply Forall_cons; [discriminate|constructor]].
    induction vs as [|v vs IHv]; [constructor|]. assert (HV := IH v). unfold grp in *. cbn [map flat_map item_content comma_content app] in *. rewrite !app_nil_r in *. apply Forall_app. split; [exact HV|]. destruct vs; [constructor|]. cbn [map flat_map] in IHv. rewrite app_nil_r in IHv. exact IHv.
  - apply Forall_cons; [discriminate|]. apply Forall_app. split; [|apply Forall_cons; [discriminate|constructor]].
    induction es as [|[k' v] es IHv]; [constructor|]. assert (HV := IH v). unfold grp in *. cbn [map flat_map item_content comma_content keys_content app fst snd] in *. rewrite !app_nil_r in *. apply Forall_cons; [apply key_quiet|]. apply Forall_cons; [discriminate|]. apply Forall_app. split; [exact HV|]. destruct es; [constructor|]. cbn [map flat_map] in IHv. rewrite app_nil_r in IHv. exact IHv.
Qed.
Lemma entries_quiet es : Forall quiet (flat_map group_content (grp (map (entry_item (fv show)) es))).
Proof.
  assert (H : Forall quiet (flat_map (item_content value_content) (map (entry_item (fv show)) es))).
  { induction es as [|[k v] es IH]; [constructor|]. cbn [map flat_map]. apply Forall_app. split; [|exact IH]. unfold entry_item. cbn [item_content map app keys_content comma_content fst snd]. rewrite app_nil_r. apply Forall_cons; [apply key_quiet|]. apply Forall_cons; [discriminate|apply value_quiet]. }
  unfold grp. destruct (map (entry_item (fv show)) es) as [|i its]; [constructor|]. cbn [flat_map group_content]. rewrite app_nil_r. exact H.
Qed.
Lemma keys_quiet ks : Forall quiet (keys_content (map key_token ks)).
Proof. induction ks as [|k ks IH]; [constructor|]. destruct ks as [|k' ks]; [constructor; [apply key_quiet|constructor]|]. cbn [map keys_content] in *. apply Forall_cons; [apply key_quiet|]. apply Forall_cons; [discriminate|exact IH]. Qed.
Lemma document_quiet es : Forall quiet (doc_content (fd show es)).
Proof.
  unfold doc_content, fd. cbn [d_groups d_tables]. apply Forall_app. split; [apply entries_quiet|]. apply Forall_flat_map. apply Forall_forall. intros t Ht. apply in_map_iff in Ht as (s & <- & _).
  unfold table_content, ft. cbn [t_lead t_array t_keys t_tc t_groups map app opt_comment]. apply Forall_app. split; [destruct (st_array s); repeat (apply Forall_cons; [discriminate|]); constructor|]. apply Forall_app. split; [apply keys_quiet|].
  apply Forall_app. split; [destruct (st_array s); repeat (apply Forall_cons; [discriminate|]); constructor|]. apply entries_quiet.
Qed.
End Quiet.
