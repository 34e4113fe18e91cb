(** C68: the editor's rewriting code actions keep what the document says. *)
From Coq Require Import String Ascii List NArith Bool Arith Lia.
From Verif Require Import Base TomlTextModel TomlTextProofs TomlTextProps TomlStringGrammar CodeActionModel CodeActionSpec CodeActionProofs.
From Verif Require DocTreeModel DocTreeSpec FormatterProps TextTreeProps.
Import ListNotations.
Open Scope list_scope.
Open Scope nat_scope.

Lemma dig p q k t v : keyed p -> q = path p ++ map AKey k -> k <> [] -> access_all q t = Some v -> exists a, dig_accessors t q = Some (a, v) /\ a = last q (AKey []).
Proof.
  intros HK -> Hk HA. destruct k as [|k1 k]; [congruence|]. cbn [map] in *. destruct (path_head p k1 (map AKey k) HK) as (h & l & E). unfold dig_accessors. rewrite E in *. rewrite HA. cbn [option_map]. eexists. split; [reflexivity|].
  clear. revert h. induction l as [|x l IH]; intros h; [reflexivity|]. change (last (AKey h :: x :: l) (AKey h)) with (last (x :: l) (AKey h)). change (last (AKey h :: x :: l) (AKey [])) with (last (x :: l) (AKey [])).
  revert x. clear IH. induction l as [|y l IH]; intros x; [reflexivity|]. exact (IH y).
Qed.
Lemma last_key p k a : last (path p ++ map AKey (k ++ [a])) (AKey []) = AKey a.
Proof. rewrite map_app, app_assoc. apply last_last. Qed.
Lemma vals_length ks : length (vals ks) = length ks.
Proof. apply map_length. Qed.
Lemma kv_entry o k s r v z : tree_of (o + length (keys_text ((k, s) :: r))) v = Some z -> exists kd rg sr X,
  kv_table o ((k, s) :: r) z = RTable kd rg sr [((val k, (o, o + length (raw k))), X)] /\ kd = match r with [] => KeyValue | _ => ParentKey end /\
  range_of X = (o + length (raw k) + length s, o + length (keys_text ((k, s) :: r)) + length (text v)) /\
  symbol_range X = (o + length (raw k) + length s, o + length (keys_text ((k, s) :: r)) + length (text v)).
Proof.
  intros HZ. destruct (all_placed v _ _ HZ) as [A B]. destruct (kv_table_shape o k s r z) as (kd & rg & sr & E & Hk). do 4 eexists. split; [exact E|]. split; [exact Hk|]. rewrite keys_cons in *. destruct r as [|k2 r].
  - cbn [keys_text flat_map length] in *. rewrite A, B. split; f_equal; lia.
  - destruct (kv_table_range (o + length (raw k) + length s) (k2 :: r) z (o + (length (raw k) + length s + length (keys_text (k2 :: r))) + length (text v))) as [C D]; [rewrite A; f_equal; lia|rewrite B; f_equal; lia|lia|]. auto.
Qed.

(** [a = { b = 1 }] becomes [a.b = 1]: the cursor is at the first key of the only key/value of an inline table without comments. If the document
    has no errors then the action is offered; after its edits the text is the same but with the dotted key; and the document says the same. *)
Theorem C68_to_dotted_partial : forall p ks a eq open gap k sep r v t,
  let inside := InTable p (ks ++ [(a, eq)]) VHere open false [] gap [] in
  let before := plug inside ((k, sep) :: r, v) in
  let after := plug p (ks ++ (a, lit ".") :: (k, sep) :: r, v) in
  keyed p -> tree before = Some t ->
  exists es, to_dotted t (accessors_at inside ((k, sep) :: r) 1) (contexts_at inside ((k, sep) :: r) 1) = Some es /\
    apply_edits es (doc_text before) = doc_text after /\
    forall x, says before = Some x -> says after = Some x.
Proof.
  intros p ks a eq open gap k sep r v t inside before after HK HT.
  assert (HB : before = plug p (ks ++ [(a, eq)], LInline open false [(((k, sep) :: r, v), gap)])) by reflexivity.
  destruct (container p _ _ HK (eq_ind _ (fun d => tree d = Some t) HT _ HB)) as (k0 & r0 & s0 & la & lb & c & HM & HA & HBb & HQ). cbn [fst snd] in HM.
  destruct (merge_all_some _ _ _ _ _ HM) as [y HY]. match type of HY with option_map _ ?x = _ => destruct x as [z|] eqn:EZ; [|discriminate HY] end. clear y HY. cbn [option_map] in HM.
  assert (HL : look (vals (ks ++ [(a, eq)])) c = Some z).
  { eapply found_closed; [|eapply tree_closed; exact EZ|destruct ks; discriminate|exact HM]. apply (from_kv_list p (aft p)); [exact HK| |exact HBb]. intros x Hx. rewrite siblings_eq. apply in_or_app. right. exact Hx. }
  rewrite tree_inline in EZ. match type of EZ with option_map _ ?x = _ => destruct x as [c'|] eqn:EC; [|discriminate EZ] end. injection EZ as <-. cbn [item_trees merge_all] in EC.
  set (o2 := offset p + length (keys_text (ks ++ [(a, eq)])) + 1 + length open) in *.
  destruct (tree_of (o2 + length (keys_text ((k, sep) :: r))) v) as [z|] eqn:EZ; [|discriminate EC]. cbn [option_map] in EC.
  destruct (kv_entry _ _ _ _ _ _ EZ) as (kd & rg & sr & X & HE & Hk & HX1 & HX2). rewrite HE in EC.
  set (R := (offset p + length (keys_text (ks ++ [(a, eq)])), offset p + length (keys_text (ks ++ [(a, eq)])) + length (text (LInline open false [(((k, sep) :: r, v), gap)])))) in *.
  destruct (merge (RTable Table R R []) _) as [c2|] eqn:EM; [|discriminate EC]. injection EC as <-.
  destruct (all_placed v _ _ EZ) as [P1 P2]. destruct (kv_table_range o2 ((k, sep) :: r) z _ P1 P2 ltac:(lia)) as [Q1 Q2]. rewrite HE in Q1, Q2. cbn [range_of symbol_range] in Q1, Q2. subst rg sr.
  assert (HW : within (o2, o2 + length (keys_text ((k, sep) :: r)) + length (text v)) R).
  { unfold within, R. cbn [fst snd]. rewrite inline_text, !app_length, items_cons. change (length (lit "{")) with 1. unfold o2. lia. }
  assert (HC2 : c2 = RTable Table R R [((val k, (o2, o2 + length (raw k))), X)]).
  { cbn [merge] in EM. assert (HCf : conflict Table [] kd [((val k, (o2, o2 + length (raw k))), X)] = false) by (subst kd; destruct r; reflexivity). rewrite HCf in EM. cbn [get option_map app] in EM.
    rewrite (join_within _ _ HW) in EM. injection EM as <-. reflexivity. }
  subst c2. cbn [set_kind] in *.
  assert (HAcc : accessors_at inside ((k, sep) :: r) 1 = (path p ++ map AKey (vals ks ++ [val a])) ++ [AKey (val k)]).
  { unfold accessors_at. cbn [inside path vpath vals map fst firstn]. rewrite app_nil_r. unfold vals. rewrite !map_app. reflexivity. }
  assert (HV : vals (ks ++ [(a, eq)]) = vals ks ++ [val a]) by (unfold vals; rewrite map_app; reflexivity). rewrite HV in HL.
  assert (HNE : vals ks ++ [val a] <> []) by (destruct (vals ks); discriminate).
  assert (HAt := HQ _ HNE). rewrite HL in HAt. destruct (dig p _ _ t _ HK eq_refl HNE HAt) as (ak & HD & _).
  destruct (key_context_at (offset p) ks a eq []) as (cc & HCC & _).
  eexists. split; [|split].
  - unfold to_dotted. rewrite HAcc. rewrite app_length. cbn [length]. rewrite app_length, map_length, app_length. cbn [length]. rewrite !vals_length.
    destruct (Nat.ltb_spec (length (path p) + (length ks + 1) + 1) 2); [lia|]. replace (length (path p) + (length ks + 1) + 1 - 2) with (length (path p) + length ks) by lia.
    unfold contexts_at. cbn [inside contexts vcontexts]. rewrite app_nil_r, <- app_assoc. rewrite nth_error_app2 by (rewrite <- path_length; lia). rewrite <- path_length. replace (length (path p) + length ks - length (path p)) with (length ks) by lia.
    rewrite nth_error_app1 by (rewrite key_contexts_length, app_length; cbn; lia). rewrite HCC. rewrite removelast_last, HD. cbn [symbol_range]. rewrite HX1. cbn [fst snd]. reflexivity.
  - destruct (plug_text p) as (A & B & HLen & HTx). rewrite HB, HTx. unfold after. rewrite HTx. unfold kv_text. cbn [fst snd]. rewrite !keys_app, inline_text. cbn [keys_text flat_map items_text kv_text fst snd apply_edits fold_right].
    change (flat_map (fun k1 : key * list N => raw (fst k1) ++ snd k1) r) with (keys_text r). change (flat_map (fun k1 : key * list N => raw (fst k1) ++ snd k1) ks) with (keys_text ks).
    rewrite !app_nil_r, <- !app_assoc.
    assert (HR : R = (offset p + length (keys_text (ks ++ [(a, eq)])), offset p + length (keys_text (ks ++ [(a, eq)])) + length (text (LInline open false [(((k, sep) :: r, v), gap)])))) by reflexivity.
    rewrite HR. clear HR. cbn [snd]. rewrite inline_text, !app_length, items_cons. change (length (lit "{")) with 1. change (length (lit "}")) with 1. change (length (items_text [])) with 0.
    unfold o2. clear - HLen. rewrite keys_app, app_length, !keys_cons. change (length (keys_text [])) with 0. rewrite <- HLen.
    match goal with |- replace ?e (replace ?e2 ?s) = _ => replace s with ((A ++ keys_text ks ++ raw a ++ eq ++ lit "{" ++ open ++ raw k ++ sep ++ keys_text r ++ text v) ++ (gap ++ lit "}") ++ B) by (unfold kv_text; cbn [fst snd]; change (keys_text ((k, sep) :: r)) with ((raw k ++ sep) ++ keys_text r); rewrite <- !app_assoc; reflexivity) end.
    erewrite (replace_at _ (gap ++ lit "}") B []); [|rewrite !app_length; change (length (lit "{")) with 1; lia|rewrite !app_length; change (length (lit "{")) with 1; change (length (lit "}")) with 1; lia].
    cbn [app]. match goal with |- replace ?e ?s = _ => replace s with ((A ++ keys_text ks ++ raw a) ++ (eq ++ lit "{" ++ open) ++ raw k ++ sep ++ keys_text r ++ text v ++ B) by (rewrite <- !app_assoc; reflexivity) end.
    rewrite replace_at; [rewrite <- !app_assoc; reflexivity|rewrite !app_length; lia|rewrite !app_length; change (length (lit "{")) with 1; lia].
  - rewrite HB. unfold after. apply says_opened. discriminate.
Qed.
Print Assumptions C68_to_dotted_partial.

(** With comments between the braces the action is not offered: they would be lost. *)
Theorem C68_comments_kept : forall p ks a eq open gap k sep r v t,
  let inside := InTable p (ks ++ [(a, eq)]) VHere open true [] gap [] in
  let before := plug inside ((k, sep) :: r, v) in
  keyed p -> tree before = Some t ->
  to_dotted t (accessors_at inside ((k, sep) :: r) 1) (contexts_at inside ((k, sep) :: r) 1) = None.
Proof.
  intros p ks a eq open gap k sep r v t inside before HK HT.
  assert (HB : before = plug p (ks ++ [(a, eq)], LInline open true [(((k, sep) :: r, v), gap)])) by reflexivity.
  destruct (container p _ _ HK (eq_ind _ (fun d => tree d = Some t) HT _ HB)) as (k0 & r0 & s0 & la & lb & c & HM & HA & HBb & HQ). cbn [fst snd] in HM.
  destruct (merge_all_some _ _ _ _ _ HM) as [y HY]. match type of HY with option_map _ ?x = _ => destruct x as [z|] eqn:EZ; [|discriminate HY] end. clear y HY. cbn [option_map] in HM.
  assert (HL : look (vals (ks ++ [(a, eq)])) c = Some z).
  { eapply found_closed; [|eapply tree_closed; exact EZ|destruct ks; discriminate|exact HM]. apply (from_kv_list p (aft p)); [exact HK| |exact HBb]. intros x Hx. rewrite siblings_eq. apply in_or_app. right. exact Hx. }
  rewrite tree_inline in EZ. match type of EZ with option_map _ ?x = _ => destruct x as [c'|] eqn:EC; [|discriminate EZ] end. injection EZ as <-. cbn [item_trees merge_all] in EC.
  set (o2 := offset p + length (keys_text (ks ++ [(a, eq)])) + 1 + length open) in *.
  destruct (tree_of (o2 + length (keys_text ((k, sep) :: r))) v) as [z|] eqn:EZ; [|discriminate EC]. cbn [option_map] in EC.
  destruct (kv_entry _ _ _ _ _ _ EZ) as (kd & rg & sr & X & HE & Hk & HX1 & HX2). rewrite HE in EC.
  set (R := (offset p + length (keys_text (ks ++ [(a, eq)])), offset p + length (keys_text (ks ++ [(a, eq)])) + length (text (LInline open true [(((k, sep) :: r, v), gap)])))) in *.
  destruct (merge (RTable Table R R []) _) as [c2|] eqn:EM; [|discriminate EC]. injection EC as <-.
  destruct (all_placed v _ _ EZ) as [P1 P2]. destruct (kv_table_range o2 ((k, sep) :: r) z _ P1 P2 ltac:(lia)) as [Q1 Q2]. rewrite HE in Q1, Q2. cbn [range_of symbol_range] in Q1, Q2. subst rg sr.
  assert (HW : within (o2, o2 + length (keys_text ((k, sep) :: r)) + length (text v)) R).
  { unfold within, R. cbn [fst snd]. rewrite inline_text, !app_length, items_cons. change (length (lit "{")) with 1. unfold o2. lia. }
  assert (HC2 : c2 = RTable Table R R [((val k, (o2, o2 + length (raw k))), X)]).
  { cbn [merge] in EM. assert (HCf : conflict Table [] kd [((val k, (o2, o2 + length (raw k))), X)] = false) by (subst kd; destruct r; reflexivity). rewrite HCf in EM. cbn [get option_map app] in EM.
    rewrite (join_within _ _ HW) in EM. injection EM as <-. reflexivity. }
  subst c2. cbn [set_kind] in *.
  assert (HAcc : accessors_at inside ((k, sep) :: r) 1 = (path p ++ map AKey (vals ks ++ [val a])) ++ [AKey (val k)]).
  { unfold accessors_at. cbn [inside path vpath vals map fst firstn]. rewrite app_nil_r. unfold vals. rewrite !map_app. reflexivity. }
  assert (HV : vals (ks ++ [(a, eq)]) = vals ks ++ [val a]) by (unfold vals; rewrite map_app; reflexivity). rewrite HV in HL.
  assert (HNE : vals ks ++ [val a] <> []) by (destruct (vals ks); discriminate).
  assert (HAt := HQ _ HNE). rewrite HL in HAt. destruct (dig p _ _ t _ HK eq_refl HNE HAt) as (ak & HD & _).
  destruct (key_context_at (offset p) ks a eq []) as (cc & HCC & _).
  unfold to_dotted. rewrite HAcc. rewrite app_length. cbn [length]. rewrite app_length, map_length, app_length. cbn [length]. rewrite !vals_length.
    destruct (Nat.ltb_spec (length (path p) + (length ks + 1) + 1) 2); [lia|]. replace (length (path p) + (length ks + 1) + 1 - 2) with (length (path p) + length ks) by lia.
    unfold contexts_at. cbn [inside contexts vcontexts]. rewrite app_nil_r, <- app_assoc. rewrite nth_error_app2 by (rewrite <- path_length; lia). rewrite <- path_length. replace (length (path p) + length ks - length (path p)) with (length ks) by lia.
    rewrite nth_error_app1 by (rewrite key_contexts_length, app_length; cbn; lia). rewrite HCC. rewrite removelast_last, HD. reflexivity.
Qed.
Print Assumptions C68_comments_kept.
(** The keys of the header of a table are not turned into an inline table. *)
Theorem C68_headers_kept : forall t accessors contexts pr,
  nth_error contexts (length accessors - 2) = Some (CKey Header pr) -> to_inline t accessors contexts = None.
Proof.
  intros t accessors contexts pr H. unfold to_inline. destruct (length accessors <? 2); [reflexivity|]. rewrite H.
  destruct (dig_accessors t (removelast accessors)) as [[[?|?] [? ?|? ? ?|? ? ? [|[[? ?] ?] [|? ?]]]]|]; reflexivity.
Qed.
Print Assumptions C68_headers_kept.

(** [a.b = 1] becomes [a = { b = 1 }]: the cursor is at the key [k] after [a], [k] is a bare key, and no other key/value of the same table begins
    with the same keys up to [a]. If the document has no errors then the action is offered; after its edits the text is the same but with an
    inline table; the key [a], which is written anew, is written as TOML demands; and the document says the same. *)
Theorem C68_to_inline_partial : forall version p ks a s1 k s2 r v t,
  let before := plug p (ks ++ (a, s1) :: (k, s2) :: r, v) in
  let a' := Key (to_key_string (val a)) (val a) in
  let after := plug p (ks ++ [(a', lit " = ")], LInline (lit " ") false [(((k, match r with [] => lit " = " | _ => lit "." end) :: r, v), lit " ")]) in
  keyed p -> (forall x, In x (siblings p) -> ~ begins (vals (ks ++ [(a, s1)])) (vals (fst (fst x)))) -> raw k = val k ->
  Forall is_scalar (val a) -> Forall (decodable_by (negb (is_v1_0_0 version))) (val a) -> ~ placeholder (val a) ->
  tree before = Some t ->
  exists es, to_inline t (accessors_at p (ks ++ (a, s1) :: (k, s2) :: r) (length ks + 2)) (contexts_at p (ks ++ (a, s1) :: (k, s2) :: r) (length ks + 2)) = Some es /\
    apply_edits es (doc_text before) = doc_text after /\
    spelled version a' /\
    forall x, says before = Some x -> says after = Some x.
Proof.
  intros version p ks a s1 k s2 r v t before a' after HK HS Hbare Hsc Hdec Hpl HT.
  destruct (container p _ _ HK HT) as (k0 & r0 & s0 & la & lb & c & HM & HA & HBb & HQ). cbn [fst snd] in HM.
  destruct (merge_all_some _ _ _ _ _ HM) as [y HY]. match type of HY with option_map _ ?x = _ => destruct x as [z|] eqn:EZ; [|discriminate HY] end. clear y HY. cbn [option_map] in HM.
  assert (HKS : ks ++ (a, s1) :: (k, s2) :: r = (ks ++ [(a, s1)]) ++ (k, s2) :: r) by (rewrite <- app_assoc; reflexivity).
  set (o2 := offset p + length (keys_text (ks ++ [(a, s1)]))).
  assert (HL : look (vals (ks ++ [(a, s1)])) c = Some (kv_table o2 ((k, s2) :: r) z)).
  { rewrite HKS in HM. eapply found_open; [eapply tree_closed; exact EZ|destruct ks; discriminate|discriminate| |exact HM].
    assert (HF : forall x, In (Some x) (la ++ lb) -> from (siblings p) x).
    { intros x Hx. rewrite siblings_eq. apply in_app_or in Hx as [Hx|Hx]; [destruct (HA x Hx) as (o & ks' & v' & g & y & o' & I1 & I2 & I3)|destruct (HBb x Hx) as (o & ks' & v' & g & y & o' & I1 & I2 & I3)];
      exists o, ks', v', g, y, o'; (split; [apply in_or_app; auto|auto]). }
    intros x Hx. destruct (HF x Hx) as (o & ks' & v' & g & y & o' & I1 & I2 & ->). exists o, ks', y. split; [|split; [eapply tree_closed; exact I2|split; [|reflexivity]]].
    - destruct p; cbn [keyed] in HK; destruct HK as [HK _]; exact (HK _ I1).
    - exact (HS _ I1). }
  assert (EZ2 : tree_of (o2 + length (keys_text ((k, s2) :: r))) v = Some z). { rewrite <- EZ. f_equal. rewrite HKS, (keys_app (ks ++ [(a, s1)])), app_length. unfold o2. lia. }
  destruct (kv_entry _ _ _ _ _ _ EZ2) as (kd & rg & sr & X & HE & Hk & HX1 & HX2). rewrite HE in HL.
  assert (HAcc : accessors_at p (ks ++ (a, s1) :: (k, s2) :: r) (length ks + 2) = (path p ++ map AKey (vals ks ++ [val a])) ++ [AKey (val k)]).
  { unfold accessors_at. rewrite <- app_assoc. f_equal. unfold vals. rewrite map_map, !map_app, map_map, <- app_assoc. cbn [map fst app]. rewrite firstn_app, map_length.
    rewrite firstn_all2 by (rewrite map_length; lia). replace (length ks + 2 - length ks) with 2 by lia. reflexivity. }
  assert (HV : vals (ks ++ [(a, s1)]) = vals ks ++ [val a]) by (unfold vals; rewrite map_app; reflexivity). rewrite HV in HL.
  assert (HNE : vals ks ++ [val a] <> []) by (destruct (vals ks); discriminate).
  assert (HAt := HQ _ HNE). rewrite HL in HAt. destruct (dig p _ _ t _ HK eq_refl HNE HAt) as (ak & HD & Hak). rewrite last_key in Hak. subst ak.
  destruct (key_context_at (offset p) ks a s1 ((k, s2) :: r)) as (cc & HCC & HNH).
  set (en := o2 + length (keys_text ((k, s2) :: r)) + length (text v)) in *.
  exists [((offset p + length (keys_text ks), o2 + length (raw k) + length s2), to_key_string (val a) ++ lit " = { " ++ val k ++ match r with [] => lit " = " | _ => lit "." end); ((en, en), lit " }")].
  split; [|split; [|split]].
  - unfold to_inline. rewrite HAcc. rewrite app_length. cbn [length]. rewrite app_length, map_length, app_length. cbn [length]. rewrite !vals_length.
    destruct (Nat.ltb_spec (length (path p) + (length ks + 1) + 1) 2); [lia|]. replace (length (path p) + (length ks + 1) + 1 - 2) with (length (path p) + length ks) by lia.
    unfold contexts_at. rewrite nth_error_app2 by (rewrite <- path_length; lia). rewrite <- path_length. replace (length (path p) + length ks - length (path p)) with (length ks) by lia.
    rewrite nth_error_firstn by lia. rewrite HCC. rewrite removelast_last, HD. cbn [fst snd]. rewrite HX1, HX2. cbn [fst snd]. rewrite Hk. destruct cc; try congruence; destruct r; reflexivity.
  - destruct (plug_text p) as (A & B & HLen & HTx). unfold before, after. rewrite !HTx. unfold kv_text. cbn [fst snd]. rewrite !keys_app, inline_text. cbn [apply_edits fold_right].
    unfold en, o2. rewrite keys_app, app_length, !keys_cons. change (length (keys_text [])) with 0. rewrite <- HLen.
    assert (HC : forall (x : key) (s : str) l, keys_text ((x, s) :: l) = raw x ++ s ++ keys_text l) by (intros; unfold keys_text; cbn [flat_map fst snd]; rewrite <- app_assoc; reflexivity). rewrite !HC.
    assert (HC2 : forall l (w : lval) g, items_text [((l, w), g)] = keys_text l ++ text w ++ g) by (intros; unfold items_text, kv_text; cbn [flat_map fst snd]; rewrite app_nil_r, <- app_assoc; reflexivity). rewrite HC2, HC. change (keys_text []) with (@nil N).
    match goal with |- replace ?e (replace ?e2 ?s) = _ => replace s with ((A ++ keys_text ks ++ raw a ++ s1 ++ raw k ++ s2 ++ keys_text r ++ text v) ++ [] ++ B) by (rewrite <- !app_assoc; reflexivity) end.
    rewrite (replace_at _ [] B); [|rewrite !app_length; lia|rewrite !app_length; cbn [length]; lia].
    match goal with |- replace ?e ?s = _ => replace s with ((A ++ keys_text ks) ++ (raw a ++ s1 ++ raw k ++ s2) ++ keys_text r ++ text v ++ lit " }" ++ B) by (rewrite <- !app_assoc; reflexivity) end.
    rewrite replace_at; [|rewrite !app_length; lia|rewrite !app_length; lia]. cbn [raw a']. rewrite Hbare. destruct r; rewrite <- !app_assoc; reflexivity.
  - unfold spelled, a'. cbn [raw val]. apply (C09_key_partial version (val a) Hsc Hpl Hdec).
  - unfold before, after. apply says_closed; [discriminate|reflexivity|reflexivity|]. rewrite HV in HS. exact HS.
Qed.
Print Assumptions C68_to_inline_partial.

(** ** Examples: the hypotheses can be met *)
Definition k (s : string) : key := Key (lit s) (lit s).
Definition line : str := [10%N].
(** [x.y = 0 / t = [ { z = 1, s.a = { b.c = [2] } } ]], cursor on [b] *)
Definition example_place : place :=
  InTable (InDoc [] [(([(k "x", lit "."); (k "y", lit " = ")], LScalar (lit "0")), line)] line []) [(k "t", lit " = ")]
    (VElement (lit " ") [] VHere (lit " ") []) (lit " ") false [(([(k "z", lit " = ")], LScalar (lit "1")), lit ", ")] (lit " ") [].
Example C68_dotted_example : exists t, keyed example_place /\
  tree (plug (InTable example_place [(k "s", lit "."); (k "a", lit " = ")] VHere (lit " ") false [] (lit " ") []) ([(k "b", lit "."); (k "c", lit " = ")], LArray [] [(LScalar (lit "2"), [])])) = Some t /\
  doc_text (plug (InTable example_place [(k "s", lit "."); (k "a", lit " = ")] VHere (lit " ") false [] (lit " ") []) ([(k "b", lit "."); (k "c", lit " = ")], LArray [] [(LScalar (lit "2"), [])])) =
    lit "x.y = 0" ++ line ++ lit "t = [ { z = 1, s.a = { b.c = [2] } } ]" ++ line /\
  doc_text (plug example_place ([(k "s", lit "."); (k "a", lit "."); (k "b", lit "."); (k "c", lit " = ")], LArray [] [(LScalar (lit "2"), [])])) =
    lit "x.y = 0" ++ line ++ lit "t = [ { z = 1, s.a.b.c = [2] } ]" ++ line /\
  says (plug example_place ([(k "s", lit "."); (k "a", lit "."); (k "b", lit "."); (k "c", lit " = ")], LArray [] [(LScalar (lit "2"), [])])) <> None.
Proof.
  eexists. split; [|split; [vm_compute; reflexivity|split; [reflexivity|split; [reflexivity|vm_compute; discriminate]]]].
  cbn. split; [intros x [<- |[]]; discriminate|]. split; [discriminate|]. split; [intros x [<- |[]]; discriminate|]. exact I.
Qed.
Example C68_comments_example : exists t, keyed example_place /\
  tree (plug (InTable example_place [(k "a", lit " = ")] VHere (lit " # c" ++ line) true [] (lit " ") []) ([(k "b", lit " = ")], LScalar (lit "2"))) = Some t /\
  doc_text (plug (InTable example_place [(k "a", lit " = ")] VHere (lit " # c" ++ line) true [] (lit " ") []) ([(k "b", lit " = ")], LScalar (lit "2"))) =
    lit "x.y = 0" ++ line ++ lit "t = [ { z = 1, a = { # c" ++ line ++ lit "b = 2 } } ]" ++ line.
Proof.
  eexists. split; [|split; [vm_compute; reflexivity|reflexivity]].
  cbn. split; [intros x [<- |[]]; discriminate|]. split; [discriminate|]. split; [intros x [<- |[]]; discriminate|]. exact I.
Qed.
(** and back, cursor on [b]; the key [a b] is quoted *)
Example C68_inline_example : exists t, keyed example_place /\
  (forall x, In x (siblings example_place) -> ~ begins (vals [(k "s", lit "."); (Key (lit "'a b'") (lit "a b"), lit ".")]) (vals (fst (fst x)))) /\
  Forall is_scalar (lit "a b") /\ Forall (decodable_by true) (lit "a b") /\ ~ placeholder (lit "a b") /\
  tree (plug example_place ([(k "s", lit "."); (Key (lit "'a b'") (lit "a b"), lit "."); (k "b", lit "."); (k "c", lit " = ")], LArray [] [(LScalar (lit "2"), [])])) = Some t /\
  doc_text (plug example_place ([(k "s", lit "."); (Key (to_key_string (lit "a b")) (lit "a b"), lit " = ")], LInline (lit " ") false [(([(k "b", lit "."); (k "c", lit " = ")], LArray [] [(LScalar (lit "2"), [])]), lit " ")])) =
    lit "x.y = 0" ++ line ++ lit "t = [ { z = 1, s." ++ [34%N] ++ lit "a b" ++ [34%N] ++ lit " = { b.c = [2] } } ]" ++ line.
Proof.
  eexists. split; [|split; [|split; [|split; [|split; [|split; [vm_compute; reflexivity|reflexivity]]]]]].
  - cbn. split; [intros x [<- |[]]; discriminate|]. split; [discriminate|]. split; [intros x [<- |[]]; discriminate|]. exact I.
  - intros x [<- |[]] [q H]. discriminate.
  - repeat (apply Forall_cons); try apply Forall_nil; unfold is_scalar; (split; [vm_compute; discriminate|intros [H _]; vm_compute in H; apply H; reflexivity]).
  - repeat (apply Forall_cons); try apply Forall_nil; vm_compute; intuition discriminate.
  - intros (u & H & _). discriminate.
Qed.

(** ** What the actions get wrong *)
(** the data of a text (see TextTreeProps), [None] if it is not TOML *)
Definition data_of_text (s : str) : option DocTreeSpec.data := TextTreeProps.toml_of_text Some V1_0_0 FormatterProps.chars 200 s.
(** The key after the cursor's is written without its quotes: [a."b c" = 1] becomes [a = { b c = 1 }]. *)
Theorem C68_quotes_refuted : exists d t es, tree d = Some t /\ data_of_text (doc_text d) <> None /\
  to_inline t [AKey (lit "a"); AKey (lit "b c")] [CKey Dotted (0, 1); CKey Last (2, 7)] = Some es /\
  apply_edits es (doc_text d) = lit "a = { b c = 1 }" ++ line /\ data_of_text (apply_edits es (doc_text d)) = None.
Proof.
  exists (Doc [] [(([(k "a", lit "."); (Key ([34%N] ++ lit "b c" ++ [34%N]) (lit "b c"), lit " = ")], LScalar (lit "1")), line)]). do 2 eexists.
  split; [vm_compute; reflexivity|]. split; [vm_compute; discriminate|]. split; [vm_compute; reflexivity|]. split; [vm_compute; reflexivity|]. vm_compute. reflexivity.
Qed.
Print Assumptions C68_quotes_refuted.
(** Several key/values in the table: [a.b.c = 1 / a.b.d = 2] with the cursor on the first [b] becomes [a = { b.c = 1 / a.b.d = 2 }]. *)
Theorem C68_several_refuted : exists d t es, tree d = Some t /\ data_of_text (doc_text d) <> None /\
  to_inline t [AKey (lit "a"); AKey (lit "b")] [CKey Dotted (0, 1); CKey Dotted (2, 3)] = Some es /\
  apply_edits es (doc_text d) = lit "a = { b.c = 1" ++ line ++ lit "a.b.d = 2 }" ++ line /\ data_of_text (apply_edits es (doc_text d)) <> data_of_text (doc_text d).
Proof.
  exists (Doc [] [(([(k "a", lit "."); (k "b", lit "."); (k "c", lit " = ")], LScalar (lit "1")), line); (([(k "a", lit "."); (k "b", lit "."); (k "d", lit " = ")], LScalar (lit "2")), line)]). do 2 eexists.
  split; [vm_compute; reflexivity|]. split; [vm_compute; discriminate|]. split; [vm_compute; reflexivity|]. split; [vm_compute; reflexivity|]. vm_compute. discriminate.
Qed.
Print Assumptions C68_several_refuted.
(** ... and with the cursor on the second, one of the edits ends before it begins. *)
Theorem C68_reversed_refuted : exists d t es, tree d = Some t /\ data_of_text (doc_text d) <> None /\
  to_inline t [AKey (lit "a"); AKey (lit "b")] [CKey Dotted (10, 11); CKey Dotted (12, 13)] = Some es /\
  skipn 10 (doc_text d) = lit "a.b.d = 2" ++ line /\ exists e, In e es /\ snd (fst e) < fst (fst e).
Proof.
  exists (Doc [] [(([(k "a", lit "."); (k "b", lit "."); (k "c", lit " = ")], LScalar (lit "1")), line); (([(k "a", lit "."); (k "b", lit "."); (k "d", lit " = ")], LScalar (lit "2")), line)]). do 2 eexists.
  split; [vm_compute; reflexivity|]. split; [vm_compute; discriminate|]. split; [vm_compute; reflexivity|]. split; [vm_compute; reflexivity|]. eexists. split; [left; reflexivity|]. cbn. lia.
Qed.
Print Assumptions C68_reversed_refuted.
(** An inline table with several key/values that share their first key: [a = { b.c = 1, b.d = 2 }] becomes [a.b.c = 1, b.d = 2]. *)
Theorem C68_shared_key_refuted : exists d t es, tree d = Some t /\ data_of_text (doc_text d) <> None /\
  to_dotted t [AKey (lit "a"); AKey (lit "b")] [CKey Last (0, 1); CKey Dotted (6, 7)] = Some es /\
  apply_edits es (doc_text d) = lit "a.b.c = 1, b.d = 2" ++ line /\ data_of_text (apply_edits es (doc_text d)) = None.
Proof.
  exists (Doc [] [(([(k "a", lit " = ")], LInline (lit " ") false [(([(k "b", lit "."); (k "c", lit " = ")], LScalar (lit "1")), lit ", "); (([(k "b", lit "."); (k "d", lit " = ")], LScalar (lit "2")), lit " ")]), line)]). do 2 eexists.
  split; [vm_compute; reflexivity|]. split; [vm_compute; discriminate|]. split; [vm_compute; reflexivity|]. split; [vm_compute; reflexivity|]. vm_compute. reflexivity.
Qed.
Print Assumptions C68_shared_key_refuted.
(** A quoted key that is itself kept, on the other hand, stays quoted: [a = { "b c" = 1 }] becomes [a."b c" = 1], which says the same. *)
Example C68_kept_quotes : exists d t es, tree d = Some t /\
  to_dotted t [AKey (lit "a"); AKey (lit "b c")] [CKey Last (0, 1); CKey Last (6, 11)] = Some es /\
  data_of_text (apply_edits es (doc_text d)) = data_of_text (doc_text d) /\ data_of_text (doc_text d) <> None.
Proof.
  exists (Doc [] [(([(k "a", lit " = ")], LInline (lit " ") false [(([(Key ([34%N] ++ lit "b c" ++ [34%N]) (lit "b c"), lit " = ")], LScalar (lit "1")), lit " ")]), line)]). do 2 eexists.
  split; [vm_compute; reflexivity|]. split; [vm_compute; reflexivity|]. split; [vm_compute; reflexivity|]. vm_compute. discriminate.
Qed.
