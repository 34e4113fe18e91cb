(** What the sections of a document mean: the data of the document, but for the order of keys. *)
From Coq Require Import String Ascii List NArith ZArith Bool Arith Lia Sorting.Permutation.
From Verif Require Import Base SyntaxKind TextModel LexerModel TomlTextModel NumberModel DateTimeModel ParserModel FormatPieces FormatterModel FormatterLayout FormatterSpec FormatterRelex ParseBack ReadBack TextTreeModel TextTreeProofs
  SerdeModel SerdeSpec SerdeTokens SerdeBack SerdeLayout SerdeSections SerdeWhole.
From Verif Require DocTreeModel.
From Verif Require Import DocTreeSpec.
Import ListNotations.
Open Scope N_scope.
Open Scope list_scope.

(** * Association lists *)
Lemma assoc_end {A} k (x : A) E : assoc k E = None -> assoc k (E ++ [(k, x)]) = Some x.
Proof. induction E as [|[k' y] E IH]; intros H; cbn [app assoc] in *; [rewrite str_eqb_refl; reflexivity|]. destruct (str_eqb k k'); [discriminate H|]. exact (IH H). Qed.
Lemma assoc_set_end {A} k (x y : A) E : assoc k E = None -> assoc_set k y (E ++ [(k, x)]) = E ++ [(k, y)].
Proof. induction E as [|[k' z] E IH]; intros H; cbn [app assoc assoc_set] in *; [rewrite str_eqb_refl; reflexivity|]. destruct (str_eqb k k'); [discriminate H|]. rewrite (IH H). reflexivity. Qed.
Lemma assoc_assoc_set {A} k (x : A) E y : assoc k E = Some y -> assoc k (assoc_set k x E) = Some x.
Proof. induction E as [|[k' z] E IH]; intros H; cbn [assoc assoc_set] in *; [discriminate H|]. destruct (str_eqb k k') eqn:EK; cbn [assoc]; rewrite EK; [reflexivity|exact (IH H)]. Qed.
Lemma assoc_set_twice {A} k (x y : A) E : assoc_set k x (assoc_set k y E) = assoc_set k x E.
Proof. induction E as [|[k' z] E IH]; [reflexivity|]. cbn [assoc_set]. destruct (str_eqb k k') eqn:EK; cbn [assoc_set]; rewrite EK; [reflexivity|rewrite IH; reflexivity]. Qed.
Lemma assoc_set_same {A} k (x : A) E : assoc k E = Some x -> assoc_set k x E = E.
Proof. induction E as [|[k' z] E IH]; intros H; [reflexivity|]. cbn [assoc assoc_set] in *. destruct (str_eqb k k'); [injection H as ->; reflexivity|rewrite (IH H); reflexivity]. Qed.

(** * Sections below a key *)
Lemma define_all_app a b E : define_all (a ++ b) E = match define_all a E with Some E' => define_all b E' | None => None end.
Proof. revert E. induction a as [|s a IH]; intros E; [reflexivity|]. cbn [app define_all]. destruct (define _ _ _ E); [apply IH|reflexivity]. Qed.
Definition headed (s : sect) : Prop := st_header s <> [].
Notation syns := (map sect_syn).
Lemma define_under key o l : Forall headed l -> forall E sub, assoc (k_value key) E = Some (Dir o sub) ->
  define_all (syns (map (prefixed [key]) l)) E = option_map (fun sub' => assoc_set (k_value key) (Dir o sub') E) (define_all (syns l) sub).
Proof.
  induction 1 as [|s l Hs HL IH]; intros E sub HE; [cbn [map define_all option_map]; rewrite (assoc_set_same _ _ _ HE); reflexivity|].
  cbn [map define_all]. destruct s as [a h b]. unfold headed in Hs. cbn [st_header] in Hs. destruct h as [|h0 h]; [contradiction|]. unfold sect_syn at 1 2 3. unfold prefixed. cbn [DocTreeModel.s_array DocTreeModel.s_header DocTreeModel.s_body st_array st_header st_entries app map].
  set (B := eval_body _). change (define a (k_value key :: k_value h0 :: map k_value h) B E) with
    (match assoc (k_value key) E with
      | None => option_map (fun sub => E ++ [(k_value key, Dir Implicit sub)]) (define a (k_value h0 :: map k_value h) B [])
      | Some (Dir o sub) => option_map (fun sub' => assoc_set (k_value key) (Dir o sub') E) (define a (k_value h0 :: map k_value h) B sub)
      | Some (Elems ts) => option_map (fun t => assoc_set (k_value key) (Elems (removelast ts ++ [t])) E) (define a (k_value h0 :: map k_value h) B (last ts []))
      | Some (Leaf _) => None
      end). rewrite HE.
  change (DocTreeModel.s_array (sect_syn (Sect a (h0 :: h) b))) with a. change (DocTreeModel.s_header (sect_syn (Sect a (h0 :: h) b))) with (k_value h0 :: map k_value h).
  change (eval_body (DocTreeModel.s_body (sect_syn (Sect a (h0 :: h) b)))) with B.
  destruct (define a (k_value h0 :: map k_value h) B sub) as [sub1|]; [|reflexivity]. cbn [option_map]. fold (@prefixed [key]).
  etransitivity; [exact (IH _ sub1 (assoc_assoc_set _ _ _ _ HE))|]. destruct (define_all (syns l) sub1); [|reflexivity]. cbn [option_map]. rewrite assoc_set_twice. reflexivity.
Qed.
Lemma define_new key l E : Forall headed l -> l <> [] -> assoc (k_value key) E = None ->
  define_all (syns (map (prefixed [key]) l)) E = option_map (fun sub => E ++ [(k_value key, Dir Implicit sub)]) (define_all (syns l) []).
Proof.
  intros HL HN HE. destruct l as [|s l]; [contradiction|]. inversion HL as [|s0 l0 Hs HL']; subst. clear HN HL. cbn [map define_all]. destruct s as [a h b]. unfold headed in Hs. cbn [st_header] in Hs. destruct h as [|h0 h]; [contradiction|].
  change (DocTreeModel.s_array (sect_syn (prefixed [key] (Sect a (h0 :: h) b)))) with a. change (DocTreeModel.s_header (sect_syn (prefixed [key] (Sect a (h0 :: h) b)))) with (k_value key :: k_value h0 :: map k_value h).
  change (DocTreeModel.s_array (sect_syn (Sect a (h0 :: h) b))) with a. change (DocTreeModel.s_header (sect_syn (Sect a (h0 :: h) b))) with (k_value h0 :: map k_value h).
  change (DocTreeModel.s_body (sect_syn (prefixed [key] (Sect a (h0 :: h) b)))) with (DocTreeModel.s_body (sect_syn (Sect a (h0 :: h) b))). set (B := eval_body _).
  change (define a (k_value key :: k_value h0 :: map k_value h) B E) with
    (match assoc (k_value key) E with
      | None => option_map (fun sub => E ++ [(k_value key, Dir Implicit sub)]) (define a (k_value h0 :: map k_value h) B [])
      | Some (Dir o sub) => option_map (fun sub' => assoc_set (k_value key) (Dir o sub') E) (define a (k_value h0 :: map k_value h) B sub)
      | Some (Elems ts) => option_map (fun t => assoc_set (k_value key) (Elems (removelast ts ++ [t])) E) (define a (k_value h0 :: map k_value h) B (last ts []))
      | Some (Leaf _) => None
      end). rewrite HE. destruct (define a (k_value h0 :: map k_value h) B []) as [sub1|]; [|reflexivity]. cbn [option_map].
  rewrite (define_under key Implicit l HL' _ sub1 (assoc_end _ _ _ HE)). destruct (define_all (syns l) sub1); [|reflexivity]. cbn [option_map]. rewrite (assoc_set_end _ _ _ _ HE). reflexivity.
Qed.

(** * What is there after the sections of a value *)
Definition leaves (es : list (dkey * dvalue)) : list (str * node) := map (fun e => (k_value (fst e), Leaf (doc_data (snd e)))) es.
Fixpoint node_of (v : dvalue) : node :=
  match v with
  | DvTable KTable es =>
      Dir (if only_header es then Implicit else Defined)
        (leaves (plain_entries es) ++ flat_map (fun e => if has_header (snd e) then [(k_value (fst e), node_of (snd e))] else []) es)
  | DvArray KArrayOfTable rows => Elems (map (fun r => leaves (row_entries r)) rows)
  | v => Leaf (doc_data v)
  end.
Definition nodes_below (es : list (dkey * dvalue)) : list (str * node) := flat_map (fun e => if has_header (snd e) then [(k_value (fst e), node_of (snd e))] else []) es.

Section Meaning.
Context (show : list N -> str) (fl : str -> option (list N)).
Notation inl := (inline_ok show fl).
Notation tab := (table_ok show fl).

Lemma body_put es : (forall k v, In (k, v) es -> inl v) -> distinct es -> put_all (eval_body (map (fun e => ([k_value (fst e)], syn (snd e))) es)) [] = Some (leaves es).
Proof.
  intros H HD. unfold eval_body. rewrite map_map. cbn [fst snd]. rewrite (entries_put es []); [reflexivity| |exact HD]. intros k v Hi. exact (inline_eval show fl _ (H _ _ Hi)).
Qed.
Lemma plain_put es : tab es -> put_all (eval_body (map (fun e => ([k_value (fst e)], syn (snd e))) (plain_entries es))) [] = Some (leaves (plain_entries es)).
Proof.
  intros H. inversion H as [es0 HD HK HI HT HR]; subst. apply body_put.
  - intros k v Hi. apply filter_In in Hi as [Hi Hh]. apply negb_true_iff in Hh. exact (HI _ _ Hi Hh).
  - clear -HD. unfold distinct in *. induction es as [|[k v] es IH]; [constructor|]. cbn [map fst] in HD. inversion HD as [|x l H1 H2]; subst. unfold plain_entries. cbn [filter]. fold (plain_entries es). destruct (negb _); [|exact (IH H2)]. cbn [map fst]. constructor; [|exact (IH H2)].
    intros Hi. apply H1. apply in_map_iff in Hi as (e & <- & He). apply filter_In in He as [He _]. exact (in_map (fun e => k_value (fst e)) _ _ He).
Qed.
Lemma rows_more key rows : (forall r, In r rows -> row_ok show fl r) -> forall E ts, assoc (k_value key) E = Some (Elems ts) ->
  define_all (syns (map (fun r => Sect true [key] (row_entries r)) rows)) E = Some (assoc_set (k_value key) (Elems (ts ++ map (fun r => leaves (row_entries r)) rows)) E).
Proof.
  induction rows as [|r rows IH]; intros H E ts HE; [cbn [map define_all]; rewrite app_nil_r, (assoc_set_same _ _ _ HE); reflexivity|].
  destruct (H r (or_introl eq_refl)) as (q & es & -> & HD & HV). cbn [map define_all sect_syn DocTreeModel.s_array DocTreeModel.s_header DocTreeModel.s_body st_array st_header st_entries row_entries define]. rewrite HE.
  rewrite body_put; [|intros k v Hi; exact (proj2 (HV _ _ Hi))|exact HD]. cbn [option_map]. rewrite (IH ltac:(intros r Hr; apply H; right; exact Hr) _ (ts ++ [leaves es]) (assoc_assoc_set _ _ _ _ HE)).
  rewrite assoc_set_twice, <- app_assoc. reflexivity.
Qed.
Lemma rows_define key rows E : rows <> [] -> (forall r, In r rows -> row_ok show fl r) -> assoc (k_value key) E = None ->
  define_all (syns (secs (DvArray KArrayOfTable rows) [key])) E = Some (E ++ [(k_value key, node_of (DvArray KArrayOfTable rows))]).
Proof.
  intros HN H HE. destruct rows as [|r rows]; [contradiction|]. destruct (H r (or_introl eq_refl)) as (q & es & -> & HD & HV).
  cbn [secs map define_all sect_syn DocTreeModel.s_array DocTreeModel.s_header DocTreeModel.s_body st_array st_header st_entries row_entries define]. rewrite HE.
  rewrite body_put; [|intros k v Hi; exact (proj2 (HV _ _ Hi))|exact HD]. cbn [option_map]. rewrite (rows_more key rows ltac:(intros r Hr; apply H; right; exact Hr) _ [leaves es] (assoc_end _ _ _ HE)).
  rewrite (assoc_set_end _ _ _ _ HE). reflexivity.
Qed.
Lemma headed_ok es : tab es -> forall p, Forall headed (below es p).
Proof.
  induction 1 as [es HD HK HI HT IH HR]. intros p. apply Forall_flat_map. apply Forall_forall. intros [k x] Hx. cbn [fst snd]. destruct (has_header x) eqn:E; [|constructor].
  assert (HN : p ++ [k] <> []) by (destruct p; discriminate). destruct x as [s|[|] vs|[| |] sub]; try discriminate E.
  - cbn [secs]. apply Forall_map. apply Forall_forall. intros r Hr. exact HN.
  - rewrite secs_table. pose proof (IH _ _ Hx (p ++ [k])) as HB. destruct (only_header sub); [exact HB|]. constructor; [exact HN|exact HB].
Qed.
Lemma secs_some es : tab es -> forall p, only_header es = true -> below es p <> [].
Proof.
  induction 1 as [es HD HK HI HT IH HR]. intros p HO. destruct es as [|[k x] [|]]; [discriminate HO| |discriminate HO]. cbn [only_header snd] in HO. unfold below. cbn [flat_map fst snd]. rewrite HO, app_nil_r.
  destruct x as [s|[|] vs|[| |] sub]; try discriminate HO.
  - cbn [secs]. destruct (HR _ _ (or_introl eq_refl)) as [HN _]. destruct vs; [contradiction|discriminate].
  - rewrite secs_table. destruct (only_header sub) eqn:E; [exact (IH _ _ (or_introl eq_refl) _ E)|discriminate].
Qed.
(** the entries with sections of their own, one after the other *)
Lemma entries_define es : (forall k v E, In (k, v) es -> has_header v = true -> assoc (k_value k) E = None -> define_all (syns (secs v [k])) E = Some (E ++ [(k_value k, node_of v)])) ->
  distinct es -> forall E, (forall k v, In (k, v) es -> has_header v = true -> assoc (k_value k) E = None) -> define_all (syns (below es [])) E = Some (E ++ nodes_below es).
Proof.
  unfold distinct. induction es as [|[k v] es IH]; intros H HD E HE; [cbn; rewrite app_nil_r; reflexivity|]. cbn [map fst] in HD. inversion HD as [|x l H1 H2]; subst. unfold below, nodes_below. cbn [flat_map fst snd].
  fold (below es []). fold (nodes_below es). rewrite map_app, define_all_app. change ([] ++ [k]) with [k]. destruct (has_header v) eqn:EV.
  - rewrite (H k v E (or_introl eq_refl) EV (HE _ _ (or_introl eq_refl) EV)). rewrite IH; [rewrite <- app_assoc; reflexivity| |exact H2|].
    + intros k' v' E' Hi. apply H. right. exact Hi.
    + intros k' v' Hi Hv. pose proof (HE k' v' (or_intror Hi) Hv) as HN. assert (HK : str_eqb (k_value k') (k_value k) = false).
      { destruct (str_eqb (k_value k') (k_value k)) eqn:EK; [|reflexivity]. apply str_eqb_eq in EK. exfalso. apply H1. rewrite <- EK. exact (in_map (fun e => k_value (fst e)) _ _ Hi). }
      clear -HN HK. induction E as [|[q y] E IHE]; cbn [app assoc] in *; [rewrite HK; reflexivity|]. destruct (str_eqb (k_value k') q); [discriminate HN|exact (IHE HN)].
  - cbn [map define_all app]. apply IH; [|exact H2|].
    + intros k' v' E' Hi. apply H. right. exact Hi.
    + intros k' v' Hi. apply HE. right. exact Hi.
Qed.
Lemma leaf_none es k v : distinct es -> In (k, v) es -> has_header v = true -> assoc (k_value k) (leaves (plain_entries es)) = None.
Proof.
  intros HD Hi Hv. apply assoc_none. intros HK. unfold leaves in HK. rewrite map_map in HK. cbn [fst] in HK. apply in_map_iff in HK as ([k' v'] & EK & Hi'). apply filter_In in Hi' as [Hi' Hv']. cbn [fst snd] in *. apply negb_true_iff in Hv'.
  unfold distinct in HD. clear -HD Hi Hi' EK Hv Hv'. induction es as [|[q y] es IH]; [destruct Hi|]. cbn [map fst] in HD. inversion HD as [|x l H1 H2]; subst. destruct Hi as [Hi|Hi], Hi' as [Hi'|Hi'].
  - injection Hi as -> ->. injection Hi' as -> ->. rewrite Hv in Hv'. discriminate Hv'.
  - injection Hi as -> ->. apply H1. rewrite <- EK. exact (in_map (fun e => k_value (fst e)) _ _ Hi').
  - injection Hi' as -> ->. apply H1. rewrite EK. exact (in_map (fun e => k_value (fst e)) _ _ Hi).
  - exact (IH H2 Hi Hi').
Qed.
Lemma table_define es : tab es -> (forall k E, assoc (k_value k) E = None -> define_all (syns (secs (DvTable KTable es) [k])) E = Some (E ++ [(k_value k, node_of (DvTable KTable es))])) /\
  define_all (syns (below es [])) (leaves (plain_entries es)) = Some (leaves (plain_entries es) ++ nodes_below es).
Proof.
  intros H. pose proof H as HT0. induction H as [es HD HK HI HT IH HR].
  assert (HB : forall E, (forall k v, In (k, v) es -> has_header v = true -> assoc (k_value k) E = None) -> define_all (syns (below es [])) E = Some (E ++ nodes_below es)).
  { apply entries_define; [|exact HD]. intros k v E Hi Hv HE. destruct v as [s|[|] vs|[| |] sub]; try discriminate Hv.
    - destruct (HR _ _ Hi) as [HN HW]. exact (rows_define k vs E HN HW HE).
    - exact (proj1 (IH _ _ Hi (HT _ _ Hi)) k E HE). }
  assert (HP : define_all (syns (below es [])) (leaves (plain_entries es)) = Some (leaves (plain_entries es) ++ nodes_below es)) by (apply HB; intros k v Hi Hv; exact (leaf_none es k v HD Hi Hv)).
  split; [|exact HP]. intros k E HE. rewrite secs_table, (below_prefix [k]). cbn [node_of]. fold (nodes_below es). destruct (only_header es) eqn:EO.
  - rewrite (define_new k _ E (headed_ok es HT0 []) (secs_some es HT0 [] EO) HE). assert (EP : plain_entries es = []).
    { destruct es as [|e [|]]; [discriminate EO| |discriminate EO]. cbn [only_header] in EO. unfold plain_entries. cbn [filter]. rewrite EO. reflexivity. }
    rewrite EP in *. cbn [leaves map app] in HP |- *. rewrite HP. reflexivity.
  - cbn [map define_all sect_syn DocTreeModel.s_array DocTreeModel.s_header DocTreeModel.s_body st_array st_header st_entries define]. rewrite HE, (plain_put es HT0). cbn [option_map].
    rewrite (define_under k Defined _ (headed_ok es HT0 []) _ _ (assoc_end _ _ _ HE)), HP. cbn [option_map]. rewrite (assoc_set_end _ _ _ _ HE). reflexivity.
Qed.

(** * The data *)
Lemma alike_refl d : alike d d.
Proof.
  revert d. fix IH 1. intros [x|l|es]; [constructor| |].
  - constructor. induction l as [|d l IHl]; [constructor|]. constructor; [apply IH|exact IHl].
  - apply (alike_table es es es); [apply Permutation_refl|]. induction es as [|[k d] es IHe]; [constructor|]. constructor; [split; [reflexivity|apply IH]|exact IHe].
Qed.
Lemma leaves_meaning es : map (fun e => (fst e, meaning (snd e))) (leaves es) = map entry_data es.
Proof. unfold leaves. rewrite map_map. reflexivity. Qed.
Definition entry_node (e : dkey * dvalue) : str * node := (k_value (fst e), node_of (snd e)).
Lemma plain_node v : has_header v = false -> node_of v = Leaf (doc_data v).
Proof. destruct v as [s|[|] vs|[| |] es]; intros H; try reflexivity; discriminate H. Qed.
Lemma nodes_order es : Permutation (leaves (plain_entries es) ++ nodes_below es) (map entry_node es).
Proof.
  induction es as [|[k v] es IH]; [constructor|]. unfold plain_entries, nodes_below. cbn [filter flat_map map fst snd]. fold (plain_entries es). fold (nodes_below es). unfold entry_node at 1. cbn [fst snd]. destruct (has_header v) eqn:E; cbn [negb].
  - cbn [app]. apply Permutation_sym. apply Permutation_cons_app. apply Permutation_sym. exact IH.
  - cbn [leaves map app fst snd]. rewrite (plain_node v E). apply perm_skip. exact IH.
Qed.
Lemma table_alike es : tab es -> alike (table_meaning (leaves (plain_entries es) ++ nodes_below es)) (doc_data (DvTable KTable es)).
Proof.
  induction 1 as [es HD HK HI HT IH HR]. unfold table_meaning. cbn [meaning doc_data]. apply (alike_table _ (map (fun e => (fst e, meaning (snd e))) (map entry_node es))).
  - apply Permutation_map. apply nodes_order.
  - rewrite map_map. clear HD HK. assert (HA : forall k v, In (k, v) es -> alike (meaning (node_of v)) (doc_data v)).
    { intros k v Hi. destruct (has_header v) eqn:EV; [|rewrite (plain_node v EV); apply alike_refl]. destruct v as [s|[|] vs|[| |] sub]; try discriminate EV.
      - cbn [node_of meaning doc_data]. constructor. rewrite map_map. destruct (HR _ _ Hi) as [_ HW]. clear -HW. induction vs as [|r vs IHv]; [constructor|]. cbn [map]. constructor; [|apply IHv; intros x Hx; apply HW; right; exact Hx].
        destruct (HW r (or_introl eq_refl)) as (q & es & -> & _). cbn [row_entries doc_data]. rewrite leaves_meaning. apply alike_refl.
      - exact (IH _ _ Hi). }
    clear -HA. induction es as [|[k v] es IHe]; [constructor|]. cbn [map]. constructor; [split; [reflexivity|apply (HA k v); left; reflexivity]|]. apply IHe. intros k' v' Hi. apply (HA k' v'). right. exact Hi.
Qed.
Theorem document_meaning es : tab es -> exists d, toml (doc_syn es) = Some d /\ alike d (doc_data (DvTable KTable es)).
Proof.
  intros H. unfold toml, doc_syn. cbn [DocTreeModel.d_body DocTreeModel.d_sections]. rewrite (plain_put es H), (proj2 (table_define es H)). cbn [option_map]. eexists. split; [reflexivity|]. apply table_alike. exact H.
Qed.
End Meaning.
