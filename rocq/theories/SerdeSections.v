(** The sections the serializer writes for a document, and what they mean together. *)
From Coq Require Import String Ascii List NArith ZArith Bool Arith Lia Sorting.Permutation.
From Verif Require Import Base SyntaxKind TextModel LexerModel TomlTextModel NumberModel DateTimeModel ParserModel FormatPieces FormatterModel FormatterLayout FormatterSpec FormatterRelex ParseBack ReadBack TextTreeModel TextTreeProofs
  SerdeModel SerdeSpec SerdeTokens SerdeBack SerdeLayout.
From Verif Require DocTreeModel.
From Verif Require Import DocTreeSpec.
Import ListNotations.
Open Scope N_scope.
Open Scope list_scope.

Record sect := Sect { st_array : bool; st_header : list dkey; st_entries : list (dkey * dvalue) }.
Definition plain_entries (es : list (dkey * dvalue)) : list (dkey * dvalue) := filter (fun e => negb (has_header (snd e))) es.
Definition header_entries (es : list (dkey * dvalue)) : list (dkey * dvalue) := filter (fun e => has_header (snd e)) es.
Definition only_header (es : list (dkey * dvalue)) : bool := match es with [e] => has_header (snd e) | _ => false end.
Definition row_entries (r : dvalue) : list (dkey * dvalue) := match r with DvTable _ es => es | _ => [] end.
Fixpoint secs (v : dvalue) (parents : list dkey) : list sect :=
  match v with
  | DvArray KArrayOfTable rows => map (fun r => Sect true parents (row_entries r)) rows
  | DvTable KTable es =>
      let below := flat_map (fun e => if has_header (snd e) then secs (snd e) (parents ++ [fst e]) else []) es in
      if only_header es then below else Sect false parents (plain_entries es) :: below
  | _ => []
  end.
Definition below (es : list (dkey * dvalue)) (parents : list dkey) : list sect :=
  flat_map (fun e => if has_header (snd e) then secs (snd e) (parents ++ [fst e]) else []) es.
Lemma secs_table es parents : secs (DvTable KTable es) parents = if only_header es then below es parents else Sect false parents (plain_entries es) :: below es parents.
Proof. reflexivity. Qed.
Lemma flat_map_map {A B C} (g : B -> list C) (f : A -> B) l : flat_map g (map f l) = flat_map (fun x => g (f x)) l.
Proof. induction l as [|x l IH]; [reflexivity|]. cbn [map flat_map]. rewrite IH. reflexivity. Qed.
Lemma flat_map_flat_map {A B C} (g : B -> list C) (f : A -> list B) l : flat_map g (flat_map f l) = flat_map (fun x => flat_map g (f x)) l.
Proof. induction l as [|x l IH]; [reflexivity|]. cbn [flat_map]. rewrite flat_map_app, IH. reflexivity. Qed.
Definition prefixed (p : list dkey) (s : sect) : sect := Sect (st_array s) (p ++ st_header s) (st_entries s).
Lemma map_flat_map {A B C} (f : B -> C) (g : A -> list B) l : map f (flat_map g l) = flat_map (fun x => map f (g x)) l.
Proof. induction l as [|x l IH]; [reflexivity|]. cbn [flat_map]. rewrite map_app, IH. reflexivity. Qed.
Lemma secs_prefix p : forall v q, secs v (p ++ q) = map (prefixed p) (secs v q).
Proof.
  fix IH 1. intros [s|[|] vs|[| |] es] q; try reflexivity.
  - cbn [secs]. rewrite map_map. reflexivity.
  - cbn [secs]. assert (E : flat_map (fun e => if has_header (snd e) then secs (snd e) ((p ++ q) ++ [fst e]) else []) es =
      map (prefixed p) (flat_map (fun e => if has_header (snd e) then secs (snd e) (q ++ [fst e]) else []) es)).
    { induction es as [|[k x] es IHe]; [reflexivity|]. cbn [flat_map fst snd]. rewrite map_app, <- IHe. f_equal. destruct (has_header x); [|reflexivity]. rewrite <- app_assoc. apply IH. }
    rewrite E. destruct (only_header es); reflexivity.
Qed.
Lemma below_prefix p es : below es p = map (prefixed p) (below es []).
Proof.
  unfold below. rewrite map_flat_map. apply flat_map_ext. intros [k x]. cbn [fst snd]. destruct (has_header x); [|reflexivity]. apply (secs_prefix p x [k]).
Qed.

Section Sections.
Context (show : list N -> str) (fl : str -> option (list N)).
Notation inl := (inline_ok show fl).
Notation tab := (table_ok show fl).

(** * The text *)
Definition line (e : dkey * dvalue) : list piece := entry_pieces (vp show) e ++ [nl [10]].
Definition header_pieces (a : bool) (ks : list dkey) : list piece := brackets a (BRACKET_START, [91]) ++ keys_content (map key_token ks) ++ brackets a (BRACKET_END, [93]).
Definition sect_pieces (s : sect) : list piece := header_pieces (st_array s) (st_header s) ++ nl [10] :: flat_map line (st_entries s).
Lemma path_pieces ks : path_text ks = ptext (keys_content (map key_token ks)).
Proof.
  unfold path_text. induction ks as [|k ks IH]; [reflexivity|]. destruct ks as [|k' ks]; [cbn; rewrite app_nil_r; reflexivity|].
  change (join [46] (map key_text (k :: k' :: ks))) with (key_text k ++ [46] ++ join [46] (map key_text (k' :: ks))). rewrite IH.
  change (keys_content (map key_token (k :: k' :: ks))) with (key_token k :: (DOT, [46]) :: keys_content (map key_token (k' :: ks))). unfold key_token at 2. rewrite !ptext_cons. reflexivity.
Qed.
Lemma header_text (a : bool) ks : bracketed (if a then [91; 91] else [91]) (if a then [93; 93; 10] else [93; 10]) (path_text ks) = ptext (header_pieces a ks) ++ [10].
Proof.
  unfold header_pieces, bracketed. rewrite path_pieces, !ptext_app, <- !app_assoc. destruct a; reflexivity.
Qed.
Lemma line_text e : ptext (line e) = (key_text (fst e) ++ lit " = " ++ ptext (vp show (snd e))) ++ [10].
Proof. unfold line. rewrite ptext_app. unfold entry_pieces. rewrite <- entry_text. reflexivity. Qed.
Lemma inline_not_kv v : inl v -> is_key_value v = false.
Proof. intros H. inversion H; reflexivity. Qed.
Lemma inline_no_header v : inl v -> has_header v = false.
Proof. intros H. inversion H; reflexivity. Qed.
Lemma flat_map_text {A} (f : A -> str) (g : A -> list piece) l : (forall x, In x l -> f x = ptext (g x)) -> flat_map f l = ptext (flat_map g l).
Proof.
  induction l as [|x l IH]; intros H; [reflexivity|]. cbn [flat_map]. rewrite ptext_app, H by (left; reflexivity). rewrite IH; [reflexivity|]. intros y Hy. apply H. right. exact Hy.
Qed.
Lemma plain_text es : (forall k v, In (k, v) es -> has_header v = false -> inl v) ->
  flat_map (fun e => if has_header (snd e) then [] else (if is_key_value (snd e) then text show false (snd e) [fst e] else key_text (fst e) ++ lit " = " ++ text show false (snd e) []) ++ [10]) es = ptext (flat_map line (plain_entries es)).
Proof.
  induction es as [|[k x] es IH]; intros H; [reflexivity|]. cbn [flat_map plain_entries filter fst snd]. rewrite IH by (intros k' v' Hi; apply (H k'); right; exact Hi). fold (plain_entries es). destruct (has_header x) eqn:E; [reflexivity|]. cbn [negb flat_map].
  pose proof (H k x (or_introl eq_refl) E) as HI. rewrite (inline_not_kv _ HI), (inline_text show fl _ HI). rewrite ptext_app, line_text. reflexivity.
Qed.
Lemma rows_text rows parents : (forall r, In r rows -> row_ok show fl r) -> text show false (DvArray KArrayOfTable rows) parents = ptext (flat_map sect_pieces (secs (DvArray KArrayOfTable rows) parents)).
Proof.
  intros H. cbn [text secs]. rewrite flat_map_map. apply flat_map_text. intros r Hr. destruct (H r Hr) as (k & es & -> & _ & HE). unfold sect_pieces. cbn [st_array st_header st_entries row_entries].
  rewrite ptext_app. unfold nl. rewrite ptext_cons, app_assoc, <- (header_text true). f_equal. apply flat_map_text. intros [q x] Hx. cbn [fst snd]. destruct (HE _ _ Hx) as [_ HI]. rewrite (inline_not_kv _ HI), (inline_text show fl _ HI), line_text. reflexivity.
Qed.
Definition tables_text (es : list (dkey * dvalue)) (parents : list dkey) : str := flat_map (fun e => if has_header (snd e) then text show false (snd e) (parents ++ [fst e]) else []) es.
Lemma text_table es parents : tab es -> tables_text es parents = ptext (flat_map sect_pieces (below es parents)) ->
  text show false (DvTable KTable es) parents = ptext (match parents with [] => flat_map line (plain_entries es) ++ flat_map sect_pieces (below es []) | _ => flat_map sect_pieces (secs (DvTable KTable es) parents) end).
Proof.
  intros HT HB. rewrite secs_table. cbn [text]. fold (tables_text es parents). rewrite HB. change (match es with [e] => has_header (snd e) | _ => false end) with (only_header es).
  assert (HP : forall k v, In (k, v) es -> has_header v = false -> inl v) by (inversion HT; assumption).
  rewrite (plain_text es HP). destruct (only_header es) eqn:E.
  - destruct parents; [|reflexivity]. destruct es as [|e [|]]; [discriminate E| |discriminate E]. cbn [only_header] in E. unfold plain_entries. cbn [filter]. rewrite E. reflexivity.
  - destruct parents as [|p ps]; [cbn [app]; rewrite ptext_app; reflexivity|]. cbn [flat_map]. rewrite !ptext_app. unfold sect_pieces at 2. cbn [st_array st_header st_entries]. rewrite ptext_app. unfold nl. rewrite ptext_cons.
    rewrite (app_assoc (ptext (header_pieces _ _)) [10]), <- (header_text false). rewrite <- !app_assoc. reflexivity.
Qed.
Lemma below_text es : tab es -> forall parents, tables_text es parents = ptext (flat_map sect_pieces (below es parents)).
Proof.
  induction 1 as [es HD HK HI HT IH HR]. intros parents. unfold tables_text, below. rewrite flat_map_flat_map. apply flat_map_text. intros [k x] Hx. cbn [fst snd]. destruct (has_header x) eqn:E; [|reflexivity].
  destruct x as [s|[|] vs|[| |] sub]; try discriminate E.
  - apply rows_text. apply (HR _ _ Hx).
  - rewrite (text_table sub (parents ++ [k]) (HT _ _ Hx) (IH _ _ Hx _)). destruct (parents ++ [k]) eqn:E'; [destruct parents; discriminate E'|reflexivity].
Qed.
Theorem root_text es : tab es -> text show false (DvTable KTable es) [] = ptext (flat_map line (plain_entries es) ++ flat_map sect_pieces (below es [])).
Proof. intros H. exact (text_table es [] H (below_text es H [])). Qed.
End Sections.
