(** C65: which schemas are used for a document, and with which settings. *)
From Coq Require Import String Ascii List NArith Bool Arith Lia.
From Verif Require Import Base TomlTextProofs OverrideModel OverrideSpec OverrideProps AssociationModel.
Import ListNotations.
Open Scope list_scope.

(** * Specification *)
Section Spec.
Context {version level format lint overrides doc : Type}.
Notation entry := (@entry version level format lint overrides).
Context (load : str -> option doc).
(** an entry that matches the document and whose schema can be loaded *)
Definition usable (e : entry) : Prop := e_matches e = true /\ load (e_uri e) <> None.
(** [first_for place l e]: [e] is the first usable entry for a place: a path in the document, or [None] for the whole document *)
Definition first_for (place : option (list pattern)) (l : list entry) (e : entry) : Prop :=
  exists before after, l = before ++ e :: after /\ usable e /\ e_sub e = place /\ forall x, In x before -> usable x -> e_sub x <> place.
(** the entries in use are the first ones for their places *)
Definition in_use (l : list entry) (e : entry) : Prop := first_for (e_sub e) l e.
(** the very first of these *)
Definition first_in_use (l : list entry) (e : entry) : Prop :=
  exists before after, l = before ++ e :: after /\ usable e /\ forall x, In x before -> ~ usable x.
(** whether an entry is strict: its own setting, else that of the entry for the whole document, else that for all schemas, else yes *)
Inductive strictness (general : option bool) (l : list entry) (e : entry) : bool -> Prop :=
| strict_own b : e_strict e = Some b -> strictness general l e b
| strict_root r b : e_strict e = None -> first_for None l r -> e_strict r = Some b -> strictness general l e b
| strict_general b : e_strict e = None -> (forall r, first_for None l r -> e_strict r = None) -> general = Some b -> strictness general l e b
| strict_default : e_strict e = None -> (forall r, first_for None l r -> e_strict r = None) -> general = None -> strictness general l e true.
(** the first of a list of choices that is made *)
Inductive first_made {A} : list (option A) -> option A -> Prop :=
| made_none : first_made [] None
| made_here a l : first_made (Some a :: l) (Some a)
| made_later l a : first_made l a -> first_made (None :: l) a.
End Spec.

(** * Proofs *)
Lemma eqb_refl_str a : str_eqb a a = true.
Proof. apply str_eqb_eq. reflexivity. Qed.
Lemma pattern_eqb_eq p q : pattern_eqb p q = true <-> p = q.
Proof.
  destruct p, q; cbn [pattern_eqb]; split; intros H; try discriminate; try reflexivity; try congruence.
  - apply str_eqb_eq in H. congruence.
  - injection H as ->. apply eqb_refl_str.
  - apply N.eqb_eq in H. congruence.
  - injection H as ->. apply N.eqb_refl.
Qed.
Lemma patterns_eqb_eq p : forall q, patterns_eqb p q = true <-> p = q.
Proof.
  induction p as [|a p IH]; intros [|b q]; cbn [patterns_eqb]; split; intros H; try discriminate; try reflexivity.
  - apply andb_true_iff in H as [H1 H2]. apply pattern_eqb_eq in H1. apply IH in H2. congruence.
  - injection H as -> ->. rewrite (proj2 (pattern_eqb_eq b b) eq_refl). cbn [andb]. apply IH. reflexivity.
Qed.
Section Maps.
Context {K A : Type} (eqb : K -> K -> bool) (HE : forall a b, eqb a b = true <-> a = b).
Lemma get_put k a (m : list (K * A)) q : get eqb q (put eqb k a m) = if eqb q k then Some a else get eqb q m.
Proof.
  induction m as [|[k' a'] m IH]; cbn [put get]; [reflexivity|]. destruct (eqb k k') eqn:E; cbn [get].
  - apply HE in E as ->. destruct (eqb q k'); reflexivity.
  - destruct (eqb q k') eqn:E'; [|exact IH]. apply HE in E' as ->. destruct (eqb k' k) eqn:E2; [|reflexivity]. apply HE in E2 as ->. rewrite (proj2 (HE k k) eq_refl) in E. discriminate.
Qed.
End Maps.
Lemma get_map {A B} (f : list pattern -> A -> B) a (m : list (list pattern * A)) :
  get patterns_eqb a (map (fun l => (fst l, f (fst l) (snd l))) m) = option_map (f a) (get patterns_eqb a m).
Proof. induction m as [|[k x] m IH]; cbn [map get fst snd option_map]; [reflexivity|]. destruct (patterns_eqb a k) eqn:E; [apply patterns_eqb_eq in E as ->; reflexivity|exact IH]. Qed.

Section Proofs.
Context {version level format lint overrides doc : Type}.
Notation entry := (@entry version level format lint overrides).
Notation source := (@source version level format lint overrides doc).
Context (load : str -> option doc) (doc_uri : doc -> str) (doc_version : doc -> option version) (key : str -> str) (store_strict : option bool).
Notation step := (step load doc_uri doc_version key store_strict).
Notation usable := (usable load).
(** the entries taken from a list: the first usable ones for their places, in order *)
Inductive taken : list entry -> list entry -> Prop :=
| taken_nil : taken [] []
| taken_new l us e : taken l us -> usable e -> (forall x, In x us -> e_sub x <> e_sub e) -> taken (l ++ [e]) (us ++ [e])
| taken_not l us e : taken l us -> (~ usable e \/ exists x, In x us /\ e_sub x = e_sub e) -> taken (l ++ [e]) us.
Lemma taken_in l us : taken l us -> (forall e, In e us -> in_use load l e) /\ (forall e, In e l -> usable e -> exists x, In x us /\ e_sub x = e_sub e) /\ forall e, In e us -> In e l /\ usable e.
Proof.
  induction 1 as [|l us e HT IH HU HN|l us e HT IH HC].
  - split; [intros e []|split; intros e []].
  - destruct IH as (I1 & I2 & I3). split; [|split].
    + intros x Hx. apply in_app_or in Hx as [Hx|[<- |[]]].
      * destruct (I1 x Hx) as (b & a & -> & HUx & _ & HB). exists b, (a ++ [e]). split; [rewrite <- app_assoc; reflexivity|]. auto.
      * exists l, []. split; [reflexivity|]. split; [exact HU|]. split; [reflexivity|]. intros y Hy Hu. destruct (I2 y Hy Hu) as (z & Hz & <-). exact (HN z Hz).
    + intros x Hx Hu. apply in_app_or in Hx as [Hx|[<- |[]]].
      * destruct (I2 x Hx Hu) as (z & Hz & Ez). exists z. split; [apply in_or_app; left; exact Hz|exact Ez].
      * exists e. split; [apply in_or_app; right; left; reflexivity|reflexivity].
    + intros x Hx. apply in_app_or in Hx as [Hx|[<- |[]]]; [destruct (I3 x Hx); split; [apply in_or_app; left|]; assumption|]. split; [apply in_or_app; right; left; reflexivity|exact HU].
  - destruct IH as (I1 & I2 & I3). split; [|split].
    + intros x Hx. destruct (I1 x Hx) as (b & a & -> & HUx & _ & HB). exists b, (a ++ [e]). split; [rewrite <- app_assoc; reflexivity|]. auto.
    + intros x Hx Hu. apply in_app_or in Hx as [Hx|[<- |[]]]; [exact (I2 x Hx Hu)|]. destruct HC as [HC|HC]; [contradiction|exact HC].
    + intros x Hx. destruct (I3 x Hx). split; [apply in_or_app; left|]; assumption.
Qed.
Lemma first_unique place (l : list entry) e e' : first_for load place l e -> first_for load place l e' -> e = e'.
Proof.
  intros (b & a & -> & HU & HS & HB) (b' & a' & E & HU' & HS' & HB'). revert b' E HB'. induction b as [|x b IH]; intros [|y b'] E HB'; cbn [app] in E.
  - injection E as <- _. reflexivity.
  - injection E as -> E. exfalso. exact (HB' y (or_introl eq_refl) HU HS).
  - injection E as -> E. exfalso. exact (HB e' (or_introl eq_refl) HU' HS').
  - injection E as -> E. apply (IH (fun z Hz => HB z (or_intror Hz)) b' E). intros z Hz. apply HB'. right. exact Hz.
Qed.
Lemma taken_first l us place e : taken l us -> (In e us /\ e_sub e = place <-> first_for load place l e).
Proof.
  intros HT. destruct (taken_in l us HT) as (I1 & I2 & I3). split.
  - intros [Hi <-]. exact (I1 e Hi).
  - intros HF. pose proof HF as (b & a & E & HU & HS & _). assert (Hl : In e l) by (rewrite E; apply in_elt). destruct (I2 e Hl HU) as (x & Hx & Ex).
    assert (x = e). { apply (first_unique place l); [|exact HF]. rewrite <- HS, <- Ex. exact (I1 x Hx). } subst x. auto.
Qed.

(** [find] for a place *)
Definition place_eqb (a b : option (list pattern)) : bool :=
  match a, b with Some a, Some b => patterns_eqb a b | None, None => true | _, _ => false end.
Lemma place_eqb_eq a b : place_eqb a b = true <-> a = b.
Proof.
  destruct a as [a|], b as [b|]; cbn [place_eqb]; try (split; congruence). rewrite patterns_eqb_eq. split; congruence.
Qed.
Definition at_place (place : option (list pattern)) (us : list entry) : option entry := find (fun e => place_eqb place (e_sub e)) us.
Lemma at_place_snoc place us e : at_place place (us ++ [e]) = match at_place place us with Some x => Some x | None => if place_eqb place (e_sub e) then Some e else None end.
Proof. unfold at_place. induction us as [|x us IH]; cbn [find app]; [reflexivity|]. destruct (place_eqb place (e_sub x)); [reflexivity|exact IH]. Qed.
Lemma at_place_none place us : at_place place us = None -> forall x, In x us -> e_sub x <> place.
Proof. intros H x Hx E. apply (find_none _ _ H) in Hx. rewrite (proj2 (place_eqb_eq place (e_sub x)) (eq_sym E)) in Hx. discriminate. Qed.
Lemma at_place_some place us e : at_place place us = Some e -> In e us /\ e_sub e = place.
Proof. intros H. apply find_some in H as [H1 H2]. apply place_eqb_eq in H2. auto. Qed.
Lemma at_place_absent place us : (forall x, In x us -> e_sub x <> place) -> at_place place us = None.
Proof. intros H. destruct (at_place place us) as [x|] eqn:E; [|reflexivity]. apply at_place_some in E as [E1 E2]. destruct (H x E1 E2). Qed.
Lemma taken_at l us place e : taken l us -> (at_place place us = Some e <-> first_for load place l e).
Proof.
  intros HT. split.
  - intros H. apply at_place_some in H. apply (taken_first l us place e HT). exact H.
  - intros H. pose proof (proj2 (taken_first l us place e HT) H) as [Hi Hp]. destruct (at_place place us) as [x|] eqn:E; [|destruct (at_place_none _ _ E e Hi Hp)].
    apply at_place_some in E. apply (taken_first l us place x HT) in E. f_equal. exact (first_unique place l x e E H).
Qed.

Definition given (A : Type) (f : entry -> option A) (k : str) (acc : option A) (e : entry) : option A :=
  match load (e_uri e) with Some d => if str_eqb k (key (doc_uri d)) then first_some (f e) acc else acc | None => acc end.
Definition last_given {A} (f : entry -> option A) (k : str) (us : list entry) : option A := fold_left (given A f k) us None.
Lemma last_given_snoc {A} (f : entry -> option A) k us e : last_given f k (us ++ [e]) = given A f k (last_given f k us) e.
Proof. unfold last_given. rewrite fold_left_app. reflexivity. Qed.
Lemma get_put_some {A} k' (o : option A) m k : get str_eqb k (put_some k' o m) = if str_eqb k k' then first_some o (get str_eqb k m) else get str_eqb k m.
Proof. destruct o as [a|]; cbn [put_some first_some]; [apply get_put; exact str_eqb_eq|]. destruct (str_eqb k k'); reflexivity. Qed.

Definition strict_of (e : entry) : bool := or_true (first_some (e_strict e) store_strict).
Definition root_of (us : list entry) : option (doc * option bool) :=
  match at_place None us with Some e => option_map (fun d => (d, e_strict e)) (load (e_uri e)) | None => None end.
Definition root_version (us : list entry) : option version := match at_place None us with Some e => e_version e | None => None end.
Definition level_of (us : list entry) : option level :=
  match at_place None us with Some e => e_level e | None => match us with e :: _ => e_level e | [] => None end end.
Definition head_version (us : list entry) : option version := match us with e :: _ => e_version e | [] => None end.
Record inv (us : list entry) (s : source) (subs : list (list pattern)) : Prop := Inv {
  inv_some : us <> [];
  inv_root : root s = root_of us;
  inv_links : forall a, get patterns_eqb a (links s) =
    match at_place (Some a) us with Some e => option_map (fun d => (doc_uri d, strict_of e)) (load (e_uri e)) | None => None end;
  inv_subs : forall a, existsb (patterns_eqb a) subs = match at_place (Some a) us with Some e => match e_strict e with None => true | _ => false end | None => false end;
  inv_version : s_version s = first_some (head_version us) (root_version us);
  inv_level : s_level s = level_of us;
  inv_formats : forall k, get str_eqb k (formats s) = last_given e_format k us;
  inv_lints : forall k, get str_eqb k (lints s) = last_given e_lint k us;
  inv_overrides : forall k, get str_eqb k (all_overrides s) = last_given (fun e => Some (e_overrides e)) k us }.

Definition reached (us : list entry) (st : option source * list (list pattern)) : Prop :=
  match fst st with None => us = [] /\ snd st = [] | Some s => inv us s (snd st) end.
Definition try (st : option source * list (list pattern)) (e : entry) := if e_matches e then step st e else st.
Lemma fold_filter l : forall st, fold_left step (filter e_matches l) st = fold_left try l st.
Proof. induction l as [|e l IH]; intros st; [reflexivity|]. cbn [filter fold_left]. unfold try at 2. destruct (e_matches e); cbn [fold_left]; apply IH. Qed.

Lemma loaded_iff us st e : reached us st -> (forall x, In x us -> usable x) -> (already_loaded e (fst st) = true <-> exists x, In x us /\ e_sub x = e_sub e).
Proof.
  intros HR HU. unfold reached in HR. destruct (fst st) as [s|]; cbn [already_loaded].
  - destruct HR as [_ HRoot HLinks _ _ _ _ _ _].
    assert (K : forall place, (exists x, In x us /\ e_sub x = place) <-> exists x, at_place place us = Some x /\ load (e_uri x) <> None).
    { intros place. split.
      - intros (x & Hx & Ex). destruct (at_place place us) as [y|] eqn:E; [|destruct (at_place_none _ _ E x Hx Ex)]. exists y. split; [reflexivity|]. apply at_place_some in E as [E _]. exact (proj2 (HU y E)).
      - intros (x & Hx & _). apply at_place_some in Hx. eauto. }
    destruct (e_sub e) as [a|].
    + rewrite HLinks, K. destruct (at_place (Some a) us) as [x|]; [|split; [discriminate|intros (x & Hx & _); discriminate]].
      destruct (load (e_uri x)) as [d|] eqn:EL; cbn [option_map]; split; try discriminate; try reflexivity; [intros _; exists x; split; [reflexivity|congruence]|].
      intros (y & Hy & HL). injection Hy as <-. contradiction.
    + rewrite HRoot, K. unfold root_of. destruct (at_place None us) as [x|]; [|split; [discriminate|intros (x & Hx & _); discriminate]].
      destruct (load (e_uri x)) as [d|] eqn:EL; cbn [option_map]; split; try discriminate; try reflexivity; [intros _; exists x; split; [reflexivity|congruence]|].
      intros (y & Hy & HL). injection Hy as <-. contradiction.
  - destruct HR as [-> _]. split; [discriminate|]. intros (x & [] & _).
Qed.
Lemma given_put {A} (f : entry -> option A) (k k' : str) us e d m : load (e_uri e) = Some d -> k' = key (doc_uri d) -> get str_eqb k m = last_given f k us ->
  get str_eqb k (put_some k' (f e) m) = last_given f k (us ++ [e]).
Proof. intros HL -> HG. rewrite get_put_some, last_given_snoc, HG. unfold given. rewrite HL. reflexivity. Qed.
Lemma head_snoc us e : us <> [] -> head_version (us ++ [e]) = head_version us.
Proof. destruct us; [contradiction|reflexivity]. Qed.
Lemma first_some_none {A} (a : option A) : first_some a None = a.
Proof. destruct a; reflexivity. Qed.
Lemma existsb_snoc {A} (f : A -> bool) l a : existsb f (l ++ [a]) = existsb f l || f a.
Proof. rewrite existsb_app. cbn [existsb]. rewrite orb_false_r. reflexivity. Qed.

Lemma step_taken us st e d : reached us st -> e_matches e = true -> load (e_uri e) = Some d -> (forall x, In x us -> e_sub x <> e_sub e) -> already_loaded e (fst st) = false ->
  reached (us ++ [e]) (step st e).
Proof.
  intros HR HM HL HN HA. unfold AssociationModel.step. rewrite HA, HL.
  pose proof (at_place_absent _ _ HN) as HAb.
  assert (Hne : us ++ [e] <> []) by (destruct us; discriminate).
  destruct (e_sub e) as [a|] eqn:ES.
  - assert (HNone : at_place None (us ++ [e]) = at_place None us).
    { rewrite at_place_snoc, ES. cbn [place_eqb]. destruct (at_place None us); reflexivity. }
    assert (HSub : forall q, at_place (Some q) (us ++ [e]) = if patterns_eqb q a then Some e else at_place (Some q) us).
    { intros q. rewrite at_place_snoc, ES. cbn [place_eqb]. destruct (patterns_eqb q a) eqn:EQ; [apply patterns_eqb_eq in EQ as ->; rewrite HAb; reflexivity|]. destruct (at_place (Some q) us); reflexivity. }
    unfold reached in HR |- *. destruct (fst st) as [s|] eqn:EF; cbn [fst snd].
    + destruct HR as [I1 I2 I3 I4 I5 I6 I7 I8 I9]. constructor; cbn [root links s_version s_level formats lints all_overrides].
      * exact Hne.
      * rewrite I2. unfold root_of. rewrite HNone. reflexivity.
      * intros q. rewrite (get_put patterns_eqb patterns_eqb_eq), I3, HSub. destruct (patterns_eqb q a); [rewrite HL; reflexivity|reflexivity].
      * intros q. rewrite HSub. destruct (e_strict e) as [b|] eqn:EB.
        -- rewrite I4. destruct (patterns_eqb q a) eqn:EQ; [|reflexivity]. apply patterns_eqb_eq in EQ as ->. rewrite HAb, EB. reflexivity.
        -- rewrite existsb_snoc, I4. destruct (patterns_eqb q a) eqn:EQ; [rewrite EB, orb_true_r; reflexivity|apply orb_false_r].
      * rewrite I5, head_snoc by exact I1. unfold root_version. rewrite HNone. reflexivity.
      * rewrite I6. unfold level_of. rewrite HNone. destruct us; [contradiction|reflexivity].
      * intros k. eapply given_put; [exact HL|reflexivity|apply I7].
      * intros k. eapply given_put; [exact HL|reflexivity|apply I8].
      * intros k. apply (given_put (fun x => Some (e_overrides x)) k _ us e d); [exact HL|reflexivity|apply I9].
    + destruct HR as [-> HS]. constructor; cbn [root links s_version s_level formats lints all_overrides app].
      * discriminate.
      * unfold root_of. cbn [app] in HNone. rewrite HNone. reflexivity.
      * intros q. cbn [get]. cbn [app] in HSub. rewrite HSub. destruct (patterns_eqb q a); [rewrite HL; reflexivity|reflexivity].
      * intros q. cbn [app] in HSub. rewrite HSub, HS. destruct (e_strict e) as [b|] eqn:EB; cbn [app existsb].
        -- destruct (patterns_eqb q a); [rewrite EB|]; reflexivity.
        -- destruct (patterns_eqb q a); [rewrite EB|]; reflexivity.
      * unfold root_version. cbn [app] in HNone. rewrite HNone. cbn [at_place find head_version]. rewrite first_some_none. reflexivity.
      * unfold level_of. cbn [app] in HNone. rewrite HNone. reflexivity.
      * intros k. apply (given_put e_format k _ [] e d); [exact HL|reflexivity|reflexivity].
      * intros k. apply (given_put e_lint k _ [] e d); [exact HL|reflexivity|reflexivity].
      * intros k. apply (given_put (fun x => Some (e_overrides x)) k _ [] e d []); [exact HL|reflexivity|reflexivity].
  - assert (HNone : at_place None (us ++ [e]) = Some e) by (rewrite at_place_snoc, HAb, ES; reflexivity).
    assert (HSub : forall q, at_place (Some q) (us ++ [e]) = at_place (Some q) us).
    { intros q. rewrite at_place_snoc, ES. cbn [place_eqb]. destruct (at_place (Some q) us); reflexivity. }
    unfold reached in HR |- *. destruct (fst st) as [s|] eqn:EF; cbn [fst snd].
    + destruct HR as [I1 I2 I3 I4 I5 I6 I7 I8 I9]. constructor; cbn [root links s_version s_level formats lints all_overrides].
      * exact Hne.
      * unfold root_of. rewrite HNone, HL. reflexivity.
      * intros q. rewrite HSub. apply I3.
      * intros q. rewrite HSub. apply I4.
      * unfold toml_version. rewrite I2, I5, head_snoc by exact I1. unfold root_of, root_version. rewrite HNone, HAb, !first_some_none. reflexivity.
      * unfold level_of. rewrite HNone. reflexivity.
      * intros k. eapply given_put; [exact HL|reflexivity|apply I7].
      * intros k. eapply given_put; [exact HL|reflexivity|apply I8].
      * intros k. apply (given_put (fun x => Some (e_overrides x)) k _ us e d); [exact HL|reflexivity|apply I9].
    + destruct HR as [-> HS]. cbn [app] in *. constructor; cbn [root links s_version s_level formats lints all_overrides].
      * discriminate.
      * unfold root_of. rewrite HNone, HL. reflexivity.
      * intros q. rewrite HSub. reflexivity.
      * intros q. rewrite HSub, HS. reflexivity.
      * unfold root_version. rewrite HNone. cbn [head_version]. destruct (e_version e); reflexivity.
      * unfold level_of. rewrite HNone. reflexivity.
      * intros k. apply (given_put e_format k _ [] e d); [exact HL|reflexivity|reflexivity].
      * intros k. apply (given_put e_lint k _ [] e d); [exact HL|reflexivity|reflexivity].
      * intros k. apply (given_put (fun x => Some (e_overrides x)) k _ [] e d []); [exact HL|reflexivity|reflexivity].
Qed.
Lemma all_taken l : exists us, taken l us /\ reached us (fold_left try l (None, [])).
Proof.
  induction l as [|e l IH] using rev_ind; [exists []; split; [constructor|split; reflexivity]|].
  destruct IH as (us & HT & HR). destruct (taken_in _ _ HT) as (_ & _ & HU). rewrite fold_left_app. cbn [fold_left]. unfold try at 1.
  assert (HU' : forall x, In x us -> usable x) by (intros x Hx; apply HU, Hx).
  pose proof (loaded_iff us _ e HR HU') as HI.
  destruct (e_matches e) eqn:EM.
  - destruct (already_loaded e (fst (fold_left try l (None, [])))) eqn:EA.
    + exists us. split; [apply taken_not; [exact HT|right; apply HI; reflexivity]|]. unfold AssociationModel.step. rewrite EA. exact HR.
    + assert (HN : forall x, In x us -> e_sub x <> e_sub e) by (intros x Hx Ex; assert (false = true) by (apply HI; eauto); discriminate).
      destruct (load (e_uri e)) as [d|] eqn:EL.
      * exists (us ++ [e]). split; [apply taken_new; [exact HT|split; [exact EM|congruence]|exact HN]|]. eapply step_taken; eassumption.
      * exists us. split; [apply taken_not; [exact HT|left; intros [_ H]; contradiction]|]. unfold AssociationModel.step. rewrite EA, EL. exact HR.
  - exists us. split; [apply taken_not; [exact HT|left; intros [H _]; congruence]|exact HR].
Qed.
Notation from_path := (from_path load doc_uri doc_version key store_strict).
Lemma from_path_spec l : exists us, taken l us /\
  match from_path l with
  | None => us = []
  | Some s => exists s0 subs, inv us s0 subs /\ s = inherit_strict store_strict s0 subs
  end.
Proof.
  destruct (all_taken l) as (us & HT & HR). exists us. split; [exact HT|]. unfold AssociationModel.from_path. rewrite fold_filter. unfold reached in HR.
  destruct (fst (fold_left try l (None, []))) as [s|]; cbn [option_map]; [eauto|]. apply HR.
Qed.

Lemma taken_head l us : taken l us -> match us with e :: _ => first_in_use load l e | [] => forall x, In x l -> ~ usable x end.
Proof.
  induction 1 as [|l us e HT IH HU HN|l us e HT IH HC].
  - intros x [].
  - destruct us as [|u us]; cbn [app].
    + exists l, []. auto.
    + destruct IH as (b & a & -> & H). exists b, (a ++ [e]). split; [rewrite <- app_assoc; reflexivity|exact H].
  - destruct us as [|u us].
    + intros x Hx. apply in_app_or in Hx as [Hx|[<- |[]]]; [exact (IH x Hx)|]. destruct HC as [HC|(y & [] & _)]. exact HC.
    + destruct IH as (b & a & -> & H). exists b, (a ++ [e]). split; [rewrite <- app_assoc; reflexivity|exact H].
Qed.
Lemma first_in_use_unique (l : list entry) e e' : first_in_use load l e -> first_in_use load l e' -> e = e'.
Proof.
  intros (b & a & -> & HU & HB) (b' & a' & E & HU' & HB'). revert b' E HB'. induction b as [|x b IH]; intros [|y b'] E HB'; cbn [app] in E.
  - injection E as <- _. reflexivity.
  - injection E as -> E. exfalso. exact (HB' y (or_introl eq_refl) HU).
  - injection E as -> E. exfalso. exact (HB e' (or_introl eq_refl) HU').
  - injection E as -> E. apply (IH (fun z Hz => HB z (or_intror Hz)) b' E). intros z Hz. apply HB'. right. exact Hz.
Qed.
Lemma only_given {A} (f : entry -> option A) k us e d : load (e_uri e) = Some d -> key (doc_uri d) = k -> In e us -> 
  (forall x d', In x us -> load (e_uri x) = Some d' -> key (doc_uri d') = k -> x = e) ->
  last_given f k us = f e.
Proof.
  intros HL HK. induction us as [|x us IH] using rev_ind; intros Hi HO; [destruct Hi|]. rewrite last_given_snoc. unfold given.
  assert (HOu : forall y d', In y us -> load (e_uri y) = Some d' -> key (doc_uri d') = k -> y = e) by (intros y d' Hy; apply HO, in_or_app; left; exact Hy).
  assert (Hno : ~ In e us -> last_given f k us = None).
  { clear IH Hi HO. induction us as [|y us IH] using rev_ind; intros Hn; [reflexivity|]. rewrite last_given_snoc. unfold given.
    destruct (load (e_uri y)) as [dy|] eqn:EY; [|apply IH; [intros z d' Hz; apply HOu, in_or_app; left; exact Hz|intros H; apply Hn, in_or_app; left; exact H]].
    destruct (str_eqb k (key (doc_uri dy))) eqn:EK; [|apply IH; [intros z d' Hz; apply HOu, in_or_app; left; exact Hz|intros H; apply Hn, in_or_app; left; exact H]].
    exfalso. apply str_eqb_eq in EK. apply Hn. rewrite <- (HOu y dy); [|apply in_or_app; right; left; reflexivity|exact EY|symmetry; exact EK]. apply in_or_app; right; left; reflexivity. }
  destruct (load (e_uri x)) as [dx|] eqn:EX.
  - destruct (str_eqb k (key (doc_uri dx))) eqn:EK.
    + apply str_eqb_eq in EK. assert (x = e) by (apply (HO x dx); [apply in_or_app; right; left; reflexivity|exact EX|symmetry; exact EK]). subst x.
      destruct (f e) as [v|] eqn:EF; [reflexivity|]. cbn [first_some].
      assert (Hall : forall us', (forall y d', In y us' -> load (e_uri y) = Some d' -> key (doc_uri d') = k -> y = e) -> last_given f k us' = None).
      { intros us'. induction us' as [|y us' IH'] using rev_ind; intros HO'; [reflexivity|]. rewrite last_given_snoc. unfold given. rewrite IH' by (intros z d' Hz; apply HO', in_or_app; left; exact Hz).
        destruct (load (e_uri y)) as [dy|] eqn:EY; [|reflexivity]. destruct (str_eqb k (key (doc_uri dy))) eqn:EK'; [|reflexivity]. apply str_eqb_eq in EK'.
        rewrite (HO' y dy); [rewrite EF; reflexivity|apply in_or_app; right; left; reflexivity|exact EY|symmetry; exact EK']. }
      apply Hall, HOu.
    + apply IH; [|exact HOu]. apply in_app_or in Hi as [Hi|[-> |[]]]; [exact Hi|]. rewrite HL in EX. injection EX as <-. rewrite HK, eqb_refl_str in EK. discriminate.
  - apply IH; [|exact HOu]. apply in_app_or in Hi as [Hi|[-> |[]]]; [exact Hi|]. congruence.
Qed.
End Proofs.

(** * Theorems *)
Section Theorems.
Context {version level format lint overrides doc : Type}.
Notation entry := (@entry version level format lint overrides).
Context (load : str -> option doc) (doc_uri : doc -> str) (doc_version : doc -> option version) (key : str -> str) (general : option bool).
Notation from_path := (from_path load doc_uri doc_version key general).

Theorem C65_none : forall l : list entry, from_path l = None <-> forall e, In e l -> ~ usable load e.
Proof.
  intros l. destruct (from_path_spec load doc_uri doc_version key general l) as (us & HT & H). pose proof (taken_head load _ _ HT) as HH. destruct (from_path l) as [s|].
  - destruct H as (s0 & subs & HI & _). split; [discriminate|]. intros HN. destruct us as [|u us]; [destruct (inv_some _ _ _ _ _ _ _ HI eq_refl)|]. destruct HH as (b & a & -> & HU & _). destruct (HN u (in_elt u b a) HU).
  - subst us. split; [intros _; exact HH|reflexivity].
Qed.
Theorem C65_root : forall (l : list entry) s d b, from_path l = Some s ->
  (root s = Some (d, b) <-> exists e, first_for load None l e /\ load (e_uri e) = Some d /\ e_strict e = b).
Proof.
  intros l s d b E. destruct (from_path_spec load doc_uri doc_version key general l) as (us & HT & H). rewrite E in H. destruct H as (s0 & subs & HI & ->). cbn [inherit_strict root].
  rewrite (inv_root _ _ _ _ _ _ _ HI). unfold root_of. split.
  - destruct (at_place None us) as [e|] eqn:EA; [|discriminate]. apply (taken_at load _ _ _ _ HT) in EA. destruct (load (e_uri e)) as [d'|] eqn:EL; [|discriminate]. cbn [option_map]. intros H. injection H as <- <-. exists e. auto.
  - intros (e & HF & HL & HB). rewrite (proj2 (taken_at load _ _ _ _ HT) HF), HL. cbn [option_map]. congruence.
Qed.
Theorem C65_sub : forall (l : list entry) s a u b, from_path l = Some s ->
  (get patterns_eqb a (links s) = Some (u, b) <->
   exists e d, first_for load (Some a) l e /\ load (e_uri e) = Some d /\ u = doc_uri d /\ strictness load general l e b).
Proof.
  intros l s a u b E. destruct (from_path_spec load doc_uri doc_version key general l) as (us & HT & H). rewrite E in H. destruct H as (s0 & subs & HI & ->).
  set (st := or_true (first_some (match root s0 with Some (_, b) => b | None => None end) general)).
  assert (K : get patterns_eqb a (links (inherit_strict general s0 subs)) =
     option_map (fun l => if existsb (patterns_eqb a) subs then (fst l, st) else l) (get patterns_eqb a (links s0))).
  { cbn [inherit_strict links]. apply (get_map (fun p l => if existsb (patterns_eqb p) subs then (fst l, st) else l)). }
  rewrite K, (inv_links _ _ _ _ _ _ _ HI), (inv_subs _ _ _ _ _ _ _ HI). clear K.
  assert (HRoot : forall r, first_for load None l r -> root s0 = option_map (fun d => (d, e_strict r)) (load (e_uri r))).
  { intros r Hr. rewrite (inv_root _ _ _ _ _ _ _ HI). unfold root_of. rewrite (proj2 (taken_at load _ _ _ _ HT) Hr). reflexivity. }
  assert (HNoRoot : (forall r, ~ first_for load None l r) -> root s0 = None).
  { intros Hn. rewrite (inv_root _ _ _ _ _ _ _ HI). unfold root_of. destruct (at_place None us) as [r|] eqn:EA; [|reflexivity]. apply (taken_at load _ _ _ _ HT) in EA. destruct (Hn r EA). }
  assert (HSt : forall e, first_for load (Some a) l e -> forall b, (b = match e_strict e with None => st | Some b => b end) <-> strictness load general l e b).
  { intros e He c. unfold st. destruct (e_strict e) as [b0|] eqn:ES.
    - split; [intros ->; constructor; exact ES|]. intros HS. inversion HS; congruence.
    - destruct (at_place None us) as [r|] eqn:EA.
      + apply (taken_at load _ _ _ _ HT) in EA. rewrite (HRoot r EA). pose proof EA as (bb & aa & _ & (_ & HL) & _). destruct (load (e_uri r)) as [dr|]; [|contradiction]. cbn [option_map].
        destruct (e_strict r) as [b1|] eqn:ER; cbn [first_some or_true].
        * split; [intros ->; eapply strict_root; eassumption|]. intros HS. inversion HS as [?|r' b' _ Hr' Hb'|b' _ Hr' _|_ Hr' _]; subst; try congruence.
          -- rewrite (first_unique load None l r r' EA Hr') in ER. congruence.
          -- rewrite (Hr' r EA) in ER. discriminate.
          -- rewrite (Hr' r EA) in ER. discriminate.
        * assert (HA : forall r', first_for load None l r' -> e_strict r' = None) by (intros r' Hr'; rewrite <- (first_unique load None l r r' EA Hr'); exact ER).
          destruct general as [g|] eqn:EG; cbn [or_true]; (split; [intros ->; first [apply strict_general; [exact ES|exact HA|exact EG || reflexivity]|apply strict_default; [exact ES|exact HA|exact EG || reflexivity]]|]);
            intros HS; inversion HS as [?|r' b' _ Hr' Hb'|b' _ Hr' Hg|_ Hr' Hg]; subst; try congruence; rewrite (HA r' Hr') in Hb'; discriminate.
      + assert (Hn : forall r, ~ first_for load None l r) by (intros r Hr; apply (taken_at load _ _ _ _ HT) in Hr; congruence). rewrite (HNoRoot Hn). cbn [first_some].
        assert (HA : forall r', first_for load None l r' -> e_strict r' = None) by (intros r' Hr'; destruct (Hn r' Hr')).
        destruct general as [g|] eqn:EG; cbn [or_true]; (split; [intros ->; first [apply strict_general; [exact ES|exact HA|exact EG || reflexivity]|apply strict_default; [exact ES|exact HA|exact EG || reflexivity]]|]);
            intros HS; inversion HS as [?|r' b' _ Hr' Hb'|b' _ Hr' Hg|_ Hr' Hg]; subst; try congruence; rewrite (HA r' Hr') in Hb'; discriminate. }
  split.
  - destruct (at_place (Some a) us) as [e|] eqn:EA; [|discriminate]. apply (taken_at load _ _ _ _ HT) in EA. destruct (load (e_uri e)) as [d|] eqn:EL; [|discriminate]. cbn [option_map]. intros H. exists e, d.
    split; [exact EA|]. split; [exact EL|]. split; [destruct (e_strict e); cbn [fst] in H; congruence|]. apply (HSt e EA). destruct (e_strict e) as [b0|] eqn:ES; cbn [fst] in H; [|congruence].
    unfold strict_of in H. rewrite ES in H. cbn [first_some or_true] in H. congruence.
  - intros (e & d & HF & HL & -> & HS). rewrite (proj2 (taken_at load _ _ _ _ HT) HF), HL. cbn [option_map fst]. apply (HSt e HF) in HS. subst b.
    destruct (e_strict e) as [b0|] eqn:ES; [|reflexivity]. unfold strict_of. rewrite ES. reflexivity.
Qed.

(** The rules of the entries in use are found under the addresses of their schemas, as long as no two of them have the same address. *)
Theorem C65_rules_partial : forall (l : list entry) s e d, from_path l = Some s -> in_use load l e -> load (e_uri e) = Some d ->
  (forall x d', in_use load l x -> load (e_uri x) = Some d' -> key (doc_uri d') = key (doc_uri d) -> x = e) ->
  get str_eqb (key (doc_uri d)) (all_overrides s) = Some (e_overrides e) /\
  get str_eqb (key (doc_uri d)) (formats s) = e_format e /\
  get str_eqb (key (doc_uri d)) (lints s) = e_lint e.
Proof.
  intros l s e d E HU HL HO. destruct (from_path_spec load doc_uri doc_version key general l) as (us & HT & H). rewrite E in H. destruct H as (s0 & subs & HI & ->).
  assert (Hin : In e us) by (apply (taken_first load l us (e_sub e) e HT); exact HU).
  assert (HO' : forall x d', In x us -> load (e_uri x) = Some d' -> key (doc_uri d') = key (doc_uri d) -> x = e).
  { intros x d' Hx. apply HO. apply (taken_first load l us (e_sub x) x HT). auto. }
  cbn [inherit_strict all_overrides formats lints]. rewrite (inv_overrides _ _ _ _ _ _ _ HI), (inv_formats _ _ _ _ _ _ _ HI), (inv_lints _ _ _ _ _ _ _ HI).
  split; [|split]; [apply (only_given load doc_uri key (fun e => Some (e_overrides e)) _ us e d)|apply (only_given load doc_uri key e_format _ us e d)|apply (only_given load doc_uri key e_lint _ us e d)]; auto.
Qed.
(** Nothing is found under an address that no entry in use has. *)
Theorem C65_no_rules : forall (l : list entry) s k, from_path l = Some s ->
  (forall x d, in_use load l x -> load (e_uri x) = Some d -> key (doc_uri d) <> k) ->
  get str_eqb k (all_overrides s) = None /\ get str_eqb k (formats s) = None /\ get str_eqb k (lints s) = None.
Proof.
  intros l s k E HN. destruct (from_path_spec load doc_uri doc_version key general l) as (us & HT & H). rewrite E in H. destruct H as (s0 & subs & HI & ->).
  assert (HN' : forall x d, In x us -> load (e_uri x) = Some d -> key (doc_uri d) <> k).
  { intros x d Hx. apply HN. apply (taken_first load l us (e_sub x) x HT). auto. }
  assert (K : forall A (f : entry -> option A), last_given load doc_uri key f k us = None).
  { intros A f. clear -HN'. induction us as [|x us IH] using rev_ind; [reflexivity|]. rewrite last_given_snoc. unfold given. rewrite IH by (intros y d Hy; apply HN', in_or_app; left; exact Hy).
    destruct (load (e_uri x)) as [d|] eqn:EL; [|reflexivity]. destruct (str_eqb k (key (doc_uri d))) eqn:EK; [|reflexivity]. apply str_eqb_eq in EK.
    destruct (HN' x d); [apply in_or_app; right; left; reflexivity|exact EL|symmetry; exact EK]. }
  cbn [inherit_strict all_overrides formats lints]. rewrite (inv_overrides _ _ _ _ _ _ _ HI), (inv_formats _ _ _ _ _ _ _ HI), (inv_lints _ _ _ _ _ _ _ HI), !K. auto.
Qed.
(** The version of TOML: that of the first entry in use, else that of the entry for the whole document, else that of its schema. *)
Theorem C65_version : forall (l : list entry) s e, from_path l = Some s -> first_in_use load l e ->
  (forall r d, first_for load None l r -> load (e_uri r) = Some d -> first_made [e_version e; e_version r; doc_version d] (toml_version doc_version s)) /\
  ((forall r, ~ first_for load None l r) -> toml_version doc_version s = e_version e).
Proof.
  intros l s e E HF. destruct (from_path_spec load doc_uri doc_version key general l) as (us & HT & H). rewrite E in H. destruct H as (s0 & subs & HI & ->).
  pose proof (taken_head load _ _ HT) as HH. destruct us as [|u us]; [destruct (inv_some _ _ _ _ _ _ _ HI eq_refl)|].
  rewrite (first_in_use_unique load l u e HH HF) in *. clear u HH. unfold toml_version. cbn [inherit_strict root s_version].
  rewrite (inv_root _ _ _ _ _ _ _ HI), (inv_version _ _ _ _ _ _ _ HI). unfold root_of, root_version. cbn [head_version]. split.
  - intros r d Hr HL. rewrite (proj2 (taken_at load _ _ _ _ HT) Hr), HL. cbn [option_map].
    destruct (e_version e); [constructor|]. apply made_later. destruct (e_version r); [constructor|]. apply made_later. cbn [first_some]. destruct (doc_version d); [constructor|]. apply made_later. constructor.
  - intros Hn. destruct (at_place None (e :: us)) as [r|] eqn:EA; [apply (taken_at load _ _ _ _ HT) in EA; destruct (Hn r EA)|]. rewrite !first_some_none. reflexivity.
Qed.
(** The level at which the schemas are given: that of the entry for the whole document, else that of the first entry in use. *)
Theorem C65_level : forall (l : list entry) s, from_path l = Some s ->
  (forall r, first_for load None l r -> s_level s = e_level r) /\
  (forall e, (forall r, ~ first_for load None l r) -> first_in_use load l e -> s_level s = e_level e).
Proof.
  intros l s E. destruct (from_path_spec load doc_uri doc_version key general l) as (us & HT & H). rewrite E in H. destruct H as (s0 & subs & HI & ->).
  pose proof (taken_head load _ _ HT) as HH. destruct us as [|u us]; [destruct (inv_some _ _ _ _ _ _ _ HI eq_refl)|].
  cbn [inherit_strict s_level]. rewrite (inv_level _ _ _ _ _ _ _ HI). unfold level_of. split.
  - intros r Hr. rewrite (proj2 (taken_at load _ _ _ _ HT) Hr). reflexivity.
  - intros e Hn He. destruct (at_place None (u :: us)) as [r|] eqn:EA; [apply (taken_at load _ _ _ _ HT) in EA; destruct (Hn r EA)|]. rewrite (first_in_use_unique load l u e HH He). reflexivity.
Qed.
(** A schema named in the document takes the place of the one for the whole document, with its [strict]; the others stay. A schema
    that cannot be had leaves the configured one in place, and an error while it is fetched is an error. *)
Notation from_directive := (from_directive load doc_uri doc_version key general).
Theorem C65_directive : forall (l : list entry) named,
  (from_directive named l = Error <-> named = Failed) /\
  forall s, from_directive named l = Answer s ->
    (forall d, named = Found d -> exists b, root s = Some (d, b) /\ (forall r, first_for load None l r -> b = e_strict r) /\ ((forall r, ~ first_for load None l r) -> b = None)) /\
    (named = NotThere -> forall x, root s = Some x <-> exists c, from_path l = Some c /\ root c = Some x) /\
    (forall a x, get patterns_eqb a (links s) = Some x <-> exists c, from_path l = Some c /\ get patterns_eqb a (links c) = Some x) /\
    (forall k x, get str_eqb k (all_overrides s) = Some x <-> exists c, from_path l = Some c /\ get str_eqb k (all_overrides c) = Some x) /\
    (forall k x, get str_eqb k (formats s) = Some x <-> exists c, from_path l = Some c /\ get str_eqb k (formats c) = Some x) /\
    (forall k x, get str_eqb k (lints s) = Some x <-> exists c, from_path l = Some c /\ get str_eqb k (lints c) = Some x).
Proof.
  intros l named. split; [destruct named; split; intros H; try discriminate; reflexivity|]. intros s HS.
  assert (K : forall A (f : source -> option A) (v : option A) (x : A), v = match from_path l with Some c => f c | None => None end ->
    (v = Some x <-> exists c, from_path l = Some c /\ f c = Some x)).
  { intros A f v x ->. destruct (from_path l) as [c|]; split; [eauto| |discriminate|]; intros (c' & E & H); congruence. }
  assert (HLinks : links s = match from_path l with Some c => links c | None => [] end /\ all_overrides s = match from_path l with Some c => all_overrides c | None => [] end /\
    formats s = match from_path l with Some c => formats c | None => [] end /\ lints s = match from_path l with Some c => lints c | None => [] end).
  { destruct named; try discriminate HS; injection HS as <-; cbn [links all_overrides formats lints]; auto. }
  destruct HLinks as (H1 & H2 & H3 & H4).
  split; [|split; [|split; [|split; [|split]]]].
  - intros d ->. injection HS as <-. cbn [root]. eexists. split; [reflexivity|].
    destruct (from_path l) as [c|] eqn:EC.
    + split.
      * intros r Hr. pose proof Hr as (bb & aa & _ & (_ & HL) & _). destruct (load (e_uri r)) as [dr|] eqn:EL; [|contradiction].
        rewrite (proj2 (C65_root l c dr (e_strict r) EC)); [reflexivity|]. exists r. auto.
      * intros Hn. destruct (root c) as [[dr b]|] eqn:ER; [|reflexivity]. apply (C65_root l c dr b EC) in ER. destruct ER as (r & Hr & _). destruct (Hn r Hr).
    + split; [|reflexivity]. intros r (bb & aa & Hl & HU & _). pose proof (proj1 (C65_none l) EC r) as Hc. exfalso. apply Hc; [rewrite Hl; apply in_elt|exact HU].
  - intros -> x. injection HS as <-. cbn [root]. apply (K _ root). destruct (from_path l) as [c|]; [|reflexivity]. destruct (root c) as [[dr b]|]; reflexivity.
  - intros a x. apply (K _ (fun c => get patterns_eqb a (links c))). rewrite H1. destruct (from_path l); reflexivity.
  - intros k x. apply (K _ (fun c => get str_eqb k (all_overrides c))). rewrite H2. destruct (from_path l); reflexivity.
  - intros k x. apply (K _ (fun c => get str_eqb k (formats c))). rewrite H3. destruct (from_path l); reflexivity.
  - intros k x. apply (K _ (fun c => get str_eqb k (lints c))). rewrite H4. destruct (from_path l); reflexivity.
Qed.
End Theorems.
Print Assumptions C65_none. Print Assumptions C65_root. Print Assumptions C65_sub. Print Assumptions C65_rules_partial. Print Assumptions C65_no_rules.
Print Assumptions C65_version. Print Assumptions C65_level. Print Assumptions C65_directive.
(** The [root] of an entry in the documented notation is the place where the entry applies; without one it is the whole document. *)
Theorem C65_place : (forall t ps, path_text t ps -> sub_root (Some t) = Some ps) /\ sub_root None = None.
Proof. split; [|reflexivity]. intros t ps H. unfold sub_root. rewrite (C64_read t ps H). reflexivity. Qed.
Print Assumptions C65_place.

(** * Examples: three entries; the schemas are their addresses, except that [missing] cannot be loaded *)
Definition load_ex (u : str) : option str := if str_eqb u (lit "missing") then None else Some u.
Definition entry_ex (u : str) (sub : option str) (strict : option bool) (v : option N) (rules : N) : @entry N N N N N :=
  Entry u true (sub_root sub) strict v None (Some rules) (Some rules) rules.
Definition entries_ex := [entry_ex (lit "missing") None None None 1; entry_ex (lit "tool") (Some (lit "tool.x")) None (Some 1%N) 2;
                          entry_ex (lit "root") None (Some false) (Some 2%N) 3; entry_ex (lit "late") (Some (lit "tool.x")) None None 4].
Definition path_ex (l : list (@entry N N N N N)) := from_path load_ex (fun d => d) (fun _ => None) (fun u => u) None l.
Definition place_ex : list pattern := [PKey (lit "tool"); PKey (lit "x")].
Example C65_example : exists s, path_ex entries_ex = Some s /\ root s = Some (lit "root", Some false) /\
  get patterns_eqb place_ex (links s) = Some (lit "tool", false) /\
  get str_eqb (lit "tool") (all_overrides s) = Some 2%N /\ get str_eqb (lit "root") (formats s) = Some 3%N /\ get str_eqb (lit "late") (lints s) = None.
Proof. eexists. split; [vm_compute; reflexivity|]. vm_compute. auto. Qed.
Example C65_example_hypotheses :
  first_for load_ex None entries_ex (nth 2 entries_ex (entry_ex [] None None None 0)) /\
  first_for load_ex (Some place_ex) entries_ex (nth 1 entries_ex (entry_ex [] None None None 0)) /\
  first_in_use load_ex entries_ex (nth 1 entries_ex (entry_ex [] None None None 0)).
Proof.
  split; [|split].
  - exists (firstn 2 entries_ex), (skipn 3 entries_ex). split; [reflexivity|]. split; [split; [reflexivity|discriminate]|]. split; [reflexivity|]. intros x [<- |[<- |[]]] [_ H]; [destruct (H eq_refl)|discriminate].
  - exists (firstn 1 entries_ex), (skipn 2 entries_ex). split; [reflexivity|]. split; [split; [reflexivity|discriminate]|]. split; [vm_compute; reflexivity|]. intros x [<- |[]] [_ H]. destruct (H eq_refl).
  - exists (firstn 1 entries_ex), (skipn 2 entries_ex). split; [reflexivity|]. split; [split; [reflexivity|discriminate]|]. intros x [<- |[]] [_ H]. destruct (H eq_refl).
Qed.

(** * What the code does otherwise
    One schema for two places: the rules of the later entry apply to both. *)
Definition twice_ex := [entry_ex (lit "u") (Some (lit "a")) None None 1; entry_ex (lit "u") (Some (lit "b")) None None 2].
Theorem C65_same_schema_refuted : exists s, path_ex twice_ex = Some s /\
  in_use load_ex twice_ex (nth 0 twice_ex (entry_ex [] None None None 0)) /\
  e_overrides (nth 0 twice_ex (entry_ex [] None None None 0)) = 1%N /\ get str_eqb (lit "u") (all_overrides s) = Some 2%N.
Proof.
  eexists. split; [vm_compute; reflexivity|]. split; [|split; reflexivity]. exists [], (skipn 1 twice_ex). split; [reflexivity|]. split; [split; [reflexivity|discriminate]|]. split; [reflexivity|]. intros x [].
Qed.
Print Assumptions C65_same_schema_refuted.
(** The version that the entry for a part of the document gives counts for all of it, when it stands first. *)
Theorem C65_version_refuted : exists s, path_ex entries_ex = Some s /\ toml_version (fun _ => None) s = Some 1%N /\
  e_version (nth 2 entries_ex (entry_ex [] None None None 0)) = Some 2%N /\ e_sub (nth 2 entries_ex (entry_ex [] None None None 0)) = None.
Proof. eexists. split; [vm_compute; reflexivity|]. vm_compute. auto. Qed.
Print Assumptions C65_version_refuted.
(** A document that names its schema is read in the version of the configured schema, which is not in use, not in that of the schema named. *)
Theorem C65_directive_version_refuted : let versions u := if str_eqb u (lit "named") then Some 1%N else Some 0%N in
  exists s, from_directive load_ex (fun d => d) versions (fun u => u) None (Found (lit "named")) [entry_ex (lit "root") None None None 3] = Answer s /\
    root s = Some (lit "named", None) /\ versions (lit "named") = Some 1%N /\ toml_version versions s = Some 0%N.
Proof. eexists. split; [vm_compute; reflexivity|]. vm_compute. auto. Qed.
Print Assumptions C65_directive_version_refuted.
(** An entry for a part of the document whose [root] cannot be read applies to the whole document. *)
Theorem C65_place_refuted : sub_root (Some (lit "tool[")) = None /\ sub_root (Some (lit "tool.[x]")) = None /\
  exists s, path_ex [entry_ex (lit "u") (Some (lit "tool[")) None None 1] = Some s /\ root s = Some (lit "u", None).
Proof. split; [vm_compute; reflexivity|]. split; [vm_compute; reflexivity|]. eexists. split; vm_compute; reflexivity. Qed.
Print Assumptions C65_place_refuted.
