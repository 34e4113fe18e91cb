(** The documents of the values that can be written. *)
From Coq Require Import String Ascii List NArith ZArith Bool Arith Lia.
From Verif Require Import Base SyntaxKind TextModel TomlTextModel NumberModel NumberSpec DateTimeModel DateTimeSpec DateTimeProps TextTreeModel DocTreeSpec SerdeModel SerdeSpec SerdeSerialize.
Import ListNotations.
Open Scope N_scope.
Open Scope list_scope.

(** * Entries *)
Definition own_key (e : dkey * dvalue) : Prop := fst e = key_of (k_value (fst e)).
Lemma insert_all_of (P : dkey * dvalue -> Prop) k v es : own_key (k, v) -> P (k, v) -> Forall (fun e => own_key e /\ P e) es -> Forall (fun e => own_key e /\ P e) (insert k v es).
Proof.
  intros HK HP. induction 1 as [|[k' v'] es [H1 H2] HF IH]; [constructor; [auto|constructor]|]. cbn [insert]. destruct (str_eqb (k_value k) (k_value k')) eqn:E; [|constructor; auto].
  apply str_eqb_eq in E. unfold own_key in HK, H1. cbn [fst] in HK, H1. assert (EK : k' = k) by (rewrite HK, H1, E; reflexivity). subst k'. constructor; [split; [exact HK|exact HP]|exact HF].
Qed.
Lemma insert_keys k v es : distinct es -> distinct (insert k v es) /\ (forall x, In x (map (fun e => k_value (fst e)) (insert k v es)) -> x = k_value k \/ In x (map (fun e => k_value (fst e)) es)).
Proof.
  unfold distinct. induction es as [|[k' v'] es IH]; intros H; [split; [repeat constructor; intros []|intros x [<- |[]]; left; reflexivity]|].
  cbn [map fst] in H. inversion H as [|y l H1 H2]; subst. cbn [insert]. destruct (str_eqb (k_value k) (k_value k')) eqn:E.
  - split; [exact H|]. intros x Hx. right. exact Hx.
  - destruct (IH H2) as [I1 I2]. cbn [map fst]. split.
    + constructor; [|exact I1]. intros Hi. destruct (I2 _ Hi) as [EK|Hi']; [|contradiction]. rewrite EK, str_eqb_refl in E. discriminate E.
    + intros x [<- |Hx]; [right; left; reflexivity|]. destruct (I2 _ Hx) as [-> |Hi]; [left; reflexivity|right; right; exact Hi].
Qed.
Lemma inserted P fs : forall acc, Forall (fun e => own_key e /\ P e) fs -> Forall (fun e => own_key e /\ P e) acc -> distinct acc ->
  let es := fold_left (fun es e => insert (fst e) (snd e) es) fs acc in distinct es /\ Forall (fun e => own_key e /\ P e) es.
Proof.
  induction fs as [|[k v] fs IH]; intros acc HF HA HD; [split; assumption|]. inversion HF as [|e l [H1 H2] HF']; subst. cbn [fold_left fst snd]. apply IH; [exact HF'| |].
  - apply insert_all_of; assumption.
  - apply insert_keys. exact HD.
Qed.
(** The entries of a map, if each of its fields is left out or has a value with [P] *)
Lemma entries_all (P : dkey * dvalue -> Prop) kvs : (forall k v, In (k, v) kvs -> exists s, names k s /\ (serialize v = SOk None \/ exists x, serialize v = SOk (Some x) /\ P (key_of s, x))) ->
  exists es, serialize (SMap kvs) = SOk (Some (DvTable KTable es)) /\ distinct es /\ forall k x, In (k, x) es -> P (k, x).
Proof.
  intros H. rewrite serialize_map. enough (HG : forall acc, exists fs, entries acc kvs = SOk (Some (DvTable KTable (fold_left (fun es e => insert (fst e) (snd e) es) (acc ++ fs) []))) /\ Forall (fun e => own_key e /\ P e) fs).
  { destruct (HG []) as (fs & E & HF). exists (fold_left (fun es e => insert (fst e) (snd e) es) fs []). split; [exact E|]. destruct (inserted P fs [] HF (Forall_nil _) (NoDup_nil _)) as [H1 H2]. split; [exact H1|].
    intros k x Hx. rewrite Forall_forall in H2. exact (proj2 (H2 _ Hx)). }
  induction kvs as [|[k v] kvs IH]; intros acc; [exists []; rewrite app_nil_r; split; [reflexivity|constructor]|]. destruct (H k v (or_introl eq_refl)) as (s & HN & HV). specialize (IH (fun k' v' Hi => H k' v' (or_intror Hi))).
  cbn [entries]. rewrite (names_text _ _ HN). cbn [sbind]. destruct HV as [EV|(x & EV & HP)]; rewrite EV; cbn [sbind]; [exact (IH acc)|].
  destruct (IH (acc ++ [(key_of s, x)])) as (fs & E & HF). exists ((key_of s, x) :: fs). rewrite E, <- app_assoc. split; [reflexivity|]. constructor; [|exact HF]. split; [reflexivity|exact HP].
Qed.
(** The elements of a list *)
Lemma push_forced st x : exists k y, push_element st x = (k, snd st ++ [y]) /\ force_inline y = force_inline x.
Proof. destruct st as [k vs], x as [s|k' l|k' es]; cbn [push_element fst snd]; do 2 eexists; (split; [reflexivity|]); try reflexivity; destruct k; reflexivity. Qed.
Lemma elements_forced vs : (forall v, In v vs -> exists x, serialize v = SOk (Some x)) -> forall st, exists k ys, elements st vs = SOk (Some (DvArray k (snd st ++ ys))) /\
  forall y, In y (map force_inline ys) -> exists v x, In v vs /\ serialize v = SOk (Some x) /\ y = force_inline x.
Proof.
  induction vs as [|v vs IH]; intros H st; [exists (fst st), []; rewrite app_nil_r; split; [reflexivity|intros y []]|]. destruct (H v (or_introl eq_refl)) as (x & EX). destruct (push_forced st x) as (k & y & EP & EF).
  destruct (IH (fun w Hw => H w (or_intror Hw)) (k, snd st ++ [y])) as (k' & ys & EE & HY). exists k', (y :: ys). cbn [elements]. rewrite EX. cbn [sbind]. rewrite EP, EE. cbn [snd]. rewrite <- app_assoc. split; [reflexivity|].
  cbn [map]. intros z [<- |Hz]; [exists v, x; split; [left; reflexivity|auto]|]. destruct (HY z Hz) as (v' & x' & Hi & HX). exists v', x'. split; [right; exact Hi|exact HX].
Qed.
Lemma elements_scalars vs : (forall v, In v vs -> exists s, serialize v = SOk (Some (DvScalar s))) -> forall st, (vs = [] -> fst st = KArray) -> exists ys, elements st vs = SOk (Some (DvArray KArray (snd st ++ ys))) /\
  forall y, In y ys -> exists v, In v vs /\ serialize v = SOk (Some y).
Proof.
  induction vs as [|v vs IH]; intros H st HK; [exists []; rewrite app_nil_r; cbn [elements]; rewrite (HK eq_refl); split; [reflexivity|intros y []]|]. destruct (H v (or_introl eq_refl)) as (s & EX).
  destruct (IH (fun w Hw => H w (or_intror Hw)) (KArray, snd st ++ [DvScalar s]) (fun _ => eq_refl)) as (ys & EE & HY). exists (DvScalar s :: ys). cbn [elements]. rewrite EX. cbn [sbind push_element]. rewrite EE. cbn [snd]. rewrite <- app_assoc. split; [reflexivity|].
  intros y [<- |Hy]; [exists v; split; [left; reflexivity|exact EX]|]. destruct (HY y Hy) as (v' & Hi & HX). exists v'. split; [right; exact Hi|exact HX].
Qed.
Lemma elements_tables vs : (forall v, In v vs -> exists k es, serialize v = SOk (Some (DvTable k es))) -> forall l, exists ys, elements (KArrayOfTable, l) vs = SOk (Some (DvArray KArrayOfTable (l ++ ys))) /\ length ys = length vs /\
  forall y, In y ys -> exists v, In v vs /\ serialize v = SOk (Some y).
Proof.
  induction vs as [|v vs IH]; intros H l; [exists []; rewrite app_nil_r; split; [reflexivity|split; [reflexivity|intros y []]]|]. destruct (H v (or_introl eq_refl)) as (k & es & EX).
  destruct (IH (fun w Hw => H w (or_intror Hw)) (l ++ [DvTable k es])) as (ys & EE & EL & HY). exists (DvTable k es :: ys). cbn [elements]. rewrite EX. cbn [sbind push_element fst snd]. rewrite EE, <- app_assoc. split; [reflexivity|]. split; [cbn [length]; rewrite EL; reflexivity|].
  intros y [<- |Hy]; [exists v; split; [left; reflexivity|exact EX]|]. destruct (HY y Hy) as (v' & Hi & HX). exists v'. split; [right; exact Hi|exact HX].
Qed.
Lemma ordinary_newtype name v : ordinary name -> serialize (SNewtypeStruct name v) = serialize v.
Proof. intros (H1 & H2 & H3 & H4 & H5). cbn [serialize]. rewrite !str_neqb by assumption. reflexivity. Qed.
Lemma inline_newtype v : serialize (SNewtypeStruct INLINE_NAME v) = sbind (serialize v) (fun o => SOk (option_map force_inline o)).
Proof. reflexivity. Qed.
Lemma force_twice v : force_inline (force_inline v) = force_inline v.
Proof.
  revert v. fix IH 1. intros [s|k vs|k es]; cbn [force_inline]; [reflexivity| |]; f_equal; rewrite map_map.
  - induction vs as [|v vs IHv]; [reflexivity|]. cbn [map]. rewrite IH, IHv. reflexivity.
  - cbn [fst snd]. induction es as [|[k' v] es IHe]; [reflexivity|]. cbn [map fst snd]. rewrite IH, IHe. reflexivity.
Qed.

Definition on_a_line (x : dvalue) : dvalue := match x with DvArray _ vs => DvArray KArray vs | DvTable _ es => DvTable KInline es | x => x end.
Lemma name_key s : name_ok s -> key_ok (key_of s).
Proof.
  intros [[H HD]|[H HP]]; unfold key_of.
  - replace (has_quote s) with false; [split; assumption|]. symmetry. destruct (has_quote s) eqn:E; [|reflexivity]. apply existsb_exists in E as (c & Hc & E). destruct H as [_ H]. rewrite Forall_forall in H. specialize (H c Hc).
    apply orb_true_iff in E as [E|E]; apply N.eqb_eq in E; lia.
  - replace (has_quote s) with true; [exact HP|]. symmetry. apply existsb_exists. exists 39. split; [exact H|reflexivity].
Qed.
Section Values.
Context (show : list N -> str) (fl : str -> option (list N)).
Notation inl := (inline_ok show fl).
Notation tab := (table_ok show fl).
Lemma small_scalar v : small show fl v -> exists s, serialize v = SOk (Some (DvScalar s)) /\ scalar_ok show fl s.
Proof.
  induction 1 as [b|z H|n H|f H|c H|s H|s H|v H IH|name v HO H IH|d t o H1 H2 H3|d t H1 H2|d H1|t H1].
  1, 2, 4, 5, 6, 7: eexists; split; [reflexivity|]; try exact I; exact H.
  - eexists. split; [reflexivity|]. unfold as_i64. rewrite (proj2 (N.ltb_lt n (2 ^ 63)) H). unfold scalar_ok, in_i64. change (2 ^ 63) with 9223372036854775808 in H. lia.
  - exact IH.
  - rewrite (ordinary_newtype name v HO). exact IH.
  - cbn [serialize]. change (str_eqb OFFSET_DATE_TIME_NAME OFFSET_DATE_TIME_NAME) with true. cbn [as_date_time]. rewrite print_parse_offset by assumption. eexists. split; [reflexivity|]. split; [assumption|]. split; assumption.
  - cbn [serialize]. change (str_eqb LOCAL_DATE_TIME_NAME OFFSET_DATE_TIME_NAME) with false. change (str_eqb LOCAL_DATE_TIME_NAME LOCAL_DATE_TIME_NAME) with true. cbn [as_date_time]. rewrite print_parse_local by assumption. eexists. split; [reflexivity|]. split; assumption.
  - cbn [serialize]. change (str_eqb LOCAL_DATE_NAME OFFSET_DATE_TIME_NAME) with false. change (str_eqb LOCAL_DATE_NAME LOCAL_DATE_TIME_NAME) with false. change (str_eqb LOCAL_DATE_NAME LOCAL_DATE_NAME) with true. cbn [as_date_time]. rewrite print_parse_date by assumption. eexists. split; [reflexivity|exact H1].
  - cbn [serialize]. change (str_eqb LOCAL_TIME_NAME OFFSET_DATE_TIME_NAME) with false. change (str_eqb LOCAL_TIME_NAME LOCAL_DATE_TIME_NAME) with false. change (str_eqb LOCAL_TIME_NAME LOCAL_DATE_NAME) with false. change (str_eqb LOCAL_TIME_NAME LOCAL_TIME_NAME) with true.
    cbn [as_date_time]. rewrite print_parse_time by assumption. eexists. split; [reflexivity|exact H1].
Qed.
Lemma inlined_value : forall v, inlined show fl v -> exists x, serialize v = SOk (Some x) /\ inl (force_inline x).
Proof.
  fix IH 2. intros v H. destruct H as [v H|v H|name v HO H|v H|vs H|kvs H].
  - destruct (small_scalar v H) as (s & E & HS). exists (DvScalar s). split; [exact E|constructor; exact HS].
  - exact (IH v H).
  - rewrite (ordinary_newtype name v HO). exact (IH v H).
  - rewrite inline_newtype. destruct (IH v H) as (x & E & HX). rewrite E. cbn [sbind option_map]. eexists. split; [reflexivity|]. rewrite force_twice. exact HX.
  - assert (HV : forall v, In v vs -> exists x, serialize v = SOk (Some x) /\ inl (force_inline x)) by (intros v Hv; exact (IH v (H v Hv))).
    rewrite serialize_seq. destruct (elements_forced vs (fun v Hv => match HV v Hv with ex_intro _ x (conj E _) => ex_intro _ x E end) (KArrayOfTable, [])) as (k & ys & E & HY). rewrite E. eexists. split; [reflexivity|]. cbn [force_inline snd app].
    constructor. intros y Hy. destruct (HY y Hy) as (v & x & Hv & EX & ->). destruct (HV v Hv) as (x' & EX' & HX). rewrite EX in EX'. injection EX' as <-. exact HX.
  - destruct (entries_all (fun e => key_ok (fst e) /\ inl (force_inline (snd e))) kvs) as (es & E & HD & HE).
    + intros k v Hi. destruct (H _ Hi) as (s & HN & HK & [HA|HV]); apply name_key in HK; exists s; (split; [exact HN|]).
      * left. exact (absent_none v HA).
      * right. destruct (IH v HV) as (x & EX & HX). exists x. auto.
    + exists (DvTable KTable es). split; [exact E|]. cbn [force_inline]. constructor.
      * unfold distinct. rewrite map_map. cbn [fst]. exact HD.
      * intros k x Hx. apply in_map_iff in Hx as ([k' x'] & EQ & Hx). injection EQ as <- <-. exact (proj1 (HE _ _ Hx)).
      * intros k x Hx. apply in_map_iff in Hx as ([k' x'] & EQ & Hx). injection EQ as <- <-. exact (proj2 (HE _ _ Hx)).
Qed.
Lemma elements_line vs : (forall v, In v vs -> exists y, serialize v = SOk (Some y) /\ inl (on_a_line y)) -> forall l,
  exists ys, elements (KArray, l) vs = SOk (Some (DvArray KArray (l ++ ys))) /\ forall y, In y ys -> inl y.
Proof.
  induction vs as [|v vs IH]; intros H l; [exists []; rewrite app_nil_r; split; [reflexivity|intros y []]|]. destruct (H v (or_introl eq_refl)) as (x & EX & HX).
  destruct (IH (fun w Hw => H w (or_intror Hw)) (l ++ [on_a_line x])) as (ys & EE & HY). exists (on_a_line x :: ys). cbn [elements]. rewrite EX. cbn [sbind].
  replace (push_element (KArray, l) x) with (KArray, l ++ [on_a_line x]) by (destruct x; reflexivity). rewrite EE, <- app_assoc. split; [reflexivity|].
  intros y [<- |Hy]; [exact HX|exact (HY y Hy)].
Qed.
Lemma inline_on_a_line x : inl x -> inl (on_a_line x).
Proof. destruct 1; cbn [on_a_line]; constructor; assumption. Qed.
Lemma line_value : forall v, on_line show fl v -> exists x, serialize v = SOk (Some x) /\ inl x
with row_value : forall v, a_row show fl v -> exists k es, serialize v = SOk (Some (DvTable k es)) /\ row_ok show fl (DvTable k es).
Proof.
  - intros w [v H|v H|name v HO H|v H|v vs HV H].
    + destruct (small_scalar v H) as (s & E & HS). exists (DvScalar s). split; [exact E|constructor; exact HS].
    + exact (line_value v H).
    + rewrite (ordinary_newtype name v HO). exact (line_value v H).
    + rewrite inline_newtype. destruct (inlined_value v H) as (x & E & HX). rewrite E. cbn [sbind option_map]. eexists. split; [reflexivity|exact HX].
    + rewrite serialize_seq. destruct (small_scalar v HV) as (s & E & HS). cbn [elements]. rewrite E. cbn [sbind push_element fst snd app].
      destruct (elements_line vs) with (l := [DvScalar s]) as (ys & EE & HY).
      * intros x Hx. destruct (H x Hx) as [HL|HR].
        -- destruct (line_value x HL) as (y & EY & HY). exists y. split; [exact EY|exact (inline_on_a_line y HY)].
        -- destruct (row_value x HR) as (k & es & EY & k' & es' & EQ & HD & HE). exists (DvTable k es). split; [exact EY|]. injection EQ as <- <-. cbn [on_a_line].
           constructor; [exact HD|intros q z Hz; exact (proj1 (HE q z Hz))|intros q z Hz; exact (proj2 (HE q z Hz))].
      * rewrite EE. eexists. split; [reflexivity|]. constructor. intros y [<- |Hy]; [constructor; exact HS|exact (HY y Hy)].
  - intros w [v H|name v HO H|kvs H]; [exact (row_value v H)|rewrite (ordinary_newtype name v HO); exact (row_value v H)|].
    destruct (entries_all (fun e => key_ok (fst e) /\ inl (snd e)) kvs) as (es & E & HD & HE).
    + intros k v Hi. destruct (H _ Hi) as (s & HN & HK & [HA|HV]); apply name_key in HK; exists s; (split; [exact HN|]).
      * left. exact (absent_none v HA).
      * right. destruct (line_value v HV) as (x & EX & HX). exists x. auto.
    + exists KTable, es. split; [exact E|]. exists KTable, es. split; [reflexivity|]. split; [exact HD|]. intros k x Hx. exact (HE _ _ Hx).
Qed.
Lemma list_value v : a_list show fl v -> exists rows, serialize v = SOk (Some (DvArray KArrayOfTable rows)) /\ rows <> [] /\ forall r, In r rows -> row_ok show fl r.
Proof.
  induction 1 as [v H IH|name v HO H IH|v vs H]; [exact IH|rewrite (ordinary_newtype name v HO); exact IH|]. rewrite serialize_seq.
  destruct (elements_tables (v :: vs) (fun x Hx => match row_value x (H x Hx) with ex_intro _ k (ex_intro _ es (conj E _)) => ex_intro _ k (ex_intro _ es E) end) []) as (ys & E & EL & HY). exists ys. split; [exact E|].
  split; [intros ->; discriminate EL|]. intros r Hr. destruct (HY r Hr) as (x & Hx & EX). destruct (row_value x (H x Hx)) as (k & es & E' & HR). rewrite EX in E'. injection E' as ->. exact HR.
Qed.
Lemma table_value : forall v, a_table show fl v -> exists es, serialize v = SOk (Some (DvTable KTable es)) /\ tab es.
Proof.
  fix IH 2. intros v H. destruct H as [v H|name v HO H|kvs H]; [exact (IH v H)|rewrite (ordinary_newtype name v HO); exact (IH v H)|].
  destruct (entries_all (fun e => key_ok (fst e) /\ (inl (snd e) \/ (exists sub, snd e = DvTable KTable sub /\ tab sub) \/ exists rows, snd e = DvArray KArrayOfTable rows /\ rows <> [] /\ forall r, In r rows -> row_ok show fl r)) kvs) as (es & E & HD & HE).
  - intros k v Hi. destruct (H _ Hi) as (s & HN & HK & [HA|[HV|[HV|HV]]]); apply name_key in HK; exists s; (split; [exact HN|]).
    + left. exact (absent_none v HA).
    + right. destruct (line_value v HV) as (x & EX & HX). exists x. split; [exact EX|]. split; [exact HK|]. left. exact HX.
    + right. destruct (IH v HV) as (sub & EX & HX). exists (DvTable KTable sub). split; [exact EX|]. split; [exact HK|]. right. left. exists sub. split; [reflexivity|exact HX].
    + right. destruct (list_value v HV) as (rows & EX & HX). exists (DvArray KArrayOfTable rows). split; [exact EX|]. split; [exact HK|]. right. right. exists rows. split; [reflexivity|exact HX].
  - exists es. split; [exact E|]. constructor; [exact HD|intros k x Hx; exact (proj1 (HE _ _ Hx))| | |].
    + intros k x Hx Hh. destruct (HE _ _ Hx) as [_ [HI|[(sub & ES & _)|(rows & ES & _)]]]; cbn [snd] in *; [exact HI|subst; discriminate Hh|subst; discriminate Hh].
    + intros k sub Hx. destruct (HE _ _ Hx) as [_ [HI|[(sub' & ES & HS)|(rows & ES & _)]]]; cbn [snd] in *; [inversion HI|injection ES as ->; exact HS|discriminate ES].
    + intros k rows Hx. destruct (HE _ _ Hx) as [_ [HI|[(sub' & ES & HS)|(rows' & ES & HS)]]]; cbn [snd] in *; [inversion HI|discriminate ES|injection ES as ->; exact HS].
Qed.
End Values.

(** * Depth *)
Lemma max_in {A} (f : A -> nat) x l : In x l -> (f x <= fold_right (fun x m => Nat.max (f x) m) 0%nat l)%nat.
Proof. induction l as [|y l IH]; intros H; [destruct H|]. cbn [fold_right]. destruct H as [<- |H]; [apply Nat.le_max_l|]. etransitivity; [apply IH; exact H|apply Nat.le_max_r]. Qed.
Lemma max_all {A} (f : A -> nat) n l : (forall x, In x l -> (f x <= n)%nat) -> (fold_right (fun x m => Nat.max (f x) m) 0%nat l <= n)%nat.
Proof. induction l as [|x l IH]; intros H; [apply Nat.le_0_l|]. cbn [fold_right]. apply Nat.max_lub; [apply H; left; reflexivity|]. apply IH. intros y Hy. apply H. right. exact Hy. Qed.
Lemma force_depth v : inline_depth (force_inline v) = inline_depth v.
Proof.
  revert v. fix IH 1. intros [s|k vs|k es]; cbn [force_inline inline_depth]; [reflexivity| |]; f_equal.
  - induction vs as [|v vs IHv]; [reflexivity|]. cbn [map fold_right]. rewrite IH, IHv. reflexivity.
  - induction es as [|[k' v] es IHe]; [reflexivity|]. cbn [map fold_right snd]. rewrite IH, IHe. reflexivity.
Qed.
Lemma push_depth st x : exists k y, push_element st x = (k, snd st ++ [y]) /\ inline_depth y = inline_depth x.
Proof. destruct st as [k vs], x as [s|k' l|k' es]; cbn [push_element fst snd]; do 2 eexists; (split; [reflexivity|]); try reflexivity; destruct k; reflexivity. Qed.
Lemma insert_in k v es e : In e (insert k v es) -> snd e = v \/ In e es \/ exists k', In (k', snd e) es.
Proof.
  induction es as [|[k' v'] es IH]; cbn [insert]; [intros [<- |[]]; left; reflexivity|]. destruct (str_eqb _ _).
  - intros [<- |H]; [left; reflexivity|right; left; right; exact H].
  - intros [<- |H]; [right; left; left; reflexivity|]. destruct (IH H) as [E|[Hi|(q & Hi)]]; [left; exact E|right; left; right; exact Hi|right; right; exists q; right; exact Hi].
Qed.
Lemma inserted_in fs : forall acc e, In e (fold_left (fun es e => insert (fst e) (snd e) es) fs acc) -> exists k, In (k, snd e) (fs ++ acc).
Proof.
  induction fs as [|[k v] fs IH]; intros acc e H; [exists (fst e); destruct e; exact H|]. cbn [fold_left fst snd] in H. destruct (IH _ _ H) as (q & Hi). apply in_app_or in Hi as [Hi|Hi].
  - exists q. right. apply in_or_app. left. exact Hi.
  - destruct (insert_in _ _ _ _ Hi) as [E|[Hj|(q' & Hj)]]; cbn [snd] in *.
    + exists k. left. rewrite E. reflexivity.
    + exists q. right. apply in_or_app. right. exact Hj.
    + exists q'. right. apply in_or_app. right. exact Hj.
Qed.
Definition shallow (v : sval) : Prop := forall x, serialize v = SOk (Some x) -> (inline_depth x <= value_depth v)%nat.
Lemma elements_depth n vs : (forall v, In v vs -> shallow v /\ (value_depth v <= n)%nat) -> forall st x, (forall y, In y (snd st) -> (inline_depth y <= n)%nat) -> elements st vs = SOk (Some x) -> (inline_depth x <= S n)%nat.
Proof.
  induction vs as [|v vs IH]; intros H st x HS E; cbn [elements] in E.
  - injection E as <-. cbn [inline_depth]. apply le_n_S. apply max_all. exact HS.
  - destruct (serialize v) as [[y|]|e|] eqn:EV; try discriminate E. cbn [sbind] in E. destruct (push_depth st y) as (k & y' & EP & ED). rewrite EP in E. refine (IH (fun w Hw => H w (or_intror Hw)) _ _ _ E).
    cbn [snd]. intros z Hz. apply in_app_or in Hz as [Hz|[<- |[]]]; [exact (HS z Hz)|]. rewrite ED. destruct (H v (or_introl eq_refl)) as [H1 H2]. etransitivity; [exact (H1 _ EV)|exact H2].
Qed.
Lemma entries_depth n kvs : (forall kv, In kv kvs -> shallow (snd kv) /\ (value_depth (snd kv) <= n)%nat) -> forall acc x, (forall e, In e acc -> (inline_depth (snd e) <= n)%nat) -> entries acc kvs = SOk (Some x) -> (inline_depth x <= S n)%nat.
Proof.
  induction kvs as [|[k v] kvs IH]; intros H acc x HS E; cbn [entries] in E.
  - injection E as <-. cbn [inline_depth]. apply le_n_S. apply (max_all (fun e => inline_depth (snd e))). intros e He. destruct (inserted_in _ _ _ He) as (q & Hi). rewrite app_nil_r in Hi. exact (HS _ Hi).
  - destruct (serialize k) as [[kx|]|e|]; try discriminate E. cbn [sbind] in E. destruct kx as [[s| | | | | | |]| |]; try discriminate E. destruct (serialize v) as [[y|]|e|] eqn:EV; try discriminate E; cbn [sbind] in E.
    + refine (IH (fun w Hw => H w (or_intror Hw)) _ _ _ E). intros e He. apply in_app_or in He as [He|[<- |[]]]; [exact (HS e He)|]. destruct (H (k, v) (or_introl eq_refl)) as [H1 H2]. cbn [snd] in *. etransitivity; [exact (H1 _ EV)|exact H2].
    + exact (IH (fun w Hw => H w (or_intror Hw)) _ _ HS E).
Qed.
Lemma date_depth {A} (f : A -> scalar) from v x : as_date_time f from v = SOk (Some x) -> inline_depth x = 0%nat.
Proof. destruct v; try discriminate. cbn [as_date_time]. destruct (from s); try discriminate. intros E. injection E as <-. reflexivity. Qed.
Lemma serialize_depth : forall v, shallow v.
Proof.
  fix IH 1. unfold shallow.
  assert (HL : forall vs x, elements (KArrayOfTable, []) vs = SOk (Some x) -> (forall v, In v vs -> shallow v) -> (inline_depth x <= S (fold_right (fun v m => Nat.max (value_depth v) m) 0%nat vs))%nat).
  { intros vs x E HV. refine (elements_depth _ vs _ _ _ _ E); [|intros y []]. intros v Hv. split; [exact (HV v Hv)|exact (max_in value_depth v vs Hv)]. }
  assert (HM : forall kvs x, entries [] kvs = SOk (Some x) -> (forall kv, In kv kvs -> shallow (snd kv)) -> (inline_depth x <= S (fold_right (fun e m => Nat.max (value_depth (snd e)) m) 0%nat kvs))%nat).
  { intros kvs x E HV. refine (entries_depth _ kvs _ _ _ _ E); [|intros y []]. intros kv Hv. split; [exact (HV kv Hv)|exact (max_in (fun e => value_depth (snd e)) kv kvs Hv)]. }
  assert (HIL : forall vs, (fix all (l : list sval) : Prop := match l with [] => True | v :: l => shallow v /\ all l end) vs -> forall v, In v vs -> shallow v).
  { induction vs as [|v vs IHv]; intros H w Hw; [destruct Hw|]. destruct H as [H1 H2]. destruct Hw as [<- |Hw]; [exact H1|exact (IHv H2 w Hw)]. }
  assert (HIM : forall kvs, (fix all (l : list (sval * sval)) : Prop := match l with [] => True | kv :: l => shallow (snd kv) /\ all l end) kvs -> forall kv, In kv kvs -> shallow (snd kv)).
  { induction kvs as [|v vs IHv]; intros H w Hw; [destruct Hw|]. destruct H as [H1 H2]. destruct Hw as [<- |Hw]; [exact H1|exact (IHv H2 w Hw)]. }
  intros [b|z|n|f|c|s|bs| |v| |nm|vr|nm v|vr v|vs|vr vs|kvs|vr kvs] x E; try discriminate E; try (injection E as <-; apply Nat.le_0_l).
  - exact (IH v x E).
  - cbn [value_depth]. cbn [serialize] in E. do 4 (match type of E with (if ?c then _ else _) = _ => destruct c end; [rewrite (date_depth _ _ _ _ E); apply Nat.le_0_l|]). destruct (str_eqb nm INLINE_NAME); [|exact (IH v x E)].
    destruct (serialize v) as [[y|]|e|] eqn:EV; try discriminate E. injection E as <-. rewrite force_depth. exact (IH v y EV).
  - exact (IH v x E).
  - apply (HL vs x E). apply HIL. clear E. induction vs as [|v vs IHv]; [exact I|]. split; [apply IH|exact IHv].
  - apply (HL vs x E). apply HIL. clear E. induction vs as [|v vs IHv]; [exact I|]. split; [apply IH|exact IHv].
  - apply (HM kvs x E). apply HIM. clear E. induction kvs as [|[k v] vs IHv]; [exact I|]. split; [apply IH|exact IHv].
  - apply (HM kvs x E). apply HIM. clear E. induction kvs as [|[k v] vs IHv]; [exact I|]. split; [apply IH|exact IHv].
Qed.
Lemma depth_inline v : (depth_of v <= inline_depth v)%nat.
Proof.
  revert v. fix IH 1. intros [s|[|] vs|[| |] es]; try apply le_n.
  - cbn [depth_of inline_depth]. apply Nat.le_le_succ_r. induction vs as [|r vs IHv]; [apply le_n|]. cbn [fold_right]. apply Nat.max_le_compat; [|exact IHv]. destruct r as [s|k l|k es]; cbn [inline_depth]; lia.
  - cbn [depth_of inline_depth]. apply Nat.le_le_succ_r. induction es as [|[k v] es IHe]; [apply le_n|]. cbn [fold_right snd]. apply Nat.max_le_compat; [apply IH|exact IHe].
Qed.
(** * No variants in what can be written *)
Section Untagged.
Context (show : list N -> str) (fl : str -> option (list N)).
Lemma absent_untagged v : absent v -> untagged v.
Proof. induction 1; [apply un_none|apply un_some; assumption]. Qed.
Lemma small_untagged v : small show fl v -> untagged v.
Proof. induction 1; try (constructor; auto; fail); apply un_newtype; apply un_str. Qed.
Lemma inlined_untagged : forall v, inlined show fl v -> untagged v.
Proof.
  fix IH 2. intros v [w H|w H|nm w _ H|w H|vs H|kvs H].
  - exact (small_untagged w H).
  - apply un_some. exact (IH w H).
  - apply un_newtype. exact (IH w H).
  - apply un_newtype. exact (IH w H).
  - apply un_seq. intros w Hw. exact (IH w (H w Hw)).
  - apply un_map. intros k w Hw. destruct (H _ Hw) as (s & _ & _ & [HA|HO]); [exact (absent_untagged w HA)|exact (IH w HO)].
Qed.
Lemma line_untagged : forall v, on_line show fl v -> untagged v
with row_untagged : forall v, a_row show fl v -> untagged v.
Proof.
  - intros v [w H|w H|nm w _ H|w H|w ws HW H].
    + exact (small_untagged w H).
    + apply un_some. exact (line_untagged w H).
    + apply un_newtype. exact (line_untagged w H).
    + apply un_newtype. exact (inlined_untagged w H).
    + apply un_seq. intros x [<- |Hx]; [exact (small_untagged w HW)|]. destruct (H x Hx) as [HL|HR]; [exact (line_untagged x HL)|exact (row_untagged x HR)].
  - intros v [w H|nm w _ H|kvs H]; [apply un_some; exact (row_untagged w H)|apply un_newtype; exact (row_untagged w H)|].
    apply un_map. intros k w Hw. destruct (H _ Hw) as (s & _ & _ & [HA|HO]); [exact (absent_untagged w HA)|exact (line_untagged w HO)].
Qed.
Lemma list_untagged v : a_list show fl v -> untagged v.
Proof. induction 1 as [w H IH|nm w _ H IH|w ws H]; [apply un_some; exact IH|apply un_newtype; exact IH|]. apply un_seq. intros x Hx. exact (row_untagged x (H x Hx)). Qed.
Lemma table_untagged : forall v, a_table show fl v -> untagged v.
Proof.
  fix IH 2. intros v [w H|nm w _ H|kvs H]; [apply un_some; exact (IH w H)|apply un_newtype; exact (IH w H)|].
  apply un_map. intros k w Hw. destruct (H _ Hw) as (s & _ & _ & [HA|[HL|[HT|HR]]]); [exact (absent_untagged w HA)|exact (line_untagged w HL)|exact (IH w HT)|exact (list_untagged w HR)].
Qed.
End Untagged.
