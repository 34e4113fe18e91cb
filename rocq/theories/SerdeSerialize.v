(** What the serializer makes of a value. *)
From Coq Require Import String Ascii List NArith ZArith Bool Lia.
From Verif Require Import Base SyntaxKind TextModel TomlTextModel NumberModel DateTimeModel DateTimeSpec DateTimeProps TextTreeModel DocTreeSpec SerdeModel SerdeSpec.
Import ListNotations.
Open Scope N_scope.
Open Scope list_scope.

Scheme means_mut := Induction for means Sort Prop with means_all_mut := Induction for means_all Sort Prop with means_fields_mut := Induction for means_fields Sort Prop.

Fixpoint elements (st : array_state) (vs : list sval) : sres (option dvalue) :=
  match vs with
  | [] => SOk (Some (DvArray (fst st) (snd st)))
  | v :: vs => sbind (serialize v) (fun o => match o with Some x => elements (push_element st x) vs | None => SErr ArrayValueRequired end)
  end.
Fixpoint entries (es : list (dkey * dvalue)) (kvs : list (sval * sval)) : sres (option dvalue) :=
  match kvs with
  | [] => SOk (Some (DvTable KTable (fold_left (fun es e => insert (fst e) (snd e) es) es [])))
  | (k, v) :: kvs => sbind (serialize k) (fun ok =>
      match ok with
      | Some (DvScalar (VString s)) => sbind (serialize v) (fun o => match o with Some x => entries (es ++ [(key_of s, x)]) kvs | None => entries es kvs end)
      | Some _ => SErr KeyMustBeString
      | None => SErr KeyRequired
      end)
  end.
Lemma serialize_seq vs : serialize (SSeq vs) = elements (KArrayOfTable, []) vs. Proof. reflexivity. Qed.
Lemma serialize_map kvs : serialize (SMap kvs) = entries [] kvs. Proof. reflexivity. Qed.
Lemma names_text k s : names k s -> serialize k = SOk (Some (DvScalar (VString s))).
Proof. intros []; reflexivity. Qed.
Lemma absent_none v : absent v -> serialize v = SOk None.
Proof. induction 1; [reflexivity|assumption]. Qed.
Lemma inline_data v : doc_data (force_inline v) = doc_data v.
Proof.
  revert v. fix IH 1. intros [s|k vs|k es]; cbn [force_inline doc_data].
  - reflexivity.
  - f_equal. rewrite map_map. induction vs as [|v vs IHv]; [reflexivity|]. cbn [map]. rewrite IH, IHv. reflexivity.
  - f_equal. rewrite map_map. cbn [fst snd]. induction es as [|[k' v] es IHe]; [reflexivity|]. cbn [map fst snd]. rewrite IH, IHe. reflexivity.
Qed.
Lemma push_data st x : exists k y, push_element st x = (k, snd st ++ [y]) /\ doc_data y = doc_data x.
Proof. destruct st as [k vs], x as [s|k' l|k' es]; cbn [push_element fst snd]; do 2 eexists; (split; [reflexivity|]); try reflexivity; destruct k; reflexivity. Qed.
Lemma insert_new k v es : ~ In (k_value k) (map (fun e => k_value (fst e)) es) -> insert k v es = es ++ [(k, v)].
Proof.
  induction es as [|[k' v'] es IH]; intros H; [reflexivity|]. cbn [insert app]. destruct (str_eqb (k_value k) (k_value k')) eqn:E; [exfalso; apply H; left; symmetry; apply str_eqb_eq; exact E|].
  rewrite IH; [reflexivity|]. intros Hi. apply H. right. exact Hi.
Qed.
Lemma insert_all es : forall acc, NoDup (map (fun e => k_value (fst e)) (acc ++ es)) -> fold_left (fun es e => insert (fst e) (snd e) es) es acc = acc ++ es.
Proof.
  induction es as [|[k v] es IH]; intros acc H; [cbn; rewrite app_nil_r; reflexivity|]. cbn [fold_left fst snd]. rewrite insert_new.
  - rewrite IH; [rewrite <- app_assoc; reflexivity|]. rewrite <- app_assoc. exact H.
  - rewrite map_app in H. cbn [map fst] in H. apply NoDup_remove_2 in H. intros Hi. apply H. apply in_app_iff. left. exact Hi.
Qed.
Definition faithful (v : sval) (d : data) : Prop := untagged v -> exists x, serialize v = SOk (Some x) /\ doc_data x = d.
Definition faithful_all (vs : list sval) (ds : list data) : Prop := (forall v, In v vs -> untagged v) ->
  forall st, exists k ys, elements st vs = SOk (Some (DvArray k (snd st ++ ys))) /\ map doc_data ys = ds.
Definition faithful_fields (kvs : list (sval * sval)) (es : list (str * data)) : Prop := (forall k v, In (k, v) kvs -> untagged v) ->
  forall acc, exists fs, entries acc kvs = SOk (Some (DvTable KTable (fold_left (fun es e => insert (fst e) (snd e) es) (acc ++ fs) []))) /\ map (fun e => (k_value (fst e), doc_data (snd e))) fs = es.
Lemma str_neqb a b : a <> b -> str_eqb a b = false.
Proof. intros H. destruct (str_eqb a b) eqn:E; [|reflexivity]. apply str_eqb_eq in E. contradiction. Qed.
Theorem serialize_means v d : means v d -> faithful v d.
Proof.
  apply (means_mut (fun v d _ => faithful v d) (fun vs ds _ => faithful_all vs ds) (fun kvs es _ => faithful_fields kvs es)).
  all: unfold faithful, faithful_all, faithful_fields.
  - intros b _. eexists. split; reflexivity.
  - intros z _ _. eexists. split; reflexivity.
  - intros n H. inversion H as [| | | | | | |n0 Hn| | | |]; subst. eexists. split; [reflexivity|]. cbn [doc_data]. unfold as_i64. rewrite (proj2 (N.ltb_lt n (2 ^ 63)) Hn). reflexivity.
  - intros f _. eexists. split; reflexivity.
  - intros c _. eexists. split; reflexivity.
  - intros s _. eexists. split; reflexivity.
  - intros v0 d0 _ IH H. inversion H; subst. apply IH. assumption.
  - intros s _. eexists. split; reflexivity.
  - intros name v0 d0 (H1 & H2 & H3 & H4 & H5) _ IH H. inversion H; subst. cbn [serialize]. rewrite !str_neqb by assumption. apply IH. assumption.
  - intros v0 d0 _ IH H. inversion H; subst. cbn [serialize]. change (str_eqb INLINE_NAME OFFSET_DATE_TIME_NAME) with false. change (str_eqb INLINE_NAME LOCAL_DATE_TIME_NAME) with false. change (str_eqb INLINE_NAME LOCAL_DATE_NAME) with false.
    change (str_eqb INLINE_NAME LOCAL_TIME_NAME) with false. change (str_eqb INLINE_NAME INLINE_NAME) with true. destruct IH as (x & EX & ED); [assumption|]. rewrite EX. eexists. split; [reflexivity|]. rewrite inline_data. exact ED.
  - intros d0 t o H1 H2 H3 _. cbn [serialize]. change (str_eqb OFFSET_DATE_TIME_NAME OFFSET_DATE_TIME_NAME) with true. cbn [as_date_time]. rewrite print_parse_offset by assumption. eexists. split; reflexivity.
  - intros d0 t H1 H2 _. cbn [serialize]. change (str_eqb LOCAL_DATE_TIME_NAME OFFSET_DATE_TIME_NAME) with false. change (str_eqb LOCAL_DATE_TIME_NAME LOCAL_DATE_TIME_NAME) with true. cbn [as_date_time]. rewrite print_parse_local by assumption. eexists. split; reflexivity.
  - intros d0 H1 _. cbn [serialize]. change (str_eqb LOCAL_DATE_NAME OFFSET_DATE_TIME_NAME) with false. change (str_eqb LOCAL_DATE_NAME LOCAL_DATE_TIME_NAME) with false. change (str_eqb LOCAL_DATE_NAME LOCAL_DATE_NAME) with true. cbn [as_date_time]. rewrite print_parse_date by assumption. eexists. split; reflexivity.
  - intros t H1 _. cbn [serialize]. change (str_eqb LOCAL_TIME_NAME OFFSET_DATE_TIME_NAME) with false. change (str_eqb LOCAL_TIME_NAME LOCAL_DATE_TIME_NAME) with false. change (str_eqb LOCAL_TIME_NAME LOCAL_DATE_NAME) with false. change (str_eqb LOCAL_TIME_NAME LOCAL_TIME_NAME) with true.
    cbn [as_date_time]. rewrite print_parse_time by assumption. eexists. split; reflexivity.
  - intros vs ds _ IH H. inversion H; subst. rewrite serialize_seq. destruct (IH ltac:(assumption) (KArrayOfTable, [])) as (k & ys & E & ED). rewrite E. eexists. split; [reflexivity|]. cbn [doc_data snd app]. rewrite ED. reflexivity.
  - intros kvs es _ IH HD H. inversion H; subst. rewrite serialize_map. destruct (IH ltac:(assumption) []) as (fs & E & ED). rewrite E. cbn [app]. eexists. split; [reflexivity|]. cbn [doc_data]. f_equal. rewrite insert_all; [exact ED|]. cbn [app].
    rewrite <- ED, map_map in HD. exact HD.
  - intros name v0 d0 _ _ H. inversion H.
  - intros name vs ds _ _ H. inversion H.
  - intros name kvs es _ _ _ H. inversion H.
  - intros _ st. exists (fst st), []. cbn [elements]. rewrite app_nil_r. split; reflexivity.
  - intros v0 d0 vs ds _ IHv _ IHs H st. destruct (IHv (H v0 (or_introl eq_refl))) as (x & EX & ED). destruct (push_data st x) as (k & y & EP & EY).
    destruct (IHs (fun w Hw => H w (or_intror Hw)) (k, snd st ++ [y])) as (k' & ys & EE & EM). exists k', (y :: ys). cbn [elements]. rewrite EX. cbn [sbind]. rewrite EP, EE. cbn [snd map]. rewrite <- app_assoc, EY, ED, EM. split; reflexivity.
  - intros _ acc. exists []. rewrite app_nil_r. split; reflexivity.
  - intros k s v0 kvs es HK HA _ IH H acc. destruct (IH (fun k' w Hw => H k' w (or_intror Hw)) acc) as (fs & E & EM). exists fs. split; [|exact EM]. cbn [entries]. rewrite (names_text _ _ HK), (absent_none _ HA). exact E.
  - intros k s v0 d0 kvs es HK _ IHv _ IHs H acc. destruct (IHv (H k v0 (or_introl eq_refl))) as (x & EX & ED). destruct (IHs (fun k' w Hw => H k' w (or_intror Hw)) (acc ++ [(key_of s, x)])) as (fs & E & EM).
    exists ((key_of s, x) :: fs). cbn [entries]. rewrite (names_text _ _ HK), EX. cbn [sbind]. rewrite E, <- app_assoc. cbn [map fst snd]. rewrite ED, EM. split; reflexivity.
Qed.
