(** The meaning of [a = { b = 1 }] and of [a.b = 1] among other key/values (C68). *)
From Coq Require Import String Ascii List NArith Bool Arith Lia.
From Verif Require Import Base TomlTextProofs DocTreeModel DocTreeSpec DocTreeProofs.
Import ListNotations.
Open Scope list_scope.

(** the data of an inline table with one key/value *)
Fixpoint chain (ks : list str) (d : data) : data := match ks with [] => d | k :: ks => DTable [(k, chain ks d)] end.
Lemma put_fresh ks d : ks <> [] -> exists sub, put ks d [] = Some sub /\ forall o, meaning (Dir o sub) = chain ks d.
Proof.
  induction ks as [|k ks IH]; [congruence|]. intros _. destruct ks as [|k2 ks].
  - exists [(k, Leaf d)]. split; [reflexivity|]. reflexivity.
  - destruct IH as (sub & E & M); [discriminate|]. exists [(k, Dir Dotted sub)]. split.
    + change (put (k :: k2 :: ks) d []) with (option_map (fun sub => [] ++ [(k, Dir Dotted sub)]) (put (k2 :: ks) d [])). rewrite E. reflexivity.
    + intros o. specialize (M Dotted). change (meaning (Dir o [(k, Dir Dotted sub)])) with (DTable [(k, meaning (Dir Dotted sub))]). rewrite M. reflexivity.
Qed.

(** ** A state with a closed value is less permissive than one with an open table of the same data *)
Inductive sim : node -> node -> Prop :=
| sim_leaf d n : meaning n = d -> sim (Leaf d) n
| sim_dir o es es' : sims es es' -> sim (Dir o es) (Dir o es')
with sims : list (str * node) -> list (str * node) -> Prop :=
| sims_nil : sims [] []
| sims_cons k n n' es es' : sim n n' -> sims es es' -> sims ((k, n) :: es) ((k, n') :: es').
Scheme sim_mut := Induction for sim Sort Prop with sims_mut := Induction for sims Sort Prop.
Lemma sims_meaning es es' : sims es es' -> map (fun e => (fst e, meaning (snd e))) es = map (fun e => (fst e, meaning (snd e))) es'.
Proof.
  apply (sims_mut (fun n n' _ => meaning n = meaning n') (fun es es' _ => map (fun e => (fst e, meaning (snd e))) es = map (fun e => (fst e, meaning (snd e))) es')).
  - intros d n E. symmetry. exact E.
  - intros o l l' _ E. cbn [meaning]. rewrite E. reflexivity.
  - reflexivity.
  - intros k n n' l l' _ E _ E2. cbn [map fst snd]. rewrite E, E2. reflexivity.
Qed.
Lemma sims_none es es' k : sims es es' -> assoc k es = None -> assoc k es' = None.
Proof. induction 1 as [|k' n n' es es' HS H IH]; [auto|]. cbn [assoc]. destruct (str_eqb k k'); [discriminate|exact IH]. Qed.
Lemma sims_some es es' k n : sims es es' -> assoc k es = Some n -> exists n', assoc k es' = Some n' /\ sim n n'.
Proof.
  induction 1 as [|k' m m' es es' HS H IH]; [discriminate|]. cbn [assoc]. destruct (str_eqb k k'); [|exact IH]. intros E. injection E as <-. eauto.
Qed.
Lemma sims_app a a' b b' : sims a a' -> sims b b' -> sims (a ++ b) (a' ++ b').
Proof. induction 1; [auto|]. intros H2. cbn [app]. constructor; auto. Qed.
Lemma sims_set es es' k n n' : sims es es' -> sim n n' -> sims (assoc_set k n es) (assoc_set k n' es').
Proof. induction 1 as [|k' m m' es es' HS H IH]; intros Hn; cbn [assoc_set]; [constructor|]. destruct (str_eqb k k'); constructor; auto. Qed.
Lemma put_one k d es : put [k] d es = match assoc k es with None => Some (es ++ [(k, Leaf d)]) | Some _ => None end.
Proof. reflexivity. Qed.
Lemma put_more k k2 ks d es : put (k :: k2 :: ks) d es =
  match assoc k es with
  | None => option_map (fun sub => es ++ [(k, Dir Dotted sub)]) (put (k2 :: ks) d [])
  | Some (Dir Dotted sub) => option_map (fun sub' => assoc_set k (Dir Dotted sub') es) (put (k2 :: ks) d sub)
  | Some _ => None
  end.
Proof. reflexivity. Qed.
Lemma sim_refl_put ks d sub : put ks d [] = Some sub -> sims sub sub.
Proof.
  revert sub. induction ks as [|k ks IH]; intros sub; [discriminate|]. destruct ks as [|k2 ks].
  - intros E. injection E as <-. constructor; [constructor; reflexivity|constructor].
  - rewrite put_more. cbn [assoc]. destruct (put (k2 :: ks) d []) as [s|]; [|discriminate]. intros E. injection E as <-. constructor; [constructor; auto|constructor].
Qed.
Lemma put_mono ks d : forall es es' r, sims es es' -> put ks d es = Some r -> exists r', put ks d es' = Some r' /\ sims r r'.
Proof.
  induction ks as [|k ks IH]; intros es es' r HS; [discriminate|]. destruct ks as [|k2 ks].
  - rewrite !put_one. destruct (assoc k es) eqn:E; [discriminate|]. intros H. injection H as <-. rewrite (sims_none _ _ _ HS E). eexists. split; [reflexivity|].
    apply sims_app; [exact HS|]. constructor; [constructor; reflexivity|constructor].
  - rewrite !put_more. destruct (assoc k es) as [n|] eqn:E.
    + destruct (sims_some _ _ _ _ HS E) as (n' & E' & Hn). destruct n as [|o sub|]; try discriminate. destruct o; try discriminate.
      inversion Hn; subst. rewrite E'. destruct (put (k2 :: ks) d sub) as [s|] eqn:EP; [|discriminate]. intros H. injection H as <-.
      destruct (IH _ _ _ ltac:(eassumption) EP) as (s' & EP' & HS'). rewrite EP'. eexists. split; [reflexivity|]. apply sims_set; [exact HS|]. constructor. exact HS'.
    + rewrite (sims_none _ _ _ HS E). destruct (put (k2 :: ks) d []) as [s|] eqn:EP; [|discriminate]. intros H. injection H as <-. eexists. split; [reflexivity|].
      apply sims_app; [exact HS|]. constructor; [constructor; eapply sim_refl_put; eassumption|constructor].
Qed.
(** the key/value itself, in both forms *)
Lemma put_opened ks a ks2 d : ks2 <> [] -> forall es es' r, sims es es' -> put (ks ++ [a]) (chain ks2 d) es = Some r ->
  exists r', put (ks ++ a :: ks2) d es' = Some r' /\ sims r r'.
Proof.
  intros H2. destruct (put_fresh ks2 d H2) as (sub & ES & M). induction ks as [|k ks IH]; intros es es' r HS.
  - cbn [app]. rewrite put_one. destruct (assoc a es) eqn:E; [discriminate|]. intros H. injection H as <-. destruct ks2 as [|b ks2]; [congruence|].
    rewrite put_more, (sims_none _ _ _ HS E), ES. eexists. split; [reflexivity|]. apply sims_app; [exact HS|]. constructor; [constructor; apply M|constructor].
  - assert (HA : forall e, exists x l, (ks ++ [a] = x :: l /\ ks ++ a :: ks2 = x :: (match ks with [] => [] | _ :: t => t ++ [a] end ++ ks2)) /\ e = e :> nat).
    { intros e. destruct ks as [|x ks]; [exists a, []|exists x, (ks ++ [a])]; split; auto; split; auto; cbn [app]; rewrite <- ?app_assoc; auto. }
    destruct (HA 0%nat) as (x & l & (E1 & E2) & _). cbn [app]. rewrite E1, E2, !put_more. rewrite E1, E2 in IH. destruct (assoc k es) as [n|] eqn:E.
    + destruct (sims_some _ _ _ _ HS E) as (n' & E' & Hn). destruct n as [|o s|]; try discriminate. destruct o; try discriminate.
      inversion Hn; subst. rewrite E'. destruct (put (x :: l) (chain ks2 d) s) as [t|] eqn:EP; [|discriminate]. intros H. injection H as <-.
      destruct (IH _ _ _ ltac:(eassumption) EP) as (s' & EP' & HS'). rewrite EP'. eexists. split; [reflexivity|]. apply sims_set; [exact HS|]. constructor. exact HS'.
    + rewrite (sims_none _ _ _ HS E). destruct (put (x :: l) (chain ks2 d) []) as [t|] eqn:EP; [|discriminate]. intros H. injection H as <-.
      destruct (IH _ _ _ sims_nil EP) as (s' & EP' & HS'). rewrite EP'. eexists. split; [reflexivity|].
      apply sims_app; [exact HS|]. constructor; [constructor; exact HS'|constructor].
Qed.
Lemma put_all_mono l : forall es es' r, sims es es' -> put_all l es = Some r -> exists r', put_all l es' = Some r' /\ sims r r'.
Proof.
  induction l as [|[ks [d|]] l IH]; intros es es' r HS; cbn [put_all]; [intros H; injection H as <-; eauto| |discriminate].
  destruct (put ks d es) as [s|] eqn:E; [|discriminate]. intros H. destruct (put_mono _ _ _ _ _ HS E) as (s' & E' & HS'). rewrite E'. eauto.
Qed.
Lemma put_all_app l1 l2 es : put_all (l1 ++ l2) es = match put_all l1 es with Some s => put_all l2 s | None => None end.
Proof. revert es. induction l1 as [|[ks [d|]] l1 IH]; intros es; cbn [app put_all]; auto. destruct (put ks d es); auto. Qed.
Lemma sims_refl_put ks d : forall es r, sims es es -> put ks d es = Some r -> sims r r.
Proof. intros es r HS E. destruct (put_mono _ _ _ _ _ HS E) as (r' & E' & H). rewrite E in E'. injection E' as <-. exact H. Qed.
Lemma put_all_refl l es r : sims es es -> put_all l es = Some r -> sims r r.
Proof. intros HS E. destruct (put_all_mono _ _ _ _ HS E) as (r' & E' & H). rewrite E in E'. injection E' as <-. exact H. Qed.

(** opening an inline table *)
Lemma body_opened b ks a ks2 d l r : ks2 <> [] -> put_all (b ++ (ks ++ [a], Some (chain ks2 d)) :: l) [] = Some r ->
  exists r', put_all (b ++ (ks ++ a :: ks2, Some d) :: l) [] = Some r' /\ table_meaning r = table_meaning r'.
Proof.
  intros H2. rewrite !put_all_app. destruct (put_all b []) as [s|] eqn:EB; [|discriminate]. cbn [put_all].
  destruct (put (ks ++ [a]) (chain ks2 d) s) as [t|] eqn:E; [|discriminate]. intros H. pose proof (put_all_refl _ _ _ sims_nil EB) as HS.
  destruct (put_opened ks a ks2 d H2 _ _ _ HS E) as (t' & E' & HT). rewrite E'. destruct (put_all_mono _ _ _ _ HT H) as (r' & HR & HRS). exists r'. split; [exact HR|].
  unfold table_meaning. cbn [meaning]. rewrite (sims_meaning _ _ HRS). reflexivity.
Qed.

(** ** Closing a table again *)
Fixpoint walk (p : list str) (es : list (str * node)) : option node :=
  match p with
  | [] => None
  | [k] => assoc k es
  | k :: p => match assoc k es with Some (Dir Dotted sub) => walk p sub | _ => None end
  end.
Definition dir_at (p : list str) (es : list (str * node)) : Prop := exists sub, walk p es = Some (Dir Dotted sub).
Lemma walk_more k k2 p es : walk (k :: k2 :: p) es = match assoc k es with Some (Dir Dotted sub) => walk (k2 :: p) sub | _ => None end.
Proof. reflexivity. Qed.
Lemma assoc_app_one {A} k k' (v : A) es : assoc k (es ++ [(k', v)]) = match assoc k es with Some x => Some x | None => if str_eqb k k' then Some v else None end.
Proof. rewrite assoc_app. destruct (assoc k es); reflexivity. Qed.
Lemma eqb_refl' k : str_eqb k k = true. Proof. apply str_eqb_eq. reflexivity. Qed.
Lemma eqb_neq k k' : str_eqb k k' = false -> k <> k'. Proof. intros E ->. rewrite eqb_refl' in E. discriminate. Qed.
Lemma put_dirs p : forall q d es r, put q d es = Some r -> dir_at p r -> dir_at p es \/ exists t, q = p ++ t.
Proof.
  induction p as [|k p IH]; intros q d es r; [intros _ [sub H]; discriminate|]. destruct q as [|k' q]; [discriminate|]. intros HP [sub HW].
  destruct (str_eqb k k') eqn:EK.
  - apply str_eqb_eq in EK. subst k'. destruct p as [|k2 p]; [right; exists q; reflexivity|]. rewrite walk_more in HW. destruct q as [|k3 q].
    + rewrite put_one in HP. destruct (assoc k es) eqn:E; [discriminate|]. injection HP as <-. rewrite assoc_app_one, E, eqb_refl' in HW. discriminate.
    + rewrite put_more in HP. destruct (assoc k es) as [n|] eqn:E.
      * destruct n as [|o s|]; try discriminate. destruct o; try discriminate. destruct (put (k3 :: q) d s) as [s'|] eqn:EP; [|discriminate]. injection HP as <-.
        rewrite (assoc_set_same k) in HW by congruence. destruct (IH _ _ _ _ EP (ex_intro _ sub HW)) as [[x Hx] | [t ->]].
        -- left. exists x. rewrite walk_more, E. exact Hx.
        -- right. exists t. reflexivity.
      * destruct (put (k3 :: q) d []) as [s'|] eqn:EP; [|discriminate]. injection HP as <-. rewrite assoc_app_one, E, eqb_refl' in HW.
        destruct (IH _ _ _ _ EP (ex_intro _ sub HW)) as [[x Hx] | [t ->]]; [|right; exists t; reflexivity]. destruct p; discriminate.
  - assert (HA : assoc k r = assoc k es).
    { destruct q as [|k3 q].
      - rewrite put_one in HP. destruct (assoc k' es) eqn:E; [discriminate|]. injection HP as <-. rewrite assoc_app_one, EK. destruct (assoc k es); reflexivity.
      - rewrite put_more in HP. destruct (assoc k' es) as [n|] eqn:E.
        + destruct n as [|o s|]; try discriminate. destruct o; try discriminate. destruct (put (k3 :: q) d s) as [s'|]; [|discriminate]. injection HP as <-.
          apply assoc_set_other. apply eqb_neq. exact EK.
        + destruct (put (k3 :: q) d []) as [s'|]; [|discriminate]. injection HP as <-. rewrite assoc_app_one, EK. destruct (assoc k es); reflexivity. }
    left. exists sub. destruct p as [|k2 p]; [cbn [walk] in *; congruence|]. rewrite walk_more in *. rewrite HA in HW. exact HW.
Qed.
Lemma put_all_dirs p l : forall es r, put_all l es = Some r -> (forall q d, In (q, d) l -> ~ exists t, q = p ++ t) -> dir_at p r -> dir_at p es.
Proof.
  induction l as [|[q [d|]] l IH]; intros es r; cbn [put_all]; [intros H; injection H as <-; auto| |discriminate].
  destruct (put q d es) as [s|] eqn:E; [|discriminate]. intros H HN HD. assert (HD' : dir_at p s). { eapply IH; [exact H| |exact HD]. intros q' d' Hin. apply (HN q' d'). right. exact Hin. }
  destruct (put_dirs _ _ _ _ _ E HD') as [X|X]; [exact X|]. exfalso. apply (HN q (Some d)); [left; reflexivity|exact X].
Qed.
(** two states that differ at [p] only: a value, and an open table with the same data *)
Inductive swap : list str -> list (str * node) -> list (str * node) -> Prop :=
| swap_here a d sub l r : assoc a l = None -> meaning (Dir Dotted sub) = d -> swap [a] (l ++ (a, Leaf d) :: r) (l ++ (a, Dir Dotted sub) :: r)
| swap_below a p s s' l r : assoc a l = None -> swap p s s' -> swap (a :: p) (l ++ (a, Dir Dotted s) :: r) (l ++ (a, Dir Dotted s') :: r).
Lemma swap_meaning p es es' : swap p es es' -> map (fun e => (fst e, meaning (snd e))) es = map (fun e => (fst e, meaning (snd e))) es'.
Proof.
  induction 1 as [a d sub l r Hl Hm|a p s s' l r Hl H IH]; rewrite !map_app; cbn [map fst snd].
  - rewrite Hm. reflexivity.
  - cbn [meaning]. rewrite IH. reflexivity.
Qed.
Lemma assoc_at {A} k (v : A) l r : assoc k l = None -> assoc k (l ++ (k, v) :: r) = Some v.
Proof. intros E. rewrite assoc_app, E. cbn [assoc]. rewrite eqb_refl'. reflexivity. Qed.
Lemma assoc_off {A} k k' (v v' : A) l r : k <> k' -> assoc k (l ++ (k', v) :: r) = assoc k (l ++ (k', v') :: r).
Proof. intros E. rewrite !assoc_app. cbn [assoc]. destruct (str_eqb k k') eqn:EK; [apply str_eqb_eq in EK; congruence|reflexivity]. Qed.
Lemma set_at {A} k (v v' : A) l r : assoc k l = None -> assoc_set k v' (l ++ (k, v) :: r) = l ++ (k, v') :: r.
Proof. intros E. rewrite assoc_set_app by exact E. cbn [assoc_set]. rewrite eqb_refl'. reflexivity. Qed.
Lemma set_off {A} k k' (v w : A) l r : k <> k' -> exists l' r', (forall x, assoc_set k v (l ++ (k', x) :: r) = l' ++ (k', x) :: r') /\ (assoc k' l = None -> assoc k' l' = None).
Proof.
  intros HN. induction l as [|[k2 x2] l (l' & r' & H & H2)].
  - exists [], (assoc_set k v r). split; [|auto]. intros x. cbn [app assoc_set]. destruct (str_eqb k k') eqn:E; [apply str_eqb_eq in E; congruence|reflexivity].
  - cbn [app assoc_set]. destruct (str_eqb k k2) eqn:E.
    + exists ((k2, v) :: l), r. split; [reflexivity|]. cbn [assoc]. destruct (str_eqb k' k2); [discriminate|auto].
    + exists ((k2, x2) :: l'), r'. split; [intros x; rewrite H; reflexivity|]. cbn [assoc]. destruct (str_eqb k' k2); [auto|exact H2].
Qed.
Lemma put_swap p es es' : swap p es es' -> forall q d r', (~ exists t, q = p ++ t) -> put q d es' = Some r' -> exists r, put q d es = Some r /\ swap p r r'.
Proof.
  induction 1 as [a d0 sub l r Hl Hm|a p s s' l r Hl H IH]; intros q d r' HN HP; (destruct q as [|k q]; [discriminate|]).
  - assert (HK : k <> a) by (intros ->; apply HN; exists q; reflexivity). destruct q as [|k2 q].
    + rewrite put_one in *. rewrite (assoc_off k a (Leaf d0) (Dir Dotted sub)) by exact HK. destruct (assoc k (l ++ (a, Dir Dotted sub) :: r)); [discriminate|]. injection HP as <-.
      eexists. split; [reflexivity|]. rewrite <- !app_assoc. cbn [app]. constructor; auto.
    + rewrite put_more in *. rewrite (assoc_off k a (Leaf d0) (Dir Dotted sub)) by exact HK. destruct (assoc k (l ++ (a, Dir Dotted sub) :: r)) as [n|].
      * destruct n as [|o x|]; try discriminate. destruct o; try discriminate. destruct (put (k2 :: q) d x) as [y|]; [|discriminate]. injection HP as <-. eexists. split; [reflexivity|].
        destruct (set_off k a (Dir Dotted y) (Leaf d0) l r HK) as (l' & rr & HS & HL). rewrite !HS. constructor; auto.
      * destruct (put (k2 :: q) d []) as [y|]; [|discriminate]. injection HP as <-. eexists. split; [reflexivity|]. rewrite <- !app_assoc. cbn [app]. constructor; auto.
  - destruct (str_eqb k a) eqn:EK.
    + apply str_eqb_eq in EK. subst k. destruct q as [|k2 q].
      * rewrite put_one, assoc_at in HP by exact Hl. discriminate.
      * rewrite put_more in *. rewrite assoc_at in * by exact Hl. destruct (put (k2 :: q) d s') as [y'|] eqn:EP; [|discriminate]. injection HP as <-.
        destruct (IH (k2 :: q) d y' ltac:(intros [t E]; apply HN; exists t; cbn [app]; rewrite E; reflexivity) EP) as (y & EY & HY). rewrite EY. eexists. split; [reflexivity|].
        rewrite !set_at by exact Hl. constructor; auto.
    + apply eqb_neq in EK. destruct q as [|k2 q].
      * rewrite put_one in *. rewrite (assoc_off k a (Dir Dotted s) (Dir Dotted s')) by exact EK. destruct (assoc k (l ++ (a, Dir Dotted s') :: r)); [discriminate|]. injection HP as <-.
        eexists. split; [reflexivity|]. rewrite <- !app_assoc. cbn [app]. constructor; auto.
      * rewrite put_more in *. rewrite (assoc_off k a (Dir Dotted s) (Dir Dotted s')) by exact EK. destruct (assoc k (l ++ (a, Dir Dotted s') :: r)) as [n|].
        -- destruct n as [|o x|]; try discriminate. destruct o; try discriminate. destruct (put (k2 :: q) d x) as [y|]; [|discriminate]. injection HP as <-. eexists. split; [reflexivity|].
           destruct (set_off k a (Dir Dotted y) (Leaf d) l r EK) as (l' & rr & HS & HL). rewrite !HS. constructor; auto.
        -- destruct (put (k2 :: q) d []) as [y|]; [|discriminate]. injection HP as <-. eexists. split; [reflexivity|]. rewrite <- !app_assoc. cbn [app]. constructor; auto.
Qed.
Lemma assoc_split {A} k (v : A) es : assoc k es = Some v -> exists l r, es = l ++ (k, v) :: r /\ assoc k l = None.
Proof.
  induction es as [|[k' x] es IH]; [discriminate|]. cbn [assoc]. destruct (str_eqb k k') eqn:E.
  - intros H. injection H as ->. apply str_eqb_eq in E. subst. exists [], es. auto.
  - intros H. destruct (IH H) as (l & r & -> & HL). exists ((k', x) :: l), r. split; [reflexivity|]. cbn [assoc]. rewrite E. exact HL.
Qed.
(** the key/value itself *)
Lemma put_closed ks a ks2 d : ks2 <> [] -> forall es r', put (ks ++ a :: ks2) d es = Some r' -> ~ dir_at (ks ++ [a]) es ->
  exists r, put (ks ++ [a]) (chain ks2 d) es = Some r /\ swap (ks ++ [a]) r r'.
Proof.
  intros H2. destruct (put_fresh ks2 d H2) as (sub & ES & M). induction ks as [|k ks IH]; intros es r' HP HD.
  - cbn [app] in *. destruct ks2 as [|b ks2]; [congruence|]. rewrite put_more in HP. rewrite put_one. destruct (assoc a es) as [n|] eqn:E.
    + destruct n as [|o s|]; try discriminate. destruct o; try discriminate. exfalso. apply HD. exists s. exact E.
    + rewrite ES in HP. injection HP as <-. eexists. split; [reflexivity|]. constructor; [exact E|apply M].
  - assert (HA : exists x l l', ks ++ [a] = x :: l /\ ks ++ a :: ks2 = x :: l').
    { destruct ks as [|x ks]; [exists a, [], ks2|exists x, (ks ++ [a]), (ks ++ a :: ks2)]; auto. }
    destruct HA as (x & l & l' & E1 & E2). cbn [app] in *. rewrite E1, E2 in *. rewrite put_more in *. destruct (assoc k es) as [n|] eqn:E.
    + destruct n as [|o s|]; try discriminate. destruct o; try discriminate. destruct (put (x :: l') d s) as [y'|] eqn:EP; [|discriminate]. injection HP as <-.
      destruct (IH _ _ EP) as (y & EY & HY). { intros [z Hz]. apply HD. exists z. rewrite walk_more, E. exact Hz. }
      rewrite EY. eexists. split; [reflexivity|]. destruct (assoc_split _ _ _ E) as (u & w & -> & HL). rewrite !set_at by exact HL. constructor; auto.
    + destruct (put (x :: l') d []) as [y'|] eqn:EP; [|discriminate]. injection HP as <-. destruct (IH _ _ EP) as (y & EY & HY). { intros [z Hz]. destruct l; discriminate. }
      rewrite EY. eexists. split; [reflexivity|]. constructor; auto.
Qed.
Lemma put_all_swap p l : forall es es' r', swap p es es' -> (forall q d, In (q, d) l -> ~ exists t, q = p ++ t) -> put_all l es' = Some r' -> exists r, put_all l es = Some r /\ swap p r r'.
Proof.
  induction l as [|[q [d|]] l IH]; intros es es' r' HS HN; cbn [put_all]; [intros H; injection H as <-; eauto| |discriminate].
  destruct (put q d es') as [s|] eqn:E; [|discriminate]. intros H. destruct (put_swap _ _ _ HS _ _ _ (HN q (Some d) (or_introl eq_refl)) E) as (t & ET & HT). rewrite ET.
  eapply IH; [exact HT| |exact H]. intros q' d' Hin. apply (HN q' d'). right. exact Hin.
Qed.
(** closing a table that only one key/value fills *)
Lemma body_closed b ks a ks2 d l r' : ks2 <> [] -> (forall q x, In (q, x) (b ++ l) -> ~ exists t, q = (ks ++ [a]) ++ t) ->
  put_all (b ++ (ks ++ a :: ks2, Some d) :: l) [] = Some r' ->
  exists r, put_all (b ++ (ks ++ [a], Some (chain ks2 d)) :: l) [] = Some r /\ table_meaning r = table_meaning r'.
Proof.
  intros H2 HN. rewrite !put_all_app. destruct (put_all b []) as [s|] eqn:EB; [|discriminate]. cbn [put_all].
  destruct (put (ks ++ a :: ks2) d s) as [t'|] eqn:E; [|discriminate]. intros H.
  destruct (put_closed ks a ks2 d H2 _ _ E) as (t & ET & HT).
  { intros HD. apply (put_all_dirs _ _ _ _ EB) in HD; [|intros q x Hin; apply (HN q x); apply in_or_app; left; exact Hin]. destruct HD as [z Hz]. destruct ks as [|? [|]]; discriminate. }
  rewrite ET. destruct (put_all_swap _ _ _ _ _ HT ltac:(intros q x Hin; apply (HN q x); apply in_or_app; right; exact Hin) H) as (r & HR & HRS). exists r. split; [exact HR|].
  unfold table_meaning. cbn [meaning]. rewrite (swap_meaning _ _ _ HRS). reflexivity.
Qed.
