(** C66: what the cache of downloaded schemas gives. *)
From Coq Require Import String Ascii List NArith ZArith Bool Arith Lia ZifyBool ZifyN.
From Verif Require Import Base TomlTextProofs CacheModel.
Import ListNotations.
Open Scope N_scope.
Open Scope list_scope.

(** * Specification *)
(** two places that cannot both be files: they are the same, or one is above the other *)
Definition in_the_way (p q : list str) : Prop := (exists r, p = q ++ r) \/ (exists r, q = p ++ r).
(** nothing else that was saved is kept in the place of [u] or in its way *)
Definition undisturbed (h : list saved) (u : url) : Prop := forall w, In w h -> w_url w = u \/ ~ in_the_way (cache_path (w_url w)) (cache_path u).
(** [copy h u c]: what is left of the schema of [u] on disk, with the time at which it was written *)
Inductive copy (u : url) : list saved -> option (list N * N) -> Prop :=
| copy_none : copy u [] None
| copy_other h w c : copy u h c -> w_url w <> u -> copy u (h ++ [w]) c
| copy_refused h w c : copy u h c -> w_outcome w = Refused -> copy u (h ++ [w]) c
| copy_cut h w c n : copy u h c -> w_url w = u -> w_outcome w = Cut n -> copy u (h ++ [w]) (Some (firstn n (w_bytes w), w_time w))
| copy_whole h w c : copy u h c -> w_url w = u -> w_outcome w = Whole -> copy u (h ++ [w]) (Some (w_bytes w, w_time w)).
(** the copies may be used *)
Definition caching (c : call) : Prop := forall o, c_options c = Some o -> no_cache o <> Some true.
(** the age that a copy may have *)
Definition limit (default_ttl : option N) (c : call) : option N := match c_options c with Some o => cache_ttl o | None => default_ttl end.
Definition fresh (default_ttl : option N) (c : call) (t : N) : Prop := forall ttl, limit default_ttl c = Some ttl -> c_now c <= t + ttl.
Definition of_option {V} (v : option V) (otherwise : answer) : answer := match v with Some v => Value v | None => otherwise end.

(** an ordinary address: neither user, port nor query, and only the last part of its path may end in [.json] *)
Definition json_name (s : str) : Prop := exists r, s = r ++ lit ".json".
Inductive plain : url -> Prop :=
| plain_url scheme host dirs name :
    scheme = lit "http" \/ scheme = lit "https" -> ~ json_name host ->
    Forall (fun d => d <> [] /\ ~ json_name d) dirs -> name <> [] -> name <> lit "__index__.json" ->
    plain (Url scheme [] (Some host) None (dirs ++ [name]) None).

(** * Proofs *)
Lemma path_eqb_eq p : forall q, path_eqb p q = true <-> p = q.
Proof.
  induction p as [|a p IH]; intros [|b q]; cbn [path_eqb]; split; intros H; try discriminate; try reflexivity.
  - apply andb_true_iff in H as [H1 H2]. apply str_eqb_eq in H1. apply IH in H2. congruence.
  - injection H as -> ->. rewrite (proj2 (str_eqb_eq b b) eq_refl). cbn [andb]. apply IH. reflexivity.
Qed.
Lemma set_same f p n : set f p n p = Some n.
Proof. unfold set. rewrite (proj2 (path_eqb_eq p p) eq_refl). reflexivity. Qed.
Lemma set_other f p n q : q <> p -> set f p n q = f q.
Proof. intros H. unfold set. destruct (path_eqb q p) eqn:E; [|reflexivity]. apply path_eqb_eq in E. contradiction. Qed.
Lemma set_cases f p n q : (q = p /\ set f p n q = Some n) \/ (q <> p /\ set f p n q = f q).
Proof. destruct (path_eqb q p) eqn:E; [apply path_eqb_eq in E as ->; left; split; [reflexivity|apply set_same]|]. right. assert (H : q <> p) by (intros ->; rewrite (proj2 (path_eqb_eq p p) eq_refl) in E; discriminate). split; [exact H|apply set_other, H]. Qed.

Lemma make_dirs_cases rest : forall f made q, fst (make_dirs f made rest) q = f q \/
  (fst (make_dirs f made rest) q = Some Dir /\ f q = None /\ exists r1 r2, rest = r1 ++ r2 /\ r1 <> [] /\ q = made ++ r1).
Proof.
  induction rest as [|c rest IH]; intros f made q; cbn [make_dirs]; [left; reflexivity|].
  assert (K : forall g, (exists r1 r2, rest = r1 ++ r2 /\ r1 <> [] /\ q = (made ++ [c]) ++ r1) -> fst (make_dirs g (made ++ [c]) rest) q = Some Dir -> exists r1 r2, c :: rest = r1 ++ r2 /\ r1 <> [] /\ q = made ++ r1).
  { intros g (r1 & r2 & -> & HN & ->) _. exists (c :: r1), r2. split; [reflexivity|]. split; [discriminate|]. rewrite <- app_assoc. reflexivity. }
  destruct (f (made ++ [c])) as [[|b t]|] eqn:E.
  - destruct (IH f (made ++ [c]) q) as [H|(H1 & H2 & H3)]; [left; exact H|]. right. split; [exact H1|]. split; [exact H2|]. exact (K f H3 H1).
  - left. reflexivity.
  - destruct (IH (set f (made ++ [c]) Dir) (made ++ [c]) q) as [H|(H1 & H2 & H3)].
    + destruct (set_cases f (made ++ [c]) Dir q) as [[-> HS]|[HN HS]]; [|left; congruence]. right. split; [congruence|]. split; [exact E|]. exists [c], rest. split; [reflexivity|]. split; [discriminate|reflexivity].
    + right. split; [exact H1|]. split; [|exact (K _ H3 H1)]. destruct (set_cases f (made ++ [c]) Dir q) as [[-> HS]|[HN HS]]; congruence.
Qed.
Lemma make_dirs_ok rest : forall f made, (forall r1 r2 b t, rest = r1 ++ r2 -> r1 <> [] -> f (made ++ r1) <> Some (File b t)) -> snd (make_dirs f made rest) = true.
Proof.
  induction rest as [|c rest IH]; intros f made H; cbn [make_dirs]; [reflexivity|].
  assert (K : forall r1 r2 b t, rest = r1 ++ r2 -> r1 <> [] -> f ((made ++ [c]) ++ r1) <> Some (File b t)).
  { intros r1 r2 b t -> HN. rewrite <- app_assoc. apply (H (c :: r1) r2); [reflexivity|discriminate]. }
  destruct (f (made ++ [c])) as [[|b t]|] eqn:E.
  - apply IH, K.
  - destruct (H [c] rest b t eq_refl ltac:(discriminate) E).
  - apply IH. intros r1 r2 b t Hr HN HS. destruct (set_cases f (made ++ [c]) Dir ((made ++ [c]) ++ r1)) as [[HE HS']|[HE HS']]; [congruence|]. rewrite HS' in HS. exact (K r1 r2 b t Hr HN HS).
Qed.
Lemma write_cases f p b o t q : write f p b o t q = f q \/ (q = p /\ exists b', write f p b o t q = Some (File b' t)).
Proof.
  unfold write. destruct (f p) as [[|b0 t0]|]; [left; reflexivity| |]; (destruct o as [|n|]; [left; reflexivity| |]);
    match goal with |- context [set f p ?x q] => destruct (set_cases f p x q) as [[-> HS]|[HN HS]]; [right; split; [reflexivity|eauto]|left; exact HS] end.
Qed.
(** saving changes only the place of the address and what is above it *)
Lemma save_cases f p b o t q : p <> [] -> save_to_cache f p b o t q = f q \/ (q = p /\ exists b', save_to_cache f p b o t q = Some (File b' t)) \/
  (save_to_cache f p b o t q = Some Dir /\ exists r, r <> [] /\ p = q ++ r).
Proof.
  intros HP. unfold save_to_cache.
  assert (K : match make_dirs f [] (removelast p) with (f0, true) => write f0 p b o t | (f0, false) => f0 end q = f q \/
     (q = p /\ exists b', match make_dirs f [] (removelast p) with (f0, true) => write f0 p b o t | (f0, false) => f0 end q = Some (File b' t)) \/
     (match make_dirs f [] (removelast p) with (f0, true) => write f0 p b o t | (f0, false) => f0 end q = Some Dir /\ exists r, r <> [] /\ p = q ++ r)).
  { pose proof (make_dirs_cases (removelast p) f [] q) as HM. destruct (make_dirs f [] (removelast p)) as [g ok]. cbn [fst] in HM.
    assert (HD : g q = f q \/ (g q = Some Dir /\ exists r, r <> [] /\ p = q ++ r)).
    { destruct HM as [HM|(HM & _ & r1 & r2 & E & _ & Eq)]; [left; exact HM|]. right. split; [exact HM|]. cbn [app] in Eq. subst r1. exists (r2 ++ [last p []]). split; [destruct r2; discriminate|].
      rewrite app_assoc, <- E. apply app_removelast_last, HP. }
    destruct ok; [|destruct HD as [HD|HD]; auto]. destruct (write_cases g p b o t q) as [HW|[-> HW]]; [rewrite HW; destruct HD as [HD|HD]; auto|auto]. }
  destruct (f p) as [[|b0 t0]|]; [exact K| |exact K]. destruct (write_cases f p b o t q) as [HW|HW]; auto.
Qed.
Lemma path_filled u : cache_path u <> [].
Proof. discriminate. Qed.
Lemma after_snoc h w : after (h ++ [w]) = save_to_cache (after h) (cache_path (w_url w)) (w_bytes w) (w_outcome w) (w_time w).
Proof. unfold after. rewrite fold_left_app. reflexivity. Qed.
Lemma undisturbed_snoc h w u : undisturbed (h ++ [w]) u -> undisturbed h u /\ (w_url w = u \/ ~ in_the_way (cache_path (w_url w)) (cache_path u)).
Proof. intros H. split; [intros x Hx; apply H, in_or_app; left; exact Hx|]. apply H, in_or_app. right. left. reflexivity. Qed.
Lemma longer {A} (p r : list A) : p = p ++ r -> r = [].
Proof. intros H. rewrite <- (app_nil_r p) in H at 1. apply app_inv_head in H. congruence. Qed.
Lemma clear_way h u : undisturbed h u -> after h (cache_path u) <> Some Dir /\ forall q r b t, r <> [] -> cache_path u = q ++ r -> after h q <> Some (File b t).
Proof.
  induction h as [|w h IH] using rev_ind; intros HU; [split; [discriminate|intros; discriminate]|].
  apply undisturbed_snoc in HU as [HU HW]. destruct (IH HU) as [I1 I2]. rewrite after_snoc. split.
  - destruct (save_cases (after h) (cache_path (w_url w)) (w_bytes w) (w_outcome w) (w_time w) (cache_path u) (path_filled _)) as [H|[[_ [b' H]]|[H (r & HN & E)]]]; [congruence|congruence|].
    destruct HW as [HW|HW]; [rewrite HW in E; apply longer in E; contradiction|]. destruct HW. left. eauto.
  - intros q r b t HN E. destruct (save_cases (after h) (cache_path (w_url w)) (w_bytes w) (w_outcome w) (w_time w) q (path_filled _)) as [H|[[Eq [b' H]]|[H _]]].
    + rewrite H. eapply I2; eassumption.
    + destruct HW as [HW|HW]; [subst q; rewrite HW in E; apply longer in E; contradiction|]. destruct HW. right. exists r. congruence.
    + congruence.
Qed.
Definition content (f : files) (p : list str) : option (list N * N) := match f p with Some (File b t) => Some (b, t) | _ => None end.
Lemma str_list_dec (p q : list str) : {p = q} + {p <> q}.
Proof. destruct (path_eqb p q) eqn:E; [left; apply path_eqb_eq, E|right; intros H; apply path_eqb_eq in H; congruence]. Qed.
Lemma save_own h w u : undisturbed (h ++ [w]) u -> w_url w = u ->
  after (h ++ [w]) (cache_path u) = match w_outcome w with Refused => after h (cache_path u) | Cut n => Some (File (firstn n (w_bytes w)) (w_time w)) | Whole => Some (File (w_bytes w) (w_time w)) end.
Proof.
  intros HU HW. apply undisturbed_snoc in HU as [HU _]. destruct (clear_way h u HU) as [C1 C2]. rewrite after_snoc, HW. unfold save_to_cache.
  assert (K : forall g, g (cache_path u) <> Some Dir -> write g (cache_path u) (w_bytes w) (w_outcome w) (w_time w) (cache_path u) =
    match w_outcome w with Refused => g (cache_path u) | Cut n => Some (File (firstn n (w_bytes w)) (w_time w)) | Whole => Some (File (w_bytes w) (w_time w)) end).
  { intros g Hg. unfold write. destruct (g (cache_path u)) as [[|b0 t0]|] eqn:Eg; [contradiction| |]; destruct (w_outcome w); try exact Eg; apply set_same. }
  assert (HO : snd (make_dirs (after h) [] (removelast (cache_path u))) = true).
  { apply make_dirs_ok. intros r1 r2 b t E HN. cbn [app]. apply (C2 r1 (r2 ++ [last (cache_path u) []])); [destruct r2; discriminate|]. rewrite app_assoc, <- E. apply app_removelast_last, path_filled. }
  assert (HM : fst (make_dirs (after h) [] (removelast (cache_path u))) (cache_path u) = after h (cache_path u)).
  { destruct (make_dirs_cases (removelast (cache_path u)) (after h) [] (cache_path u)) as [H|(_ & _ & r1 & r2 & E & _ & Eq)]; [exact H|]. cbn [app] in Eq. subst r1.
    pose proof (app_removelast_last [] (path_filled u)) as HL. rewrite E, <- app_assoc in HL. apply longer in HL. destruct r2; discriminate. }
  destruct (after h (cache_path u)) as [[|b0 t0]|] eqn:EA; [contradiction| |].
  - rewrite K, EA by (rewrite EA; discriminate). reflexivity.
  - destruct (make_dirs (after h) [] (removelast (cache_path u))) as [g ok]. cbn [fst snd] in HO, HM. rewrite HO. rewrite K by (rewrite HM; discriminate). rewrite HM. reflexivity.
Qed.
Lemma save_another h w u : undisturbed (h ++ [w]) u -> w_url w <> u -> after (h ++ [w]) (cache_path u) = after h (cache_path u).
Proof.
  intros HU HW. apply undisturbed_snoc in HU as [HU [H|HN]]; [contradiction|]. rewrite after_snoc.
  destruct (save_cases (after h) (cache_path (w_url w)) (w_bytes w) (w_outcome w) (w_time w) (cache_path u) (path_filled _)) as [H|[[E _]|[_ (r & _ & E)]]]; [exact H| |]; destruct HN; left; [exists []; rewrite app_nil_r; congruence|eauto].
Qed.
Lemma copy_content h u c : undisturbed h u -> copy u h c -> content (after h) (cache_path u) = c.
Proof.
  intros HU HC. induction HC as [|h w c HC IH HN|h w c HC IH HR|h w c n HC IH HW HO|h w c HC IH HW HO].
  - reflexivity.
  - unfold content. rewrite (save_another _ _ _ HU HN). apply IH, (undisturbed_snoc _ _ _ HU).
  - destruct (undisturbed_snoc _ _ _ HU) as [HU' [HW|HN]].
    + unfold content. rewrite (save_own _ _ _ HU HW), HR. apply IH, HU'.
    + assert (HN' : w_url w <> u) by (intros E; apply HN; rewrite E; left; exists []; rewrite app_nil_r; reflexivity). unfold content. rewrite (save_another _ _ _ HU HN'). apply IH, HU'.
  - unfold content. rewrite (save_own _ _ _ HU HW), HO. reflexivity.
  - unfold content. rewrite (save_own _ _ _ HU HW), HO. reflexivity.
Qed.

Section Fetch.
Context {value : Type} (parse : list N -> option value) (default_ttl : option N).
Notation fetch := (fetch parse default_ttl).
Notation load := (load parse default_ttl).
Lemma caching_spec c : caching c <-> match c_options c with Some o => or_false (no_cache o) | None => false end = false.
Proof.
  unfold caching. destruct (c_options c) as [o|]; [|split; [reflexivity|intros _ o H; discriminate]]. split.
  - intros H. specialize (H o eq_refl). destruct (no_cache o) as [[]|]; [contradiction|reflexivity|reflexivity].
  - intros H o' E. injection E as <-. destruct (no_cache o) as [[]|]; cbn in H; congruence.
Qed.
Lemma fresh_spec c t : fresh default_ttl c t <-> match limit default_ttl c with Some ttl => (ttl <? c_now c - t) = false | None => True end.
Proof.
  unfold fresh. destruct (limit default_ttl c) as [ttl|]; [|split; [auto|intros _ ttl H; discriminate]]. split.
  - intros H. specialize (H ttl eq_refl). apply N.ltb_ge. lia.
  - intros H ttl' E. injection E as <-. apply N.ltb_ge in H. lia.
Qed.
Lemma load_spec f u c k : content f (cache_path u) = k ->
  (forall v, load f (cache_path u) (c_options c) (c_now c) = Some v <-> caching c /\ exists b t, k = Some (b, t) /\ fresh default_ttl c t /\ parse b = Some v) /\
  (forall v, load_ignoring_ttl parse default_ttl f (cache_path u) (c_options c) (c_now c) = Some v <-> caching c /\ exists b t, k = Some (b, t) /\ parse b = Some v).
Proof.
  intros HK. unfold load_ignoring_ttl, CacheModel.load, read_from_cache. cbn [no_cache cache_ttl]. unfold content in HK.
  assert (HCa := caching_spec c). split; intros v.
  - destruct (match c_options c with Some o => or_false (no_cache o) | None => false end) eqn:EN.
    + split; [discriminate|]. intros [HC _]. apply HCa in HC. discriminate.
    + assert (HC : caching c) by (apply HCa; reflexivity). clear HCa. destruct (f (cache_path u)) as [[|b t]|] eqn:EF; try (subst k; split; [discriminate|intros (_ & b & t & E & _); discriminate]).
      pose proof (fresh_spec c t) as HF. unfold limit in HF. subst k. destruct (match c_options c with Some o => cache_ttl o | None => default_ttl end) as [ttl|].
      * destruct (ttl <? c_now c - t).
        -- split; [discriminate|]. intros (_ & b' & t' & E & Hf & _). injection E as <- <-. apply HF in Hf. discriminate.
        -- split; [intros H; split; [exact HC|]; exists b, t; split; [reflexivity|]; split; [apply HF; reflexivity|exact H]|]. intros (_ & b' & t' & E & _ & H). injection E as <- <-. exact H.
      * split; [intros H; split; [exact HC|]; exists b, t; split; [reflexivity|]; split; [apply HF; exact I|exact H]|]. intros (_ & b' & t' & E & _ & H). injection E as <- <-. exact H.
  - assert (E0 : or_false (match c_options c with Some o => no_cache o | None => None end) = match c_options c with Some o => or_false (no_cache o) | None => false end) by (destruct (c_options c); reflexivity).
    rewrite E0. destruct (match c_options c with Some o => or_false (no_cache o) | None => false end) eqn:EN.
    + split; [discriminate|]. intros [HC _]. apply HCa in HC. discriminate.
    + assert (HC : caching c) by (apply HCa; reflexivity). destruct (f (cache_path u)) as [[|b t]|] eqn:EF; subst k; try (split; [discriminate|intros (_ & b & t & E & _); discriminate]).
      split; [intros H; split; [exact HC|]; exists b, t; split; [reflexivity|exact H]|]. intros (_ & b' & t' & E & H). injection E as <- <-. exact H.
Qed.
Lemma none_of {A} (o : option A) : (forall v, o <> Some v) -> o = None.
Proof. intros H. destruct o as [v|]; [destruct (H v eq_refl)|reflexivity]. Qed.

(** ** A copy that is fresh enough is used, and nothing is asked of the server. *)
Theorem C66_fresh_copy : forall h u c b t v f', undisturbed h u -> copy u h (Some (b, t)) ->
  caching c -> fresh default_ttl c t -> parse b = Some v -> fetch u c (after h) f' = (Value v, None).
Proof.
  intros h u c b t v f' HU HC Hc Hf Hp. destruct (load_spec (after h) u c _ (copy_content _ _ _ HU HC)) as [L _]. unfold CacheModel.fetch.
  rewrite (proj2 (L v)); [reflexivity|]. split; [exact Hc|]. exists b, t. auto.
Qed.
(** ** Otherwise the server's reply is the answer, and is saved. *)
Theorem C66_refetch : forall h u c k b f', undisturbed h u -> copy u h k ->
  (caching c -> forall b t v, k = Some (b, t) -> fresh default_ttl c t -> parse b <> Some v) ->
  c_offline c = false -> c_reply c = Some b -> fetch u c (after h) f' = (of_option (parse b) Failed, Some b).
Proof.
  intros h u c k b f' HU HC HN HO HR. destruct (load_spec (after h) u c _ (copy_content _ _ _ HU HC)) as [L _]. unfold CacheModel.fetch.
  rewrite (none_of (load (after h) (cache_path u) (c_options c) (c_now c))); [rewrite HO, HR; destruct (parse b); reflexivity|].
  intros v H. apply L in H as (Hc & b' & t & E & Hf & Hp). exact (HN Hc b' t v E Hf Hp).
Qed.
(** ** Offline, or when the server cannot be reached, a copy of any age is used. *)
Theorem C66_fallback : forall h h' u c k b t v, undisturbed (h ++ h') u -> copy u h k -> copy u (h ++ h') (Some (b, t)) ->
  (forall b t v, k = Some (b, t) -> fresh default_ttl c t -> parse b <> Some v) ->
  caching c -> parse b = Some v -> c_offline c = true \/ c_reply c = None -> fetch u c (after h) (after (h ++ h')) = (Value v, None).
Proof.
  intros h h' u c k b t v HU HC HC' HN Hc Hp HO. assert (HU0 : undisturbed h u) by (intros w Hw; apply HU, in_or_app; left; exact Hw).
  destruct (load_spec (after h) u c _ (copy_content _ _ _ HU0 HC)) as [L _]. destruct (load_spec (after (h ++ h')) u c _ (copy_content _ _ _ HU HC')) as [_ L']. unfold CacheModel.fetch.
  rewrite (none_of (load (after h) (cache_path u) (c_options c) (c_now c))) by (intros v' H; apply L in H as (_ & b' & t' & E & Hf & Hp'); exact (HN b' t' v' E Hf Hp')).
  rewrite (proj2 (L' v)) by (split; [exact Hc|]; exists b, t; auto). destruct HO as [-> | ->]; [reflexivity|]. destruct (c_offline c); reflexivity.
Qed.
(** ** Without a copy there is nothing offline, and an error when the server cannot be reached. *)
Theorem C66_nothing : forall h h' u c k k', undisturbed (h ++ h') u -> copy u h k -> copy u (h ++ h') k' ->
  (caching c -> forall b t v, k = Some (b, t) \/ k' = Some (b, t) -> parse b <> Some v) ->
  (c_offline c = true -> fetch u c (after h) (after (h ++ h')) = (Absent, None)) /\
  (c_offline c = false -> c_reply c = None -> fetch u c (after h) (after (h ++ h')) = (Failed, None)).
Proof.
  intros h h' u c k k' HU HC HC' HN. assert (HU0 : undisturbed h u) by (intros w Hw; apply HU, in_or_app; left; exact Hw).
  destruct (load_spec (after h) u c _ (copy_content _ _ _ HU0 HC)) as [L _]. destruct (load_spec (after (h ++ h')) u c _ (copy_content _ _ _ HU HC')) as [_ L']. unfold CacheModel.fetch.
  rewrite (none_of (load (after h) (cache_path u) (c_options c) (c_now c))) by (intros v' H; apply L in H as (Hc & b' & t' & E & Hf & Hp'); exact (HN Hc b' t' v' (or_introl E) Hp')).
  rewrite (none_of (load_ignoring_ttl parse default_ttl (after (h ++ h')) (cache_path u) (c_options c) (c_now c))) by (intros v' H; apply L' in H as (Hc & b' & t' & E & Hp'); exact (HN Hc b' t' v' (or_intror E) Hp')).
  split; [intros ->; reflexivity|intros -> ->; reflexivity].
Qed.
(** ** With caching switched off, the files have no part in the answer. *)
Theorem C66_no_cache : forall u c f f' g g', ~ caching c -> fetch u c f f' = fetch u c g g'.
Proof.
  intros u c f f' g g' HN. assert (K : forall f, load f (cache_path u) (c_options c) (c_now c) = None).
  { intros f0. apply none_of. intros v H. apply (load_spec f0 u c _ eq_refl) in H. tauto. }
  assert (K' : forall f, load_ignoring_ttl parse default_ttl f (cache_path u) (c_options c) (c_now c) = None).
  { intros f0. apply none_of. intros v H. apply (load_spec f0 u c _ eq_refl) in H. tauto. }
  unfold CacheModel.fetch. rewrite !K, !K'. reflexivity.
Qed.
(** ** Whatever is written when, and wherever writes are cut short: a schema that is given was sent for this address, now or before. The
    texts that were sent are such that no part of them from the beginning is another schema, as it is with objects in JSON. *)
Lemma copy_exists u : (forall u', {u' = u} + {u' <> u}) -> forall h, exists k, copy u h k.
Proof.
  intros D h. induction h as [|w h [k IH]] using rev_ind; [exists None; constructor|]. destruct (D (w_url w)) as [E|E]; [|exists k; apply copy_other; assumption].
  destruct (w_outcome w) as [|n|] eqn:EO; [exists k; apply copy_refused; assumption|eexists; eapply copy_cut; eassumption|eexists; eapply copy_whole; eassumption].
Qed.
Lemma copy_sent u h k : copy u h k -> forall b t, k = Some (b, t) -> exists w n, In w h /\ w_url w = u /\ w_time w = t /\ b = firstn n (w_bytes w).
Proof.
  induction 1 as [|h w k HC IH HN|h w k HC IH HR|h w k n HC IH HW HO|h w k HC IH HW HO]; intros b t E.
  - discriminate.
  - destruct (IH b t E) as (w' & n & Hi & H). exists w', n. split; [apply in_or_app; left; exact Hi|exact H].
  - destruct (IH b t E) as (w' & n & Hi & H). exists w', n. split; [apply in_or_app; left; exact Hi|exact H].
  - injection E as <- <-. exists w, n. split; [apply in_or_app; right; left; reflexivity|auto].
  - injection E as <- <-. exists w, (length (w_bytes w)). split; [apply in_or_app; right; left; reflexivity|]. rewrite firstn_all. auto.
Qed.
Lemma url_dec : forall u u' : url, {u = u'} + {u <> u'}.
Proof.
  assert (DN : forall a b : N, {a = b} + {a <> b}) by exact N.eq_dec. assert (DS : forall a b : str, {a = b} + {a <> b}) by (apply list_eq_dec, DN).
  decide equality; first [apply DS|apply (list_eq_dec DS)|decide equality].
Defined.
Theorem C66_own : forall h h' u c v, undisturbed (h ++ h') u ->
  (forall w n v, In w (h ++ h') -> w_url w = u -> parse (firstn n (w_bytes w)) = Some v -> parse (w_bytes w) = Some v) ->
  fst (fetch u c (after h) (after (h ++ h'))) = Value v ->
  (exists b, c_offline c = false /\ c_reply c = Some b /\ parse b = Some v) \/
  (exists w, In w (h ++ h') /\ w_url w = u /\ parse (w_bytes w) = Some v /\ (c_offline c = false -> c_reply c <> None -> fresh default_ttl c (w_time w))).
Proof.
  intros h h' u c v HU HP. assert (HU0 : undisturbed h u) by (intros w Hw; apply HU, in_or_app; left; exact Hw).
  destruct (copy_exists u (fun x => url_dec x u) h) as [k HC]. destruct (copy_exists u (fun x => url_dec x u) (h ++ h')) as [k' HC'].
  destruct (load_spec (after h) u c _ (copy_content _ _ _ HU0 HC)) as [L _]. destruct (load_spec (after (h ++ h')) u c _ (copy_content _ _ _ HU HC')) as [_ L']. unfold CacheModel.fetch.
  destruct (load (after h) (cache_path u) (c_options c) (c_now c)) as [v0|] eqn:E1; cbn [fst].
  - intros H. injection H as ->. pose proof (proj1 (L v) eq_refl) as (_ & b & t & Ek & Hf & Hp). destruct (copy_sent _ _ _ HC b t Ek) as (w & n & Hi & Hu & Ht & Hb). right. exists w.
    assert (Hi' : In w (h ++ h')) by (apply in_or_app; left; exact Hi). split; [exact Hi'|]. split; [exact Hu|]. split; [apply (HP w n v Hi' Hu); congruence|]. intros _ _. rewrite Ht. exact Hf.
  - assert (K : forall x, (match load_ignoring_ttl parse default_ttl (after (h ++ h')) (cache_path u) (c_options c) (c_now c) with Some v => Value v | None => x end) = Value v -> x <> Value v ->
      exists w, In w (h ++ h') /\ w_url w = u /\ parse (w_bytes w) = Some v).
    { intros x H Hx. destruct (load_ignoring_ttl parse default_ttl (after (h ++ h')) (cache_path u) (c_options c) (c_now c)) as [v0|] eqn:E2; [|contradiction]. injection H as ->.
      pose proof (proj1 (L' v) eq_refl) as (_ & b & t & Ek & Hp). destruct (copy_sent _ _ _ HC' b t Ek) as (w & n & Hi & Hu & Ht & Hb). exists w. split; [exact Hi|]. split; [exact Hu|]. apply (HP w n v Hi Hu). congruence. }
    destruct (c_offline c) eqn:EO; cbn [fst].
    + intros H. destruct (K Absent H ltac:(discriminate)) as (w & H1 & H2 & H3). right. exists w. split; [exact H1|]. split; [exact H2|]. split; [exact H3|]. discriminate.
    + destruct (c_reply c) as [b|] eqn:ER; cbn [fst].
      * destruct (parse b) as [v0|] eqn:EP; [|discriminate]. intros H. injection H as ->. left. exists b. auto.
      * intros H. destruct (K Failed H ltac:(discriminate)) as (w & H1 & H2 & H3). right. exists w. split; [exact H1|]. split; [exact H2|]. split; [exact H3|]. intros _ HX. contradiction.
Qed.
End Fetch.
Print Assumptions C66_fresh_copy. Print Assumptions C66_refetch. Print Assumptions C66_fallback. Print Assumptions C66_nothing. Print Assumptions C66_no_cache. Print Assumptions C66_own.

(** * Ordinary addresses have their own places *)
Lemma starts_spec p : forall s, starts p s = true <-> exists r, s = p ++ r.
Proof.
  induction p as [|a p IH]; intros s; cbn [starts]; [split; [intros _; exists s; reflexivity|reflexivity]|]. destruct s as [|b s]; [split; [discriminate|intros (r & H); discriminate]|].
  rewrite andb_true_iff, N.eqb_eq, IH. split; [intros [-> (r & ->)]; exists r; reflexivity|]. intros (r & H). injection H as -> ->. split; [reflexivity|exists r; reflexivity].
Qed.
Lemma ends_spec p s : ends p s = true <-> exists r, s = r ++ p.
Proof.
  unfold ends. rewrite starts_spec. split; intros (r & H).
  - exists (rev r). rewrite <- (rev_involutive s), H, rev_app_distr, rev_involutive. reflexivity.
  - exists (rev r). rewrite H, rev_app_distr. reflexivity.
Qed.
Lemma path_ends segments name : ends (lit ".json") (flat_map (fun s => 47 :: s) (segments ++ [name])) = true <-> json_name name.
Proof.
  rewrite ends_spec, flat_map_app. cbn [flat_map]. rewrite app_nil_r. unfold json_name. split.
  - intros (r & H). generalize dependent (flat_map (fun s => 47 :: s) segments). intros x H.
    assert (HL : (length (lit ".json") <= length name)%nat \/ (length name < length (lit ".json"))%nat) by lia. destruct HL as [HL|HL].
    + exists (firstn (length name - 5) name). rewrite <- (firstn_skipn (length name - 5) name) at 1. f_equal.
      assert (E : length (skipn (length name - 5) name) = length (lit ".json")) by (rewrite skipn_length; change (length (lit ".json")) with 5%nat in *; lia).
      rewrite <- (firstn_skipn (length name - 5) name) in H. rewrite app_comm_cons, app_assoc in H.
      assert (G : forall (a b c d : str), length b = length d -> a ++ b = c ++ d -> b = d).
      { clear. intros a b c d HL H. assert (HH : length a = length c) by (apply (f_equal (@length N)) in H; rewrite !app_length in H; lia). revert c HH H. induction a as [|x a IH]; intros [|y c] HH H; try discriminate; [exact H|]. injection HH as HH. injection H as _ H. exact (IH c HH H). }
      exact (G _ _ _ _ E H).
    + exfalso. assert (HX : exists z, lit ".json" = z ++ 47 :: name).
      { assert (G : forall (a b c d : str), (length b <= length d)%nat -> a ++ b = c ++ d -> exists z, d = z ++ b).
        { clear. intros a. induction a as [|x a IH]; intros b c d HL H.
          - cbn in H. subst b. rewrite app_length in HL. destruct c; [exists []; reflexivity|cbn in HL; lia].
          - destruct c as [|y c]; [exists (x :: a); symmetry; exact H|]. injection H as _ H. exact (IH b c d HL H). }
        apply (G x (47 :: name) r (lit ".json")); [cbn [length]; lia|exact H]. }
      destruct HX as (z & HX). assert (HI : In 47 (lit ".json")) by (rewrite HX; apply in_elt). cbn in HI. intuition discriminate.
  - intros (r & ->). exists (flat_map (fun s => 47 :: s) segments ++ 47 :: r). rewrite <- app_assoc. reflexivity.
Qed.
Lemma filled_all dirs : Forall (fun d : str => d <> [] /\ ~ json_name d) dirs -> filter filled dirs = dirs.
Proof. induction 1 as [|d dirs [HN _] H IH]; [reflexivity|]. cbn [filter]. destruct d; [contradiction|]. cbn [filled]. rewrite IH. reflexivity. Qed.
Lemma last_last_json (r : str) : last (r ++ lit ".json") 0 = 110.
Proof. change (lit ".json") with ([46; 106; 115; 111] ++ [110]). rewrite app_assoc. apply last_last. Qed.
Lemma plain_path u : plain u -> exists host dirs name, u = Url (u_scheme u) [] (Some host) None (dirs ++ [name]) None /\ name <> index_file /\
  (forall x, In x (u_scheme u :: host :: dirs) -> ~ json_name x) /\
  ((json_name name /\ cache_path u = (u_scheme u :: host :: dirs) ++ [name]) \/ (~ json_name name /\ cache_path u = (u_scheme u :: host :: dirs ++ [name]) ++ [index_file])).
Proof.
  intros [scheme host dirs name HS HH HD HN HI]. cbn [u_scheme]. exists host, dirs, name. split; [reflexivity|]. split; [exact HI|]. split.
  - intros x [<- |[<- |Hx]]; [|exact HH|rewrite Forall_forall in HD; apply (HD x Hx)]. intros (r & E). apply (f_equal (fun s => last s 0)) in E. rewrite last_last_json in E. destruct HS as [-> | ->]; discriminate.
  - unfold cache_path. cbn [u_scheme u_host u_segments]. rewrite filter_app, (filled_all _ HD). cbn [filter]. destruct name as [|c name]; [contradiction|]. cbn [filled].
    assert (HT : is_http (Url scheme [] (Some host) None (dirs ++ [c :: name]) None) = true) by (destruct HS as [-> | ->]; reflexivity). rewrite HT. cbn [andb]. unfold url_path. cbn [u_segments].
    pose proof (path_ends dirs (c :: name)) as HE. destruct (ends (lit ".json") (flat_map (fun s => 47 :: s) (dirs ++ [c :: name]))); cbn [negb app].
    + left. split; [apply HE; reflexivity|]. rewrite app_nil_r. reflexivity.
    + right. split; [intros H; apply HE in H; discriminate|]. rewrite <- app_assoc. reflexivity.
Qed.
Lemma apart (p q : list str) lp lq : (forall x, In x p -> ~ json_name x) -> (forall x, In x q -> ~ json_name x) -> json_name lp -> json_name lq ->
  in_the_way (p ++ [lp]) (q ++ [lq]) -> p = q /\ lp = lq.
Proof.
  assert (K : forall (p q : list str) lp lq, (forall x, In x p -> ~ json_name x) -> json_name lq -> (exists r, p ++ [lp] = (q ++ [lq]) ++ r) -> p = q /\ lp = lq).
  { clear. intros p q lp lq HP HL (r & E). destruct r as [|x r _] using rev_ind; [rewrite app_nil_r in E; apply app_inj_tail in E; exact E|].
    rewrite app_assoc in E. apply app_inj_tail in E as [E _]. destruct (HP lq); [rewrite E; apply in_or_app; left; apply in_or_app; right; left; reflexivity|exact HL]. }
  intros HP HQ HLp HLq [H|H]; [exact (K p q lp lq HP HLq H)|]. destruct (K q p lq lp HQ HLp H). auto.
Qed.
Theorem C66_places_partial : forall u u', plain u -> plain u' -> u <> u' -> ~ in_the_way (cache_path u) (cache_path u').
Proof.
  intros u u' HP HP' HN HW. apply HN. destruct (plain_path u HP) as (host & dirs & name & Eu & HI & HJ & HC). destruct (plain_path u' HP') as (host' & dirs' & name' & Eu' & HI' & HJ' & HC').
  assert (JI : json_name index_file) by (exists (lit "__index__"); reflexivity).
  assert (X : forall s h d n, ~ json_name n -> (forall x, In x (s :: h :: d) -> ~ json_name x) -> forall x, In x (s :: h :: d ++ [n]) -> ~ json_name x).
  { clear. intros s h d n Hn H x [<- |[<- |Hx]]; [apply H; left; reflexivity|apply H; right; left; reflexivity|]. apply in_app_or in Hx as [Hx|[<- |[]]]; [apply H; right; right; exact Hx|exact Hn]. }
  assert (same : forall x x', x :: dirs ++ [name] = x' :: dirs' ++ [name'] -> u_scheme u = u_scheme u' -> host = host' -> u = u').
  { intros x x' E ES EH. injection E as _ E. rewrite Eu, Eu', ES, EH, E. reflexivity. }
  destruct HC as [[HJn HC]|[HJn HC]], HC' as [[HJn' HC']|[HJn' HC']]; rewrite HC, HC' in HW.
  - destruct (apart _ _ _ _ HJ HJ' HJn HJn' HW) as [EW EL]. injection EW as ES EH ED. apply (same [] []); [congruence|exact ES|exact EH].
  - destruct (apart _ _ _ _ HJ (X _ _ _ _ HJn' HJ') HJn JI HW) as [_ EL]. contradiction.
  - destruct (apart _ _ _ _ (X _ _ _ _ HJn HJ) HJ' JI HJn' HW) as [_ EL]. congruence.
  - destruct (apart _ _ _ _ (X _ _ _ _ HJn HJ) (X _ _ _ _ HJn' HJ') JI JI HW) as [EW _]. injection EW as ES EH ED. apply (same [] []); [congruence|exact ES|exact EH].
Qed.
Print Assumptions C66_places_partial.

(** * Examples *)
Definition address (port : option N) (query : option str) : url := Url (lit "https") [] (Some (lit "h.org")) port [lit "a"; lit "s.json"] query.
Definition parse_ex (b : list N) : option (list N) := if str_eqb b (lit "{}") || str_eqb b (lit "{1}") then Some b else None.
Definition call_ex (now : N) (offline : bool) (reply : option (list N)) : call := Call now (Some (Options None (Some 100))) offline reply.
Example C66_example_plain : plain (address None None).
Proof.
  apply (plain_url (lit "https") (lit "h.org") [lit "a"] (lit "s.json")); [right; reflexivity| | |discriminate|discriminate].
  - intros (r & E). apply (f_equal (fun s => last s 0)) in E. rewrite last_last_json in E. discriminate.
  - constructor; [|constructor]. split; [discriminate|]. intros (r & E). apply (f_equal (fun s => last s 0)) in E. rewrite last_last_json in E. discriminate.
Qed.
Example C66_example : let h := [Saved (address None None) (lit "{}") Whole 5] in
  undisturbed h (address None None) /\ copy (address None None) h (Some (lit "{}", 5)) /\
  fetch parse_ex None (address None None) (call_ex 50 false (Some (lit "{1}"))) (after h) (after h) = (Value (lit "{}"), None) /\
  fetch parse_ex None (address None None) (call_ex 500 false (Some (lit "{1}"))) (after h) (after h) = (Value (lit "{1}"), Some (lit "{1}")) /\
  fetch parse_ex None (address None None) (call_ex 500 true None) (after h) (after h) = (Value (lit "{}"), None).
Proof.
  cbv zeta. split; [intros w [<- |[]]; left; reflexivity|]. split; [apply (copy_whole _ [] (Saved (address None None) (lit "{}") Whole 5) None); [constructor|reflexivity|reflexivity]|].
  split; [vm_compute; reflexivity|]. split; vm_compute; reflexivity.
Qed.

(** * What the code does otherwise
    Addresses that differ in the port or in the query share a place: the schema of one is given for the other. *)
Theorem C66_shared_refuted : forall u u', (u = address (Some 8001) None /\ u' = address (Some 8002) None) \/ (u = address None (Some (lit "v=1")) /\ u' = address None (Some (lit "v=2"))) ->
  u <> u' /\ fetch parse_ex None u' (call_ex 50 false (Some (lit "{1}"))) (after [Saved u (lit "{}") Whole 5]) (after [Saved u (lit "{}") Whole 5]) = (Value (lit "{}"), None).
Proof. intros u u' [[-> ->]|[-> ->]]; (split; [discriminate|vm_compute; reflexivity]). Qed.
Print Assumptions C66_shared_refuted.
(** When the copy is refreshed and the process stops in the middle of the write, the schema that was there is lost. *)
Theorem C66_crash_refuted : let h := [Saved (address None None) (lit "{}") Whole 5; Saved (address None None) (lit "{}") (Cut 1) 500] in
  undisturbed h (address None None) /\ fetch parse_ex None (address None None) (call_ex 600 true None) (after h) (after h) = (Absent, None).
Proof. cbv zeta. split; [intros w [<- |[<- |[]]]; left; reflexivity|vm_compute; reflexivity]. Qed.
Print Assumptions C66_crash_refuted.
(** A reply that is no schema is saved over the schema that was there. *)
Theorem C66_garbage_refuted : let u := address None None in let h := [Saved u (lit "{}") Whole 5] in
  fetch parse_ex None u (call_ex 500 false (Some (lit "<html>"))) (after h) (after h) = (Failed, Some (lit "<html>")) /\
  let h' := h ++ [Saved u (lit "<html>") Whole 500] in
  fetch parse_ex None u (call_ex 510 true None) (after h') (after h') = (Absent, None).
Proof. split; vm_compute; reflexivity. Qed.
Print Assumptions C66_garbage_refuted.
