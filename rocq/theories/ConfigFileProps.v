(** C62: which configuration file is used. *)
From Coq Require Import String Ascii List NArith Bool Arith Lia.
From Verif Require Import Base ConfigFileModel.
Import ListNotations.
Open Scope list_scope.

(** * Specification
    The places of a project configuration below a directory, the first being preferred. *)
Definition places : list (list (list N)) :=
  [[lit ".tombi.toml"]; [lit "tombi.toml"]; [lit ".config"; lit "tombi.toml"]; [lit "pyproject.toml"]].
(** the places to look at, in order: those of the directory, then those of its parent, and so on *)
Fixpoint ancestors_of (d : list (list N)) : list (list (list N)) :=
  match d with
  | [] => [[]]
  | c :: d => map (cons c) (ancestors_of d) ++ [[]]
  end.
Definition candidates (d : list (list N)) : list (list (list N)) :=
  flat_map (fun dir => map (app dir) places) (ancestors_of d).

Section Spec.
  Context {config text : Type}.
  Context (is_file : list (list N) -> bool) (read : list (list N) -> option text).
  Context (from_str : text -> option config) (pyproject : text -> option (option config)).
  (** [usable p c]: [p] is a file that can be read, and it holds the configuration [c]: as a whole, or in
      [tool.tombi] of a [pyproject.toml] *)
  Definition usable (p : list (list N)) (c : config) : Prop :=
    is_file p = true /\ exists t, read p = Some t /\
      if str_eqb (last p []) (lit "pyproject.toml") then pyproject t = Some (Some c) else from_str t = Some c.
  (** [p] is the first element of the list with the property [P] *)
  Definition first_of {A} (P : A -> Prop) (l : list A) (x : A) : Prop :=
    exists before after, l = before ++ x :: after /\ P x /\ Forall (fun y => ~ P y) before.
End Spec.

(** * Proofs *)
Section Proofs.
  Context {config text : Type}.
  Context (is_file : list (list N) -> bool) (read : list (list N) -> option text).
  Context (from_str : text -> option config) (pyproject : text -> option (option config)).
  Notation usable := (usable is_file read from_str pyproject).
  Notation try_directory := (try_directory is_file read from_str pyproject).
  Notation climb := (climb is_file read from_str pyproject).

  Lemma last_app_ne (d n : list (list N)) : n <> [] -> last (d ++ n) [] = last n [].
  Proof. intros H. induction d as [|c d IH]; [reflexivity|]. cbn [app]. destruct (d ++ n) eqn:E; [destruct d; [contradiction|discriminate]|]. cbn [last] in *. exact IH. Qed.
  (** the first usable of a list of places *)
  Fixpoint pick (l : list (list (list N))) : option (config * list (list N)) :=
    match l with
    | [] => None
    | p :: l =>
        match (if is_file p then read p else None) with
        | Some t =>
            match (if str_eqb (last p []) (lit "pyproject.toml") then match pyproject t with Some o => o | None => None end else from_str t) with
            | Some c => Some (c, p)
            | None => pick l
            end
        | None => pick l
        end
    end.
  Lemma pick_app l m : pick (l ++ m) = match pick l with Some r => Some r | None => pick m end.
  Proof. induction l as [|p l IH]; [reflexivity|]. cbn [app pick]. rewrite IH. destruct (if is_file p then read p else None); [|reflexivity]. destruct (if str_eqb _ _ then _ else _); reflexivity. Qed.
  Lemma pick_first l c p : pick l = Some (c, p) -> first_of (fun q => exists c, usable q c) l p /\ usable p c.
  Proof.
    induction l as [|q l IH]; [discriminate|]. cbn [pick].
    assert (K : forall d, usable q d -> exists t, (if is_file q then read q else None) = Some t /\ (if str_eqb (last q []) (lit "pyproject.toml") then match pyproject t with Some o => o | None => None end else from_str t) = Some d).
    { intros d (A & t & B & C). exists t. rewrite A. split; [exact B|]. destruct (str_eqb _ _); [rewrite C; reflexivity|exact C]. }
    assert (L : pick l = Some (c, p) -> (forall d, ~ usable q d) -> first_of (fun q => exists c, usable q c) (q :: l) p /\ usable p c).
    { intros H HN. destruct (IH H) as [(before & after & -> & A & B) C]. split; [|exact C]. exists (q :: before), after. split; [reflexivity|]. split; [exact A|]. constructor; [intros [d Hd]; exact (HN d Hd)|exact B]. }
    destruct (if is_file q then read q else None) as [t|] eqn:E1.
    - destruct (if str_eqb (last q []) (lit "pyproject.toml") then match pyproject t with Some o => o | None => None end else from_str t) as [d|] eqn:E2.
      + intros H. injection H as -> ->.
        assert (U : usable p c).
        { unfold ConfigFileProps.usable. destruct (is_file p); [|discriminate]. split; [reflexivity|]. exists t. split; [exact E1|]. destruct (str_eqb _ _); [destruct (pyproject t) as [o|]; [congruence|discriminate]|exact E2]. }
        split; [|exact U]. exists [], l. split; [reflexivity|]. split; [eauto|constructor].
      + intros H. apply L; [exact H|]. intros d Hd. destruct (K d Hd) as (t' & A & B). injection A as <-. congruence.
    - intros H. apply L; [exact H|]. intros d Hd. destruct (K d Hd) as (t' & A & B). discriminate.
  Qed.
  Lemma pick_none l : pick l = None -> Forall (fun q => ~ exists c, usable q c) l.
  Proof.
    induction l as [|q l IH]; [constructor|]. cbn [pick]. intros H.
    assert (K : forall d, usable q d -> exists t, (if is_file q then read q else None) = Some t /\ (if str_eqb (last q []) (lit "pyproject.toml") then match pyproject t with Some o => o | None => None end else from_str t) = Some d).
    { intros d (A & t & B & C). exists t. rewrite A. split; [exact B|]. destruct (str_eqb _ _); [rewrite C; reflexivity|exact C]. }
    destruct (if is_file q then read q else None) as [t|] eqn:E1; [destruct (if str_eqb (last q []) (lit "pyproject.toml") then match pyproject t with Some o => o | None => None end else from_str t) as [d|] eqn:E2; [discriminate|]|];
      (constructor; [|apply IH, H]); intros [d Hd]; destruct (K d Hd) as (t' & A & B); try discriminate A; injection A as <-; rewrite E2 in B; discriminate.
  Qed.
  Lemma directory_pick dir : try_directory dir = option_map (fun r => Loaded (fst r) (snd r) Project) (pick (map (app dir) places)).
  Proof.
    unfold ConfigFileModel.try_directory. cbn [try_names config_names places map pick]. unfold try_from_path. rewrite !last_app_ne by discriminate. cbn [last].
    repeat match goal with |- context [str_eqb (lit ?a) (lit ?b)] => let v := eval vm_compute in (str_eqb (lit a) (lit b)) in change (str_eqb (lit a) (lit b)) with v end. cbn [orb].
    repeat (match goal with |- context [is_file ?p] => destruct (is_file p) | |- context [read ?p] => destruct (read p) | |- context [from_str ?t] => destruct (from_str t) | |- context [pyproject ?t] => destruct (pyproject t) as [[]|] end; cbn [option_map fst snd]; try reflexivity).
  Qed.
  Lemma ancestors_snoc d c : ancestors_of (d ++ [c]) = (d ++ [c]) :: ancestors_of d.
  Proof. induction d as [|x d IH]; [reflexivity|]. cbn [app ancestors_of]. rewrite IH. cbn [map app]. reflexivity. Qed.
  Lemma climb_pick d : climb (rev d) = option_map (fun r => Loaded (fst r) (snd r) Project) (pick (candidates d)).
  Proof.
    unfold candidates. induction d as [|c d IH] using rev_ind.
    - cbn [rev ConfigFileModel.climb ancestors_of flat_map]. rewrite directory_pick, app_nil_r. destruct (pick _); reflexivity.
    - rewrite ancestors_snoc, rev_app_distr. cbn [rev app ConfigFileModel.climb flat_map]. rewrite rev_involutive, pick_app, directory_pick. destruct (pick (map (app (d ++ [c])) places)); [reflexivity|exact IH].
  Qed.
End Proofs.

(** ** C62, part 1: the project configuration is the first usable of the candidates: the nearest directory
    wins, and in it the order of [places]; files that cannot be read or hold no configuration are passed over. *)
Theorem C62_project : forall config text is_file read (from_str : text -> option config) pyproject xdg home d c p,
  load is_file read from_str pyproject xdg home (Some d) = Loaded c p Project <->
  first_of (fun q => exists c, usable is_file read from_str pyproject q c) (candidates d) p /\ usable is_file read from_str pyproject p c.
Proof.
  intros config text is_file read from_str pyproject xdg home d c p. unfold load. rewrite climb_pick. split.
  - destruct (pick is_file read from_str pyproject (candidates d)) as [[c' p']|] eqn:E; cbn [option_map fst snd].
    + intros H. injection H as -> ->. eapply pick_first, E.
    + destruct (user_path is_file xdg home) as [[q l]|] eqn:EU; [|discriminate]. destruct (try_from_path is_file read from_str pyproject q) as [[c'|]|]; try discriminate. intros H. injection H as -> -> ->.
      exfalso. unfold user_path in EU. apply find_some in EU. destruct EU as [HI _]. unfold user_places in HI. apply in_app_or in HI. destruct HI as [HI|HI]; [destruct xdg; [destruct HI as [HI|[]]|contradiction]; discriminate|].
      apply in_app_or in HI. destruct HI as [HI|[HI|[]]]; [destruct home; [destruct HI as [HI|[]]|contradiction]; discriminate|discriminate].
  - intros [(before & after & HC & HU & HB) Hc]. destruct (pick is_file read from_str pyproject (candidates d)) as [[c' p']|] eqn:E.
    + cbn [option_map fst snd]. apply pick_first in E. destruct E as [(before' & after' & HC' & HU' & HB') Hc']. rewrite HC in HC'.
      assert (K : forall (b b' : list (list (list N))) x x' a a', b ++ x :: a = b' ++ x' :: a' ->
        Forall (fun y => ~ exists c, usable is_file read from_str pyproject y c) b -> Forall (fun y => ~ exists c, usable is_file read from_str pyproject y c) b' ->
        (exists c, usable is_file read from_str pyproject x c) -> (exists c, usable is_file read from_str pyproject x' c) -> x = x').
      { clear. induction b as [|y b IH]; intros [|y' b'] x x' a a' E H H' Hx Hx'; cbn [app] in E; injection E as E1 E2; subst.
        - reflexivity.
        - inversion H'; subst. contradiction.
        - inversion H; subst. contradiction.
        - inversion H; inversion H'; subst. eapply IH; eassumption. }
      pose proof (K _ _ _ _ _ _ HC' HB HB' HU HU') as <-.
      assert (c' = c). { destruct Hc as (_ & t & A & B). destruct Hc' as (_ & t' & A' & B'). rewrite A in A'. injection A' as <-. destruct (str_eqb _ _); congruence. } subst c'. reflexivity.
    + exfalso. apply pick_none in E. rewrite HC in E. apply Forall_app in E. destruct E as [_ E]. inversion E; subst. contradiction.
Qed.
Print Assumptions C62_project.

(** ** C62, part 2: without a usable project configuration, the file of the user or of the system that exists
    first is used, and the defaults if none exists. *)
Definition outside_places (xdg home : option (list (list N))) : list (list (list N) * level) :=
  (match xdg with Some d => [(d ++ [lit "tombi"; lit "config.toml"], User)] | None => [] end) ++
  (match home with Some d => [(d ++ [lit ".config"; lit "tombi"; lit "config.toml"], User)] | None => [] end) ++
  [([lit "etc"; lit "tombi"; lit "config.toml"], System)].
Definition no_project {config text} is_file read (from_str : text -> option config) pyproject (search_dir : option (list (list N))) : Prop :=
  forall d q c, search_dir = Some d -> In q (candidates d) -> ~ usable is_file read from_str pyproject q c.
Lemma load_outside config text is_file read (from_str : text -> option config) pyproject xdg home dir :
  no_project is_file read from_str pyproject dir ->
  load is_file read from_str pyproject xdg home dir =
  match user_path is_file xdg home with
  | Some (p, l) => match try_from_path is_file read from_str pyproject p with Some (Some c) => Loaded c p l | _ => Panics end
  | None => NoConfig
  end.
Proof.
  intros HN. unfold load. destruct dir as [d|]; [|reflexivity]. rewrite climb_pick. destruct (pick is_file read from_str pyproject (candidates d)) as [[c p]|] eqn:E; [|reflexivity].
  exfalso. apply pick_first in E. destruct E as [(before & after & HC & _) HU]. eapply (HN d p c eq_refl); [rewrite HC; apply in_elt|exact HU].
Qed.
Lemma find_first {A} (f : A -> bool) l x : find f l = Some x <-> first_of (fun y => f y = true) l x.
Proof.
  split.
  - induction l as [|y l IH]; [discriminate|]. cbn [find]. destruct (f y) eqn:E.
    + intros H. injection H as ->. exists [], l. auto.
    + intros H. destruct (IH H) as (b & a & -> & Hx & HB). exists (y :: b), a. split; [reflexivity|]. split; [exact Hx|]. constructor; [congruence|exact HB].
  - intros (b & a & -> & Hx & HB). induction HB as [|y b Hy HB IH]; cbn [app find]; [rewrite Hx; reflexivity|]. destruct (f y); [congruence|exact IH].
Qed.
Lemma outside_name xdg home p l : In (p, l) (outside_places xdg home) -> last p [] = lit "config.toml".
Proof.
  unfold outside_places. intros HI. apply in_app_or in HI. destruct HI as [HI|HI]; [destruct xdg; [destruct HI as [HI|[]]|contradiction]; injection HI as <- <-; apply last_app_ne; discriminate|].
  apply in_app_or in HI. destruct HI as [HI|[HI|[]]]; [destruct home; [destruct HI as [HI|[]]|contradiction]; injection HI as <- <-; apply last_app_ne; discriminate|injection HI as <- <-; reflexivity].
Qed.
Theorem C62_outside : forall config text is_file read (from_str : text -> option config) pyproject xdg home dir p l c,
  no_project is_file read from_str pyproject dir ->
  first_of (fun e => is_file (fst e) = true) (outside_places xdg home) (p, l) ->
  usable is_file read from_str pyproject p c ->
  load is_file read from_str pyproject xdg home dir = Loaded c p l.
Proof.
  intros config text is_file read from_str pyproject xdg home dir p l c HN HF HU. rewrite load_outside by exact HN. unfold user_path. change (user_places xdg home) with (outside_places xdg home).
  pose proof HF as HF'. apply find_first in HF. rewrite HF. destruct HF' as (b & a & HE & _). assert (HI : In (p, l) (outside_places xdg home)) by (rewrite HE; apply in_elt). apply outside_name in HI.
  destruct HU as (A & t & B & C). unfold try_from_path. rewrite A, B, HI. rewrite HI in C. change (str_eqb (lit "config.toml") (lit "pyproject.toml")) with false in C. cbv iota in C. cbn [str_eqb orb]. rewrite C. reflexivity.
Qed.
Print Assumptions C62_outside.
Theorem C62_default : forall config text is_file read (from_str : text -> option config) pyproject xdg home dir,
  no_project is_file read from_str pyproject dir ->
  Forall (fun e => is_file (fst e) = false) (outside_places xdg home) ->
  load is_file read from_str pyproject xdg home dir = NoConfig.
Proof.
  intros config text is_file read from_str pyproject xdg home dir HN HF. rewrite load_outside by exact HN. unfold user_path. change (user_places xdg home) with (outside_places xdg home).
  destruct (find _ _) as [e|] eqn:E; [|reflexivity]. apply find_some in E. rewrite Forall_forall in HF. destruct E as [HI E]. rewrite (HF _ HI) in E. discriminate.
Qed.
Print Assumptions C62_default.

(** ** C62, part 3: the search panics exactly when the first existing file of the user or the system is used
    although it cannot be read as a configuration. *)
Theorem C62_panics : forall config text is_file read (from_str : text -> option config) pyproject xdg home dir,
  load is_file read from_str pyproject xdg home dir = Panics <->
  no_project is_file read from_str pyproject dir /\
  exists p l, first_of (fun e => is_file (fst e) = true) (outside_places xdg home) (p, l) /\ forall c, ~ usable is_file read from_str pyproject p c.
Proof.
  intros config text is_file read from_str pyproject xdg home dir. split.
  - intros H. assert (HN : no_project is_file read from_str pyproject dir).
    { intros d q c -> HI HU. unfold load in H. rewrite climb_pick in H. destruct (pick is_file read from_str pyproject (candidates d)) as [[c' p']|] eqn:E; [discriminate|].
      apply pick_none in E. rewrite Forall_forall in E. apply (E q HI). eauto. }
    split; [exact HN|]. rewrite load_outside in H by exact HN. destruct (user_path is_file xdg home) as [[p l]|] eqn:E; [|discriminate]. exists p, l. unfold user_path in E. apply find_first in E. split; [exact E|].
    intros c (A & t & B & C). destruct E as (b & a & HE & _). assert (HI : In (p, l) (outside_places xdg home)) by (change (outside_places xdg home) with (user_places xdg home); rewrite HE; apply in_elt). apply outside_name in HI.
    unfold try_from_path in H. rewrite A, B, HI in H. rewrite HI in C. change (str_eqb (lit "config.toml") (lit "pyproject.toml")) with false in C. cbv iota in C. cbn [str_eqb orb] in H. rewrite C in H. discriminate.
  - intros [HN (p & l & HF & HU)]. rewrite load_outside by exact HN. unfold user_path. change (user_places xdg home) with (outside_places xdg home). pose proof HF as HF'. apply find_first in HF. rewrite HF.
    destruct HF' as (b & a & HE & Hp & _). cbn [fst] in Hp. assert (HI : In (p, l) (outside_places xdg home)) by (rewrite HE; apply in_elt). apply outside_name in HI.
    unfold try_from_path. rewrite Hp, HI. destruct (read p) as [t|] eqn:ER; [|reflexivity]. destruct (from_str t) as [c|] eqn:EF; [|reflexivity]. exfalso. apply (HU c). split; [exact Hp|]. exists t. split; [exact ER|]. rewrite HI. exact EF.
Qed.
Print Assumptions C62_panics.

(** ** Examples: texts are numbers, [from_str] reads even ones; [/w/p/tombi.toml] is broken, [/w/p/pyproject.toml]
    has no [tool.tombi], [/w/.config/tombi.toml] and [/w/pyproject.toml] are in order. *)
Open Scope N_scope.
Definition ex_read (p : list (list N)) : option N :=
  if list_eq_dec (list_eq_dec N.eq_dec) p [lit "w"; lit "p"; lit "tombi.toml"] then Some 1
  else if list_eq_dec (list_eq_dec N.eq_dec) p [lit "w"; lit "p"; lit "pyproject.toml"] then Some 3
  else if list_eq_dec (list_eq_dec N.eq_dec) p [lit "w"; lit ".config"; lit "tombi.toml"] then Some 4
  else if list_eq_dec (list_eq_dec N.eq_dec) p [lit "w"; lit "pyproject.toml"] then Some 6
  else if list_eq_dec (list_eq_dec N.eq_dec) p [lit "etc"; lit "tombi"; lit "config.toml"] then Some 5 else None.
Definition ex_is_file p := match ex_read p with Some _ => true | None => false end.
Definition ex_from_str (t : N) := if N.even t then Some t else None.
Definition ex_pyproject (t : N) := Some (ex_from_str t).
Example C62_example :
  load ex_is_file ex_read ex_from_str ex_pyproject None None (Some [lit "w"; lit "p"]) = Loaded 4 [lit "w"; lit ".config"; lit "tombi.toml"] Project.
Proof. vm_compute. reflexivity. Qed.

(** A broken configuration of the user or the system makes every command panic where no project
    configuration is found. *)
Theorem C62_panic_refuted :
  load ex_is_file ex_read ex_from_str ex_pyproject None None (Some [lit "other"]) = Panics.
Proof. vm_compute. reflexivity. Qed.
Print Assumptions C62_panic_refuted.
