(** C28, C48: the documents and diagnostics of the language server under every
    schedule of its handlers. *)

From Coq Require Import List NArith ZArith Bool Lia.
From Verif Require Import Base ServerModel ServerSpec ServerProofs.
Import ListNotations.
Open Scope N_scope.
Open Scope list_scope.

(** C28 for one session whose opening has been stored before the first change
    arrives: under every schedule of changes, formatting, saving, disk reads
    and diagnostics, the text stored is at every moment the one sent with the
    version stored, or a formatting of it; and once all handlers have finished
    it is the editor's version and text, exactly if nothing was formatted.
    Not covered, and false (below): changes that arrive while the opening is
    under way, closing and opening again, deletion of the file. *)
Theorem C28_document_converges_partial :
  forall fmt target s1 s2 v0 t0 q1 q2,
  received s1 = q1 ++ MOpen v0 t0 :: q2 -> Forall quiet q1 -> Forall quiet q2 ->
  (forall t, In t (g_tasks (exec fmt (init target) s1)) -> opening t = false) ->
  Forall editing (received s2) -> growing v0 (received s2) ->
  let c := exec fmt (init target) (s1 ++ s2) in
  (exists v t, In (v, t) ((v0, t0) :: sent (received s2)) /\ agrees fmt c v t) /\
  (idle c ->
   exists v t, editor None (received s1 ++ received s2) = Some (v, t) /\ agrees fmt c v t /\
     (~ In MFormat (received s1 ++ received s2) ->
      forall s, w_doc (g_world c) = Some s -> s_text s = t)).
Proof.
  intros fmt target s1 s2 v0 t0 q1 q2 Hr H1 H2 Hopen Hed Hgr c.
  assert (Hedit : editor None (received s1 ++ received s2) =
                  Some (last (sent (received s2)) (v0, t0))).
  { rewrite Hr, <- app_assoc.
    assert (Hq : forall q d h, Forall quiet q -> editor d (q ++ h) = editor d h).
    { clear. induction q as [| m q IH]; intros d h Hq; [reflexivity |].
      inversion Hq; subst. destruct m; cbn in *; try tauto; apply IH; assumption. }
    rewrite Hq by exact H1. cbn [app editor]. rewrite Hq by exact H2.
    now apply editor_sent. }
  assert (Hlast : forall app pend a v x, (v0, t0) :: sent (received s2) = app ++ pend ->
    pend = [] -> app = a ++ [(v, x)] -> last (sent (received s2)) (v0, t0) = (v, x)).
  { intros app pend a v x E1 -> ->. rewrite app_nil_r in E1.
    assert (G : forall (l : list (Z * list N)) d, last (d :: l) d = last l d).
    { clear. intros [| p l] d; reflexivity. }
    rewrite <- G, E1. apply last_last. }
  pose proof (inv_all fmt true target s1 s2 v0 t0 q1 q2 Hr H1 H2 Hopen Hed Hgr (fun _ => eq_refl))
    as (_ & app & pend & E & Hinc & Hpend & _ & _ & a & v & x & Ha & s & Hs & Hv & Hd).
  split.
  - exists v, x. split.
    + rewrite E, Ha, <- app_assoc. apply in_or_app. right. now left.
    + exists s. auto.
  - intro Hidle. unfold idle in Hidle. fold c in Hpend. rewrite Hidle in Hpend. cbn in Hpend.
    exists v, x. rewrite Hedit. rewrite (Hlast app pend a v x E (eq_sym Hpend) Ha).
    split; [reflexivity |]. split; [exists s; auto |].
    intros Hnf s' Hs'. fold c in Hs. rewrite Hs in Hs'. injection Hs' as <-.
    assert (Hno : existsb formats (q1 ++ q2 ++ received s2) = true -> false = true).
    { intro Hx. exfalso. apply Hnf. apply existsb_exists in Hx. destruct Hx as (m & Hm & Hfm).
      destruct m; try discriminate. rewrite Hr. apply in_or_app.
      apply in_app_or in Hm. destruct Hm as [Hm | Hm].
      - left. apply in_or_app. now left.
      - apply in_app_or in Hm. destruct Hm as [Hm | Hm]; [| now right].
        left. apply in_or_app. right. now right. }
    pose proof (inv_all fmt false target s1 s2 v0 t0 q1 q2 Hr H1 H2 Hopen Hed Hgr Hno)
      as (_ & app2 & pend2 & E2 & _ & Hpend2 & _ & _ & a2 & v2 & x2 & Ha2 & s2' & Hs2 & _ & Hd2).
    fold c in Hpend2, Hs2. rewrite Hidle in Hpend2. cbn in Hpend2.
    rewrite Hs in Hs2. injection Hs2 as <-. cbn in Hd2. rewrite Hd2.
    pose proof (Hlast app pend a v x E (eq_sym Hpend) Ha) as L1.
    pose proof (Hlast app2 pend2 a2 v2 x2 E2 (eq_sym Hpend2) Ha2) as L2.
    rewrite L1 in L2. now injection L2 as _ ->.
Qed.
Print Assumptions C28_document_converges_partial.

Definition go (tv : N) (i : nat) : event := ERun i (Choice tv false false).

(** The hypotheses are met by a session with two changes and a formatting
    request under way at once, whose handlers overlap. *)
Definition ex_fmt (_ : N) (t : list N) : option (list N) := Some (t ++ [10]).
Definition ex_s1 : list event :=
  [ERecv (MDisk [97]); ERecv (MOpen 1 [98]); go 0 1; go 0 0; go 0 1; go 0 0].
Definition ex_s2 : list event :=
  [ERecv (MChange 2 [Change false [99]]); ERecv MFormat; ERecv (MChange 3 [Change false [100]; Change false [101]]);
   go 1 4; go 1 2; go 1 2; go 1 2; go 1 3; go 1 2; go 1 2; go 1 2; go 1 1; go 1 0; go 1 0; go 1 0; go 1 0; go 1 0; go 1 0;
   go 1 0; go 1 0; go 1 0; go 1 0; go 1 0; go 1 0; ERecv MFormat; go 1 0; go 1 0].
Example C28_document_converges_partial_nonvacuous :
  received ex_s1 = [MDisk [97]] ++ MOpen 1 [98] :: [] /\
  (forall t, In t (g_tasks (exec ex_fmt (init true) ex_s1)) -> opening t = false) /\
  Forall editing (received ex_s2) /\ growing 1 (received ex_s2) /\
  idle (exec ex_fmt (init true) (ex_s1 ++ ex_s2)) /\
  w_doc (g_world (exec ex_fmt (init true) (ex_s1 ++ ex_s2))) = Some (Src [101; 10] (Some 3%Z) 1).
Proof.
  split; [reflexivity |]. split; [| split; [| split; [| split]]].
  - intros t Ht. vm_compute in Ht. repeat destruct Ht as [<- | Ht]; try reflexivity. destruct Ht.
  - unfold ex_s2, go. cbn [received].
    repeat (apply Forall_cons;
            [first [exact I | split; [discriminate | repeat (apply Forall_cons; [reflexivity |]); apply Forall_nil]] |]).
    apply Forall_nil.
  - unfold ex_s2, go. cbn. lia.
  - vm_compute. reflexivity.
  - vm_compute. reflexivity.
Qed.

Lemma no_formatting t t' : formatted_from (fun _ _ => None) t t' -> t' = t.
Proof. induction 1; [reflexivity | discriminate]. Qed.

(** C28 in full fails in three ways.  First: a change that arrives while
    [did_open] is still resolving the TOML version of the opened text finds no
    document and is dropped; the server ends with the version and text of the
    opening. *)
Definition early_change : list event :=
  [ERecv (MOpen 1 [97]); go 0 0;
   ERecv (MChange 2 [Change false [98]]); go 0 1; go 0 0; go 0 0].

(** Second: after closing and opening again the versions start again, and a
    change of the first session that was still resolving the TOML version takes
    its version for the present one and stores its old text. *)
Definition reopened : list event :=
  [ERecv (MOpen 1 [97]); go 0 0; go 0 0; go 0 0;
   ERecv (MChange 2 [Change false [98]]); go 0 0; go 0 0;
   ERecv MClose; go 0 1; go 0 1;
   ERecv (MOpen 1 [99]); go 0 1; go 0 1; go 0 1;
   ERecv (MChange 2 [Change false [100]]); go 0 1; go 0 1; go 0 1;
   go 1 0; go 1 0; go 1 0].

(** Third: deleting the file removes the open document, and every later change
    is dropped. *)
Definition deleted : list event :=
  [ERecv (MOpen 1 [97]); go 0 0; go 0 0; go 0 0;
   ERecv MDelete; go 0 0; go 0 0;
   ERecv (MChange 2 [Change false [98]]); go 0 0].

Theorem C28_document_converges_refuted :
  ~ (forall fmt target es, converges fmt target es) /\
  (* each of the three schedules ends idle, with the server behind the editor *)
  (let c := exec (fun _ _ => None) (init false) early_change in
   protocol None (received early_change) /\ idle c /\
   editor None (received early_change) = Some (2%Z, [98]) /\
   w_doc (g_world c) = Some (Src [97] (Some 1%Z) 0)) /\
  (let c := exec (fun _ _ => None) (init false) reopened in
   protocol None (received reopened) /\ idle c /\
   editor None (received reopened) = Some (2%Z, [100]) /\
   w_doc (g_world c) = Some (Src [98] (Some 2%Z) 1)) /\
  (let c := exec (fun _ _ => None) (init false) deleted in
   protocol None (received deleted) /\ idle c /\
   editor None (received deleted) = Some (2%Z, [98]) /\
   w_doc (g_world c) = None).
Proof.
  assert (W : forall v, whole_document [Change false v])
    by (intro v; split; [discriminate | repeat constructor]).
  assert (P1 : protocol None (received early_change)) by (cbn; repeat split; auto; try lia; apply W).
  assert (P2 : protocol None (received reopened))
    by (cbn; repeat split; auto; try lia; try apply W; discriminate).
  assert (P3 : protocol None (received deleted)) by (cbn; repeat split; auto; try lia; apply W).
  split; [| split; [| split]].
  - intro H. specialize (H (fun _ _ => None) false early_change P1).
    assert (Hidle : idle (exec (fun _ _ => None) (init false) early_change)) by (vm_compute; reflexivity).
    assert (He : editor None (received early_change) = Some (2%Z, [98])) by (vm_compute; reflexivity).
    destruct (H Hidle 2%Z [98] He) as (s & Hs & Hv & _).
    vm_compute in Hs. injection Hs as <-. discriminate.
  - cbv zeta. split; [exact P1 |]. repeat split; vm_compute; reflexivity.
  - cbv zeta. split; [exact P2 |]. repeat split; vm_compute; reflexivity.
  - cbv zeta. split; [exact P3 |]. repeat split; vm_compute; reflexivity.
Qed.
Print Assumptions C28_document_converges_refuted.

(** C48: diagnostics given out with a version were computed from the text sent
    with that version (or a formatting of it), under the same conditions. *)
Theorem C48_diagnostics_label_partial :
  forall fmt target s1 s2 v0 t0 q1 q2,
  received s1 = q1 ++ MOpen v0 t0 :: q2 -> Forall quiet q1 -> Forall quiet q2 ->
  (forall t, In t (g_tasks (exec fmt (init target) s1)) -> opening t = false) ->
  Forall editing (received s2) -> growing v0 (received s2) ->
  forall id r v, In (id, r) (w_served (g_world (exec fmt (init target) (s1 ++ s2)))) ->
  r_version r = Some v ->
  exists t, In (v, t) ((v0, t0) :: sent (received s2)) /\ formatted_from fmt t (r_text r).
Proof.
  intros fmt target s1 s2 v0 t0 q1 q2 Hr H1 H2 Hopen Hed Hgr id r v Hin Hv.
  pose proof (inv_all fmt true target s1 s2 v0 t0 q1 q2 Hr H1 H2 Hopen Hed Hgr (fun _ => eq_refl))
    as (_ & app & pend & E & _ & _ & _ & [_ Hserved] & _).
  rewrite Forall_forall in Hserved. specialize (Hserved _ Hin v Hv).
  destruct Hserved as (t & Ht & Hd). exists t. split; [| exact Hd].
  rewrite E. apply in_or_app. now left.
Qed.
Print Assumptions C48_diagnostics_label_partial.

(** C48: a request for diagnostics is answered for a version no older than the
    one stored when the request arrived, whatever happens meanwhile and
    whatever the cache holds. *)
Theorem C48_diagnostics_fresh_partial :
  forall fmt target s1 sa sb v0 t0 q1 q2 id,
  received s1 = q1 ++ MOpen v0 t0 :: q2 -> Forall quiet q1 -> Forall quiet q2 ->
  (forall t, In t (g_tasks (exec fmt (init target) s1)) -> opening t = false) ->
  Forall editing (received (sa ++ sb)) -> growing v0 (received (sa ++ sb)) ->
  ~ In (MDiagnostic id) (received s1 ++ received sa) ->
  forall v r,
  doc_version (g_world (exec fmt (init target) (s1 ++ sa))) = Some v ->
  In (Some id, r) (w_served (g_world (exec fmt (init target) (s1 ++ sa ++ sb)))) ->
  exists v', r_version r = Some v' /\ (v <= v')%Z.
Proof.
  intros fmt target s1 sa sb v0 t0 q1 q2 id Hr H1 H2 Hopen Hed Hgr Hid v r Hv Hin.
  assert (Hrec : received (sa ++ sb) = received sa ++ received sb).
  { clear. induction sa as [| [m | i k] sa IH]; cbn; congruence. }
  rewrite Hrec in Hed, Hgr. apply Forall_app in Hed. destruct Hed as [Hea Heb].
  apply growing_app in Hgr; [| exact Hea]. destruct Hgr as [Hga Hgb].
  pose proof (inv_all fmt true target s1 sa v0 t0 q1 q2 Hr H1 H2 Hopen Hea Hga (fun _ => eq_refl))
    as (_ & app & pend & E & Hi).
  rewrite app_assoc, exec_app in Hin.
  pose proof Hi as (_ & _ & _ & _ & a & v1 & x & Ha & s & Hs & Hv1 & _).
  unfold doc_version in Hv. rewrite Hs, Hv1 in Hv. injection Hv as ->.
  assert (Hfr : fresh id v (exec fmt (exec fmt (init target) (s1 ++ sa)) sb)).
  { eapply (fresh_exec fmt true (v0 - 1) id v x sb app pend); auto.
    - apply no_id_fresh.
      apply no_id_exec; [split; constructor |].
      intro H. apply Hid.
      assert (Hrec2 : received (s1 ++ sa) = received s1 ++ received sa).
      { clear. induction s1 as [| [m | i k] s1 IH]; cbn; congruence. }
      now rewrite Hrec2 in H.
    - rewrite Ha. apply in_or_app. right. now left.
    - rewrite <- E. cbn [last_version]. exact Hgb. }
  destruct Hfr as [_ Hf]. rewrite Forall_forall in Hf. exact (Hf _ Hin eq_refl).
Qed.
Print Assumptions C48_diagnostics_fresh_partial.

(** A request that arrives between two changes, with an older answer in the
    cache, is answered for the later version. *)
Example C48_diagnostics_fresh_partial_nonvacuous :
  let s1 := [ERecv (MOpen 1 [97]); go 0 0; go 0 0; go 0 0;
             ERecv (MDiagnostic 1); go 0 0; go 0 0; go 0 0; go 0 0] in
  let sa := [ERecv (MChange 2 [Change false [98]]); go 0 0] in
  let sb := [ERecv (MDiagnostic 2); go 0 1; go 0 1; go 0 1; go 0 1; go 0 1] in
  w_cache (g_world (exec ex_fmt (init true) (s1 ++ sa))) = Some (DResult [97] 0 (Some 1%Z)) /\
  doc_version (g_world (exec ex_fmt (init true) (s1 ++ sa))) = Some 2%Z /\
  w_served (g_world (exec ex_fmt (init true) (s1 ++ sa ++ sb))) =
    [(Some 2%nat, DResult [98] 0 (Some 2%Z)); (Some 1%nat, DResult [97] 0 (Some 1%Z))].
Proof. vm_compute. repeat split. Qed.

(** C48 in full, that diagnostics asked for when everything has settled are
    those of the present text and TOML version, fails: the cache is checked by
    version only, so diagnostics computed with the TOML version before the edit
    changed it are stored after the handler of the change has cleared the
    cache, and are given out until the next edit. *)
Definition stale : list event :=
  [ERecv (MOpen 1 [97]); go 0 0; go 0 0; go 0 0;
   ERecv (MChange 2 [Change false [98]]); go 0 0;
   ERecv (MDiagnostic 1); go 0 1; go 0 1; go 0 1;   (* lints the new text with the old TOML version *)
   go 0 0; go 1 0; go 1 0; go 1 0;                   (* the change: clears, resolves, refines, clears *)
   go 0 0].                                          (* the diagnostics are stored *)

Theorem C48_diagnostics_settled_refuted :
  let fmt := fun _ _ => None in
  let c := exec fmt (init false) stale in
  protocol None (received stale) /\ idle c /\
  w_doc (g_world c) = Some (Src [98] (Some 2%Z) 1) /\
  (exists r rest, w_served (g_world (exec fmt c [ERecv (MDiagnostic 2); go 1 0; go 1 0])) = (Some 2%nat, r) :: rest /\
     r_text r = [98] /\ r_toml r = 0).
Proof.
  cbv zeta. split.
  - cbn. repeat split; auto; try lia; try discriminate.
  - split; [vm_compute; reflexivity |]. split; [vm_compute; reflexivity |].
    eexists _, _. split; [vm_compute; reflexivity |]. split; reflexivity.
Qed.
Print Assumptions C48_diagnostics_settled_refuted.
