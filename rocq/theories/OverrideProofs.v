(** Proofs about the model of paths and overrides. *)
From Coq Require Import String Ascii List NArith Bool Arith Lia ZifyBool ZifyN.
From Verif Require Import Base TomlTextModel TomlStringGrammar TomlTextProofs DateTimeModel NumberSpec DateTimeProofs PointerModel PointerSpec PointerProofs OverrideModel OverrideSpec.
Import ListNotations.
Open Scope N_scope.
Open Scope list_scope.

(** * Matching *)
Lemma score_from_spec ps : forall path n, length ps = length path ->
  (forall s, score_from n ps path = Some s <-> covers ps path /\ s = (n + precision ps)%nat).
Proof.
  unfold covers, precision. induction ps as [|p ps IH]; intros [|a path] n HL s; try discriminate.
  - cbn [score_from filter length]. split; [intros H; injection H as <-; split; [constructor|lia]|intros [_ ->]; f_equal; lia].
  - injection HL as HL. cbn [score_from].
    assert (HN : (forall (P : Prop), ~ part_covers p a -> (None = Some s <-> Forall2 part_covers (p :: ps) (a :: path) /\ P))).
    { intros P Hp. split; [discriminate|]. intros [H _]. inversion H; subst. contradiction. }
    assert (HY : forall m, part_covers p a -> (m + length (filter definite ps) = n + length (filter definite (p :: ps)))%nat ->
       (score_from m ps path = Some s <-> Forall2 part_covers (p :: ps) (a :: path) /\ s = (n + length (filter definite (p :: ps)))%nat)).
    { intros m Hp E. rewrite (IH path m HL s), E. split; intros [A B]; (split; [|exact B]); [constructor; assumption|inversion A; assumption]. }
    destruct p as [k| | |i], a as [k'|j].
    + destruct (str_eqb k k') eqn:E.
      * apply str_eqb_eq in E as ->. apply HY; [constructor|]. cbn [filter definite length]. lia.
      * apply HN. intros H. inversion H; subst. assert (str_eqb k' k' = true) by (apply str_eqb_eq; reflexivity). congruence.
    + apply HN. intros H. inversion H.
    + apply HY; [constructor|]. cbn [filter definite length]. lia.
    + apply HN. intros H. inversion H.
    + apply HN. intros H. inversion H.
    + apply HY; [constructor|]. cbn [filter definite length]. lia.
    + apply HN. intros H. inversion H.
    + destruct (N.eqb_spec i j) as [-> |E]; [apply HY; [constructor|]; cbn [filter definite length]; lia|]. apply HN. intros H. inversion H; subst. contradiction.
Qed.
Lemma score_spec ps path s : score ps path = Some s <-> covers ps path /\ s = precision ps.
Proof.
  unfold score. destruct (Nat.eqb_spec (length ps) (length path)) as [E|E].
  - rewrite (score_from_spec ps path 0 E s). reflexivity.
  - split; [discriminate|]. intros [H _]. exfalso. apply E. unfold covers in H; clear -H; induction H; cbn [length]; congruence.
Qed.
Lemma score_none ps path : score ps path = None <-> ~ covers ps path.
Proof.
  destruct (score ps path) as [s|] eqn:E.
  - apply score_spec in E as [H _]. split; [discriminate|contradiction].
  - split; [|reflexivity]. intros _ H. assert (score ps path = Some (precision ps)) by (apply score_spec; auto). congruence.
Qed.

Section Best.
Context {rule : Type}.
Definition best_step (path : list accessor) (best : option (@override rule) * option nat) (item : override) :=
  match score (fst item) path with
  | None => best
  | Some s => match snd best with
              | Some b => if (b <? s)%nat then (Some item, Some s) else best
              | None => (Some item, Some s)
              end
  end.
(** the state after a list *)
Definition best_of (path : list accessor) (seen : list (@override rule)) (st : option override * option nat) : Prop :=
  match fst st with
  | Some o => snd st = Some (precision (fst o)) /\ chosen seen path o
  | None => snd st = None /\ forall x, In x seen -> ~ covers (fst x) path
  end.
Lemma best_extend path seen st item : best_of path seen st -> best_of path (seen ++ [item]) (best_step path st item).
Proof.
  destruct st as [o n]. unfold best_of, best_step. cbn [fst snd]. intros H. destruct (score (fst item) path) as [s|] eqn:E.
  - apply score_spec in E as [HC ->]. destruct o as [o|].
    + destruct H as [-> (b & a & -> & HO & HB & HA)]. destruct (Nat.ltb_spec (precision (fst o)) (precision (fst item))) as [HL|HL]; cbn [fst snd].
      * split; [reflexivity|]. exists (b ++ o :: a), []. split; [reflexivity|]. split; [exact HC|]. split; [|intros x []].
        intros x Hx Hc. apply in_app_or in Hx as [Hx|[<- |Hx]]; [specialize (HB x Hx Hc); lia|exact HL|specialize (HA x Hx Hc); lia].
      * split; [reflexivity|]. exists b, (a ++ [item]). split; [rewrite <- app_assoc; reflexivity|]. split; [exact HO|]. split; [exact HB|].
        intros x Hx Hc. apply in_app_or in Hx as [Hx|[<- |[]]]; [exact (HA x Hx Hc)|exact HL].
    + destruct H as [-> H]. cbn [fst snd]. split; [reflexivity|]. exists seen, []. split; [reflexivity|]. split; [exact HC|]. split; [|intros x []].
      intros x Hx Hc. exfalso. exact (H x Hx Hc).
  - apply score_none in E. destruct o as [o|]; cbn [fst snd].
    + destruct H as [-> (b & a & -> & HO & HB & HA)]. split; [reflexivity|]. exists b, (a ++ [item]). split; [rewrite <- app_assoc; reflexivity|]. split; [exact HO|]. split; [exact HB|].
      intros x Hx Hc. apply in_app_or in Hx as [Hx|[<- |[]]]; [exact (HA x Hx Hc)|contradiction].
    + destruct H as [-> H]. split; [reflexivity|]. intros x Hx. apply in_app_or in Hx as [Hx|[<- |[]]]; [exact (H x Hx)|exact E].
Qed.
Lemma best_fold path items : forall seen st, best_of path seen st -> best_of path (seen ++ items) (fold_left (best_step path) items st).
Proof.
  induction items as [|i items IH]; intros seen st H; [rewrite app_nil_r; exact H|]. cbn [fold_left].
  replace (seen ++ i :: items) with ((seen ++ [i]) ++ items) by (rewrite <- app_assoc; reflexivity). apply IH. apply best_extend. exact H.
Qed.
Lemma best_all path items : best_of path items (fold_left (best_step path) items (None, None)).
Proof. apply (best_fold path items []). split; [reflexivity|intros x []]. Qed.
Lemma chosen_unique path (items : list (@override rule)) o o' : chosen items path o -> chosen items path o' -> o = o'.
Proof.
  intros (b & a & -> & HO & HB & HA) (b' & a' & E & HO' & HB' & HA').
  revert b' E HB'. induction b as [|x b IH]; intros [|y b'] E HB'; cbn [app] in E.
  - injection E as <- _. reflexivity.
  - injection E as -> E. specialize (HB' y (or_introl eq_refl) HO). assert (HI : In o' a) by (rewrite E; apply in_elt). specialize (HA o' HI HO'). lia.
  - injection E as -> E. specialize (HB o' (or_introl eq_refl) HO'). assert (HI : In o a') by (rewrite <- E; apply in_elt). specialize (HA' o HI HO). lia.
  - injection E as -> E. apply (IH (fun z Hz => HB z (or_intror Hz)) b' E). intros z Hz. apply HB'. right. exact Hz.
Qed.
Lemma find_best_fold (items : list (@override rule)) path : find_best items path = fst (fold_left (best_step path) items (None, None)).
Proof. reflexivity. Qed.
Lemma find_best_spec (items : list (@override rule)) path o : find_best items path = Some o <-> chosen items path o.
Proof.
  pose proof (best_all path items) as H. rewrite find_best_fold.
  unfold best_of in H. destruct (fold_left (best_step path) items (None, None)) as [[x|] n]; cbn [fst snd] in *.
  - destruct H as [_ H]. split; [intros E; injection E as <-; exact H|]. intros HC. f_equal. exact (chosen_unique path items x o H HC).
  - destruct H as [_ H]. split; [discriminate|]. intros (b & a & E & HO & _). exfalso. apply (H o); [rewrite E; apply in_elt|exact HO].
Qed.
Lemma find_best_none (items : list (@override rule)) path : find_best items path = None <-> forall x, In x items -> ~ covers (fst x) path.
Proof.
  pose proof (best_all path items) as H. rewrite find_best_fold.
  unfold best_of in H. destruct (fold_left (best_step path) items (None, None)) as [[x|] n]; cbn [fst snd] in *.
  - destruct H as [_ (b & a & E & HO & _)]. split; [discriminate|]. intros HN. exfalso. apply (HN x); [rewrite E; apply in_elt|exact HO].
  - destruct H as [_ H]. split; auto.
Qed.
End Best.

(** * Reading *)
Lemma until_bracket_app i r : ~ In 93 i -> until_bracket (i ++ 93 :: r) = Some (i, r).
Proof. induction i as [|c i IH]; intros H; cbn [app until_bracket]; [reflexivity|]. destruct (N.eqb_spec c 93) as [-> |_]; [exfalso; apply H; left; reflexivity|]. rewrite IH; [reflexivity|]. intros Hi. apply H. right. exact Hi. Qed.
Lemma until_bracket_length s i r : until_bracket s = Some (i, r) -> (length r < length s)%nat.
Proof. revert i. induction s as [|c s IH]; intros i H; cbn [until_bracket] in H; [discriminate|]. destruct (c =? 93); [injection H as <- <-; cbn; lia|]. destruct (until_bracket s) as [[i' r']|]; [|discriminate]. injection H as <- <-. specialize (IH i' eq_refl). cbn [length]. lia. Qed.
Lemma until_quote_length q : forall s e b r, until_quote q e s = Some (b, r) -> (length r < length s)%nat.
Proof.
  induction s as [|c s IH]; intros e b r H; cbn [until_quote] in H; [discriminate|]. destruct ((q =? 34) && (c =? 92) && negb e).
  - destruct (until_quote q true s) as [[b' r']|] eqn:E; [|discriminate]. injection H as <- <-. specialize (IH _ _ _ E). cbn [length]. lia.
  - destruct ((c =? q) && negb e); [injection H as <- <-; cbn; lia|]. destruct (until_quote q false s) as [[b' r']|] eqn:E; [|discriminate]. injection H as <- <-. specialize (IH _ _ _ E). cbn [length]. lia.
Qed.
(** enough fuel is enough *)
Lemma read_fuel : forall fuel fuel' cur acc s, (length s <= fuel)%nat -> (length s <= fuel')%nat -> read_loop fuel cur acc s = read_loop fuel' cur acc s.
Proof.
  induction fuel as [|fuel IH]; intros [|fuel'] cur acc [|c s] H H'; cbn [length] in *; try lia; try reflexivity. cbn [read_loop].
  destruct (c =? 91).
  - destruct (until_bracket s) as [[i r]|] eqn:E; [|reflexivity]. apply until_bracket_length in E. destruct (read_index i); [|reflexivity]. apply IH; lia.
  - destruct (((c =? 39) || (c =? 34)) && _).
    + destruct (until_quote c false s) as [[b r]|] eqn:E; [|reflexivity]. apply until_quote_length in E. destruct (unquote c b); [|reflexivity|reflexivity]. apply IH; lia.
    + destruct (c =? 46); apply IH; lia.
Qed.
Definition reads (cur : str) (acc : list pattern) (s : str) : reading := read_loop (length s) cur acc s.
Lemma reads_bracket cur acc i p r : ~ In 93 i -> read_index i = Some p -> reads cur acc (91 :: i ++ 93 :: r) = reads [] (flush cur acc ++ [p]) r.
Proof.
  intros Hi Hp. unfold reads. cbn [length read_loop]. change (91 =? 91) with true. cbv iota. rewrite until_bracket_app by exact Hi. rewrite Hp. apply read_fuel; [rewrite app_length; cbn [length]; lia|lia].
Qed.
Lemma reads_dot cur acc r : reads cur acc (46 :: r) = reads [] (flush cur acc) r.
Proof. reflexivity. Qed.
Lemma reads_char cur acc c r : c <> 46 -> c <> 91 -> (cur <> [] \/ (c <> 34 /\ c <> 39)) -> reads cur acc (c :: r) = reads (cur ++ [c]) acc r.
Proof.
  intros H1 H2 H3. unfold reads. cbn [length read_loop]. replace (c =? 91) with false by lia. replace (c =? 46) with false by lia.
  replace (((c =? 39) || (c =? 34)) && match cur with [] => true | _ => false end) with false; [reflexivity|]. destruct H3 as [H3|H3]; [destruct cur; [contradiction|rewrite andb_false_r; reflexivity]|destruct cur; lia].
Qed.
Lemma reads_word s : forall cur acc r, Forall (fun c => c <> 46 /\ c <> 91) s -> (cur <> [] \/ ((forall t, s <> 34 :: t) /\ (forall t, s <> 39 :: t))) -> reads cur acc (s ++ r) = reads (cur ++ s) acc r.
Proof.
  induction s as [|c s IH]; intros cur acc r HF HC; [rewrite app_nil_r; reflexivity|]. inversion HF as [|? ? [H1 H2] HF']; subst. cbn [app].
  rewrite reads_char; [|assumption|assumption|].
  - rewrite IH; [rewrite <- app_assoc; reflexivity|exact HF'|]. left. destruct cur; discriminate.
  - destruct HC as [HC|[HA HB]]; [left; exact HC|]. right. split; intros ->; [exact (HA s eq_refl)|exact (HB s eq_refl)].
Qed.
Lemma escape_chars v11 e x : TomlStringGrammar.escape v11 e x -> exists c h, e = c :: h /\ Forall (fun d => d <> 34 /\ d <> 92) h.
Proof.
  assert (HX : forall h n, hexnum h n -> Forall (fun d => d <> 34 /\ d <> 92) h).
  { intros h n H. induction H; [constructor|]. apply Forall_app. split; [assumption|]. constructor; [|constructor]. match goal with H : hexdig _ _ |- _ => inversion H; subst; lia end. }
  destruct 1; do 2 eexists; (split; [reflexivity|]); try constructor; eapply HX; eassumption.
Qed.
Lemma quote_plain s r : Forall (fun d => d <> 34 /\ d <> 92) s -> until_quote 34 false (s ++ r) = match until_quote 34 false r with Some (b, t) => Some (s ++ b, t) | None => None end.
Proof.
  induction 1 as [|c s [H1 H2] HF IH]; cbn [app]; [destruct (until_quote 34 false r) as [[b t]|]; reflexivity|]. cbn [until_quote]. cbv zeta.
  replace (c =? 92) with false by lia. replace (c =? 34) with false by lia. rewrite andb_false_r. cbn [andb]. rewrite IH. destruct (until_quote 34 false r) as [[b t]|]; reflexivity.
Qed.
Lemma quote_escaped c r : until_quote 34 true (c :: r) = match until_quote 34 false r with Some (b, t) => Some (c :: b, t) | None => None end.
Proof. cbn [until_quote]. cbv zeta. cbn [negb]. rewrite !andb_false_r. reflexivity. Qed.
Lemma quote_backslash r : until_quote 34 false (92 :: r) = match until_quote 34 true r with Some (b, t) => Some (92 :: b, t) | None => None end.
Proof. reflexivity. Qed.
Lemma quote_body v11 b s : basic_body v11 b s -> forall r, until_quote 34 false (b ++ 34 :: r) = Some (b, r).
Proof.
  induction 1 as [|c b s HC HB IH|e x b s HE HB IH]; intros r.
  - reflexivity.
  - cbn [app]. change (c :: b ++ 34 :: r) with ([c] ++ (b ++ 34 :: r)). rewrite quote_plain by (constructor; [unfold basic_unescaped, wschar, non_ascii in HC; lia|constructor]). rewrite IH. reflexivity.
  - destruct (escape_chars v11 e x HE) as (c & h & -> & Hh). cbn [app]. rewrite <- app_assoc. rewrite quote_backslash, quote_escaped. rewrite quote_plain by exact Hh. rewrite IH. reflexivity.
Qed.
Lemma quote_literal b : literal_body b -> forall r, until_quote 39 false (b ++ 39 :: r) = Some (b, r).
Proof.
  induction 1 as [|c b HC HB IH]; intros r; [reflexivity|]. cbn [app until_quote]. cbv zeta. change (39 =? 34) with false. cbn [andb]. replace (c =? 39) with false by (unfold literal_char, non_ascii in HC; lia). cbn [andb]. rewrite IH. reflexivity.
Qed.
Lemma reads_quoted q b k r acc : (q = 34 \/ q = 39) -> until_quote q false (b ++ q :: r) = Some (b, r) -> unquote q b = DOk k ->
  reads [] acc ([q] ++ b ++ [q] ++ r) = reads [] (acc ++ [PKey k]) r.
Proof.
  intros Hq HU HK. unfold reads. cbn [app length read_loop]. replace (q =? 91) with false by lia. replace ((q =? 39) || (q =? 34)) with true by lia. cbn [andb]. rewrite HU, HK. apply read_fuel; [rewrite app_length; cbn [length]; lia|lia].
Qed.
(** a key, after which nothing, a dot or a bracket comes *)
Definition stops (r : str) : Prop := r = [] \/ exists t, r = 46 :: t \/ r = 91 :: t.
Lemma reads_stop cur acc r : stops r -> cur <> [] -> reads cur acc r = reads [] (acc ++ [key_or_wildcard cur]) r.
Proof.
  intros HR HC. assert (HF : flush cur acc = acc ++ [key_or_wildcard cur]) by (destruct cur; [contradiction|reflexivity]).
  destruct HR as [-> |(t & [-> | ->])]; unfold reads; cbn [length read_loop]; rewrite HF; reflexivity.
Qed.
Lemma word_key s : s <> [42] -> key_or_wildcard s = PKey s.
Proof. intros H. unfold key_or_wildcard. destruct (str_eqb s [42]) eqn:E; [apply str_eqb_eq in E; contradiction|reflexivity]. Qed.
Lemma reads_key w p : key_text w p -> forall acc r, stops r -> reads [] acc (w ++ r) = reads [] (acc ++ [p]) r.
Proof.
  intros [w' k HK|s (HN & HF & H1 & H2) HS|] acc r HR.
  - destruct HK as [s HN HF|b s HB|b HB].
    + assert (HW : Forall (fun c => c <> 46 /\ c <> 91) s) by (eapply Forall_impl; [|exact HF]; intros c; unfold unquoted_key_char; lia).
      assert (HQ : (forall t, s <> 34 :: t) /\ forall t, s <> 39 :: t) by (split; intros t ->; inversion HF as [|? ? HC _]; unfold unquoted_key_char in HC; lia).
      rewrite reads_word; [|exact HW|right; exact HQ]. cbn [app]. rewrite reads_stop by assumption. rewrite word_key; [reflexivity|]. intros ->. inversion HF as [|? ? HC _]. unfold unquoted_key_char in HC. lia.
    + rewrite <- !app_assoc. apply reads_quoted; [left; reflexivity|exact (quote_body false b s HB r)|]. unfold unquote. change (34 =? 34) with true. cbv iota. apply (try_basic V1_0_0). exact HB.
    + rewrite <- !app_assoc. apply reads_quoted; [right; reflexivity|exact (quote_literal b HB r)|]. unfold unquote. change (39 =? 34) with false. cbv iota. apply try_literal. exact HB.
  - rewrite reads_word; [|exact HF|right; split; assumption]. cbn [app]. rewrite reads_stop by assumption. rewrite word_key by exact HS. reflexivity.
  - change ([42] ++ r) with (42 :: r). rewrite reads_char by (try discriminate; right; split; discriminate). cbn [app]. rewrite reads_stop by (try discriminate; assumption). reflexivity.
Qed.
Lemma index_no_bracket t n : index_of t n -> ~ In 93 t /\ t <> [42].
Proof.
  intros [[-> ->]|H].
  - split; [intros [E|[]]; discriminate|discriminate].
  - apply array_index_digits in H as (HA & _ & c & rest & -> & Hc). unfold all_digits in HA. rewrite forallb_forall in HA. split.
    + intros Hi. specialize (HA _ Hi). discriminate HA.
    + intros E. injection E as -> ->. lia.
Qed.
Lemma reads_index w p : index_text w p -> forall cur acc r, reads cur acc (w ++ r) = reads [] (flush cur acc ++ [p]) r.
Proof.
  intros [t n HI HN|] cur acc r.
  - rewrite <- !app_assoc. cbn [app]. destruct (index_no_bracket t n HI) as [H1 H2]. apply reads_bracket; [exact H1|]. unfold read_index. destruct (str_eqb t [42]) eqn:E; [apply str_eqb_eq in E; contradiction|]. rewrite (index_parses t n HI HN). reflexivity.
  - apply (reads_bracket cur acc [42] PAnyIndex r); [intros [E|[]]; discriminate|reflexivity].
Qed.
Lemma more_stops s ps : more_text s ps -> stops s.
Proof. intros [|w p r qs HK HM|w p r qs HI HM]; [left; reflexivity|right; exists (w ++ r); left; reflexivity|]. right. destruct HI as [t n HI HN|]; [exists (t ++ [93] ++ r); right; rewrite <- !app_assoc; reflexivity|eexists; right; reflexivity]. Qed.
Lemma reads_more s ps : more_text s ps -> forall acc, reads [] acc s = Read (acc ++ ps).
Proof.
  induction 1 as [|w p r ps HK HM IH|w p r ps HI HM IH]; intros acc.
  - rewrite app_nil_r. reflexivity.
  - cbn [app]. rewrite reads_dot. cbn [flush]. rewrite (reads_key w p HK acc r (more_stops r ps HM)), IH, <- app_assoc. reflexivity.
  - rewrite (reads_index w p HI). cbn [flush]. rewrite IH, <- app_assoc. reflexivity.
Qed.
Lemma parse_text s ps : path_text s ps -> parse s = Read ps.
Proof.
  intros [w p r qs HK HM|w p r qs HI HM].
  - assert (HE : w ++ r <> []). { intros E. apply app_eq_nil in E as [-> _]. inversion HK as [w' k HS|s' [HN _] _|]; subst; [inversion HS; subst; try discriminate; congruence|contradiction]. }
    transitivity (reads [] [] (w ++ r)); [destruct (w ++ r); [contradiction|reflexivity]|]. rewrite (reads_key w p HK [] r (more_stops r qs HM)). exact (reads_more r qs HM [p]).
  - assert (HE : w ++ r <> []) by (destruct HI; discriminate).
    transitivity (reads [] [] (w ++ r)); [destruct (w ++ r); [contradiction|reflexivity]|]. rewrite (reads_index w p HI [] [] r). exact (reads_more r qs HM [p]).
Qed.
(** a text is rejected or read; nothing else happens *)
Lemma dcons_no_panic c d : d <> DPanic -> dcons c d <> DPanic.
Proof. destruct d; cbn [dcons]; intros H; [discriminate|discriminate|exact H]. Qed.
Lemma basic_no_panic v : forall input skip, parse_basic v false skip input <> DPanic.
Proof.
  fix IH 1. intros [|c r] skip; cbn [parse_basic]; [destruct skip as [[]|]; discriminate|].
  destruct (match skip with None => None | Some hw => if is_unicode_whitespace c then Some (Some (hw || (c =? 10))) else Some None end) as [[hw|]|]; [apply IH| |].
  all: assert (HR : (if c =? 92
     then match r with
          | [] => DErr TrailingBackslash
          | n :: r1 =>
            if n =? 98 then dcons 8 (parse_basic v false None r1)
            else if n =? 101 then if is_v1_0_0 v then DErr EscapeCharacter else dcons 27 (parse_basic v false None r1)
            else if n =? 116 then dcons 9 (parse_basic v false None r1)
            else if n =? 110 then dcons 10 (parse_basic v false None r1)
            else if n =? 102 then dcons 12 (parse_basic v false None r1)
            else if n =? 114 then dcons 13 (parse_basic v false None r1)
            else if n =? 34 then dcons 34 (parse_basic v false None r1)
            else if n =? 92 then dcons 92 (parse_basic v false None r1)
            else if n =? 117 then
              match r1 with
              | a :: b :: c' :: d :: r2 => match code_point [a; b; c'; d] with inl x => dcons x (parse_basic v false None r2) | inr e => DErr e end
              | _ => DErr InvalidUnicodeEscapeSequence
              end
            else if n =? 85 then
              match r1 with
              | a :: b :: c' :: d :: a2 :: b2 :: c2 :: d2 :: r2 => match code_point [a; b; c'; d; a2; b2; c2; d2] with inl x => dcons x (parse_basic v false None r2) | inr e => DErr e end
              | _ => DErr InvalidUnicodeEscapeSequence
              end
            else if n =? 120 then
              if is_v1_0_0 v then DErr HexEscapeSequence else
              match r1 with
              | a :: b :: r2 => match code_point [a; b] with inl x => dcons x (parse_basic v false None r2) | inr e => DErr e end
              | _ => DErr InvalidUnicodeEscapeSequence
              end
            else if is_unicode_whitespace n then parse_basic v false (Some (n =? 10)) r1 else DErr InvalidEscapeSequence
          end
     else if is_forbidden_control c then DErr InvalidControlCharacter else dcons c (parse_basic v false None r)) <> DPanic).
  1, 3: destruct (c =? 92); [|destruct (is_forbidden_control c); [discriminate|apply dcons_no_panic, IH]]; destruct r as [|n r]; [discriminate|];
    do 8 (match goal with |- (if ?x then _ else _) <> _ => destruct x end; [try (destruct (is_v1_0_0 v); [discriminate|]); apply dcons_no_panic, IH|]);
    (destruct (n =? 117); [destruct r as [|? [|? [|? [|? r]]]]; try discriminate; destruct (code_point _); [apply dcons_no_panic, IH|discriminate]|]);
    (destruct (n =? 85); [destruct r as [|? [|? [|? [|? [|? [|? [|? [|? r]]]]]]]]; try discriminate; destruct (code_point _); [apply dcons_no_panic, IH|discriminate]|]);
    (destruct (n =? 120); [destruct (is_v1_0_0 v); [discriminate|]; destruct r as [|? [|? r]]; try discriminate; destruct (code_point _); [apply dcons_no_panic, IH|discriminate]|]);
    (destruct (is_unicode_whitespace n); [apply IH|discriminate]).
  - destruct skip as [[]|]; [exact HR|discriminate|exact HR].
  - destruct skip as [[]|]; [exact HR|discriminate|exact HR].
Qed.
Lemma literal_no_panic : forall input, parse_literal_string input false <> DPanic.
Proof. induction input as [|c r IH]; cbn [parse_literal_string]; [discriminate|]. cbn [andb]. destruct (is_forbidden_control c); [discriminate|]. apply dcons_no_panic, IH. Qed.
Lemma unquote_no_panic q b : q = 34 \/ q = 39 -> unquote q b <> DPanic.
Proof.
  intros [-> | ->]; unfold unquote; cbn [N.eqb Pos.eqb]; unfold try_from_basic_string, try_from_literal_string, on_strip.
  - rewrite (strip_delims [34]). apply basic_no_panic.
  - rewrite (strip_delims [39]). apply literal_no_panic.
Qed.
Lemma read_no_panic : forall fuel cur acc s, read_loop fuel cur acc s <> Crashed.
Proof.
  induction fuel as [|fuel IH]; intros cur acc [|c s]; cbn [read_loop]; try discriminate. destruct (c =? 91).
  - destruct (until_bracket s) as [[i r]|]; [|discriminate]. destruct (read_index i); [apply IH|discriminate].
  - destruct (((c =? 39) || (c =? 34)) && _) eqn:E.
    + destruct (until_quote c false s) as [[b r]|]; [|discriminate]. apply andb_true_iff in E as [E _]. pose proof (unquote_no_panic c b ltac:(lia)) as HU. destruct (unquote c b); [apply IH|discriminate|contradiction].
    + destruct (c =? 46); apply IH.
Qed.

(** * Writing *)
Lemma digits_positional s : forall n, fold_left (fun m d => 10 * m + (d - 48)) s n = n * 10 ^ N.of_nat (length s) + fold_left (fun m d => 10 * m + (d - 48)) s 0.
Proof.
  induction s as [|d s IH]; intros n; cbn [fold_left length]; [change (10 ^ N.of_nat 0) with 1; lia|]. rewrite IH, (IH (10 * 0 + (d - 48))). replace (N.of_nat (S (length s))) with (N.succ (N.of_nat (length s))) by lia. rewrite N.pow_succ_r'. lia.
Qed.

Lemma digits_as_positional s : Forall (fun c => 48 <= c <= 57) s -> digits_number s = positional 10 s.
Proof.
  unfold digits_number. induction 1 as [|c s Hc HF IH]; [reflexivity|]. cbn [fold_left positional]. rewrite digits_positional, IH. replace (c =? 95) with false by lia.
  replace (digit_count s) with (N.of_nat (length s)). 2: { clear -HF. induction HF as [|d s Hd HF IH]; [reflexivity|]. cbn [length digit_count]. replace (d =? 95) with false by lia. rewrite <- IH. lia. }
  unfold digit_of. replace (c <=? 57) with true by lia. lia.
Qed.
Lemma digits_bound s : Forall (fun c => 48 <= c <= 57) s -> digits_number s < 10 ^ N.of_nat (length s).
Proof.
  unfold digits_number. induction 1 as [|c s Hc HF IH]; [reflexivity|]. cbn [fold_left length]. rewrite digits_positional. replace (N.of_nat (S (length s))) with (N.succ (N.of_nat (length s))) by lia. rewrite N.pow_succ_r'.
  set (q := 10 ^ N.of_nat (length s)) in *. assert ((10 * 0 + (c - 48)) * q <= 9 * q) by (apply N.mul_le_mono_r; lia). lia.
Qed.
Lemma decimal_index n : index_of (decimal n) n.
Proof.
  destruct (decimal_spec n) as (w & -> & HN & HF & HP & HL). rewrite <- digits_as_positional in HP by exact HF. destruct w as [|c w]; [contradiction|]. destruct (N.eq_dec c 48) as [-> |Hc].
  - left. destruct w as [|d w]; [split; [reflexivity|rewrite <- HP; reflexivity]|]. exfalso. destruct HL as [HL|HL]; [discriminate|]. inversion HF as [|? ? _ HF']; subst. apply digits_bound in HF'.
    change (digits_number (48 :: d :: w)) with (digits_number (d :: w)) in HL. replace (length (48%N :: d :: w) - 1)%nat with (length (d :: w)) in HL by (cbn [length]; lia). lia.
  - right. rewrite <- HP. eapply digits_index; [|reflexivity|exact Hc]. eapply Forall_impl; [|exact HF]. intros x Hx. exact Hx.
Qed.
Lemma show_key k : writable (PKey k) -> key_text (to_key_string k) (PKey k).
Proof.
  intros [[HP HW]|[HP HF]].
  - unfold to_key_string. rewrite (proj2 (placeholder_spec k) HP). cbn [orb]. apply text_word; [exact HW|]. intros ->. destruct HP as (u & E & _). discriminate E.
  - apply text_key. apply (key_is_simple V1_0_0); [eapply Forall_impl; [|exact HF]; intros c HC; exact (proj1 HC)|exact HP|]. eapply Forall_impl; [|exact HF]. intros c (_ & H). unfold decodable_by. tauto.
Qed.
Lemma show_more ps : Forall writable ps -> more_text (flat_map show_next ps) ps.
Proof.
  induction 1 as [|p ps HP HF IH]; [constructor|]. cbn [flat_map]. destruct p as [k| | |n]; cbn [show_next show_part].
  - rewrite <- app_assoc. apply more_key; [exact (show_key k HP)|exact IH].
  - rewrite <- app_assoc. apply more_key; [apply text_any|exact IH].
  - apply more_index; [apply text_any_index|exact IH].
  - apply more_index; [apply text_index; [apply decimal_index|exact HP]|exact IH].
Qed.
Lemma show_path ps : ps <> [] -> Forall writable ps -> path_text (show ps) ps.
Proof.
  intros HN HF. destruct ps as [|p ps]; [contradiction|]. inversion HF as [|? ? HP HF']; subst. cbn [show]. pose proof (show_more ps HF') as HM. destruct p as [k| | |n]; cbn [show_part].
  - apply path_key; [exact (show_key k HP)|exact HM].
  - apply path_key; [apply text_any|exact HM].
  - apply path_index; [apply text_any_index|exact HM].
  - apply path_index; [apply text_index; [apply decimal_index|exact HP]|exact HM].
Qed.
