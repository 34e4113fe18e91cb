(** Final theorems about the document tree of a text (C52, C53). *)
From Coq Require Import String Ascii List NArith ZArith Bool Arith Lia Permutation.
From Verif Require Import Base SyntaxKind TextModel LexerModel LexerSpec TomlTextModel NumberModel DateTimeModel ParserModel ParserProps AstModel FormatPieces FormatterModel FormatterLayout FormatterSpec FormatterProps FormatterTextProps
  FormatterRelex FormatterRelexProps ParseBackProofs ReadBack ReadBackProps TextTreeModel TextTreeProofs TextPlaces.
From Verif Require DocTreeModel DocTreeSpec DocTreeProps.
Import ListNotations.
Open Scope N_scope.
Open Scope list_scope.

(** * C52 *)
(** The data that TOML's rules give a text, [None] if they forbid it (see [DocTreeSpec]). *)
Definition toml_of_text (fl : str -> option (list N)) (v : toml_version) (seg : str -> list str) (stack : nat) (source : str) : option DocTreeSpec.data :=
  match read seg stack source with
  | Done (Some (_, d)) => match syntax_of fl v d with Some x => DocTreeSpec.toml x | None => None end
  | _ => None
  end.
(** A text that is read without errors, under the same two conditions as in [C31_parsed_back]; sorting by a schema or by a
    directive is not part of [format_source].  In every version of TOML, whatever the options and whatever floats are made of their texts, the text
    that is written has the same document tree as the source, with the same conflicts between keys reported, and the same
    data by the rules of TOML.  Where a token has no value in one of them, one has none in the other. *)
Theorem C52_same_tree : forall fl v cfg le gr seg stack edited source out l crlf d, seg [] = [] -> (128 < stack)%nat ->
  lex seg source = Some l -> ~ float_after_blanks source (tokens l) -> read seg stack source = Done (Some (crlf, d)) ->
  (forall w, In (BARE_KEY, w) (doc_content d) -> toml_bare_key w) -> format_source cfg le gr seg stack edited source = Done (Some out) ->
  tree_of_text fl v seg stack out = tree_of_text fl v seg stack source /\ toml_of_text fl v seg stack out = toml_of_text fl v seg stack source.
Proof.
  intros fl v cfg le gr seg stack edited source out l crlf d Hs Hst HL HN ER HK E. destruct (C31_parsed_back _ _ _ _ _ _ _ _ _ _ _ Hs Hst HL HN ER HK E) as (crlf' & d' & ER' & HD).
  destruct (read_inv _ _ _ _ _ Hs ER) as (HW & HG & _). unfold tree_of_text, toml_of_text. rewrite ER, ER', (data_syntax fl v d d' HD HW HG). split; reflexivity.
Qed.
Print Assumptions C52_same_tree.
(** The example of [C31_parsed_back], and its tree (a float is kept as its text here) *)
Example C52_same_tree_example : (exists l crlf d, chars [] = [] /\ (128 < 200)%nat /\ lex chars numbers_source = Some l /\ ~ float_after_blanks numbers_source (tokens l) /\
    read chars 200 numbers_source = Done (Some (crlf, d)) /\ (forall w, In (BARE_KEY, w) (doc_content d) -> toml_bare_key w) /\
    format_source default_defs LELf width chars 200 true numbers_source = Done (Some numbers_text)) /\
  exists t, tree_of_text Some V1_0_0 chars 200 numbers_source = Some (t, []) /\
    DocTreeSpec.data_of t = DocTreeSpec.DTable
      [(lit "1", DocTreeSpec.DTable [(lit "2", DocTreeSpec.DScalar (code (VInteger 3)))]);
       (lit "1979-05-27", DocTreeSpec.DTable [(lit "x", DocTreeSpec.DScalar (code (VLocalDateTime ({| year := 1979; month := 5; day := 27 |}, {| hour := 7; minute := 32; second := 0; nanosecond := 0 |}))))]);
       (lit "-1", DocTreeSpec.DTable [(lit "5e-3", DocTreeSpec.DScalar (code (VString (lit "a"))))]);
       (lit "true", DocTreeSpec.DTable [(lit "inf", DocTreeSpec.DTable [(lit "a", DocTreeSpec.DArray
         [DocTreeSpec.DScalar (code (VInteger 1)); DocTreeSpec.DScalar (code (VInteger 31)); DocTreeSpec.DScalar (code (VFloat (lit "-inf")));
          DocTreeSpec.DScalar (code (VLocalTime {| hour := 7; minute := 32; second := 0; nanosecond := 0 |})); DocTreeSpec.DScalar (code (VLocalDate {| year := 1979; month := 5; day := 27 |}))])])])].
Proof.
  split; [destruct C31_parsed_back_example as (l & crlf & d & H); exists l, crlf, d; tauto|]. destruct (tree_of_text Some V1_0_0 chars 200 numbers_source) as [[t es]|] eqn:E; [|exfalso; revert E; vm_compute; discriminate].
  exists t. revert E. vm_compute. intros E. injection E as <- <-. split; reflexivity.
Qed.

(** * C53 *)
(** the values of the text that are no arrays and tables, in their order *)
Fixpoint value_tokens (x : fval) : list piece :=
  match x with
  | FLit _ k w _ => [(k, w)]
  | FBox _ _ _ gs _ => flat_map (fun g => match g with GD _ _ => [] | GI _ its => flat_map (fun i => match i with Item _ _ _ x _ => value_tokens x end) its end) gs
  end.
Definition body_tokens (its : list (item fval)) : list piece := flat_map (fun i => value_tokens (ival i)) its.
Definition document_tokens (d : fdoc) : list piece := body_tokens (items_of (d_groups d)) ++ flat_map (fun t => body_tokens (items_of (t_groups t))) (d_tables d).
(** [l] are the decoded values of the tokens *)
Definition decodes (fl : str -> option (list N)) (v : toml_version) (ps : list piece) (l : list (list N)) : Prop :=
  Forall2 (fun p x => exists s, literal_value fl v (fst p) (snd p) = Some s /\ x = code s) ps l.

Section Tokens.
Context (fl : str -> option (list N)) (v : toml_version).
Definition valued (x : fval) : Prop := forall y, syn_value fl v x = Some y -> decodes fl v (value_tokens x) (DocTreeSpec.syn_scalars y).
Lemma value_tokens_box table lead otc gs tc : value_tokens (FBox table lead otc gs tc) = body_tokens (items_of gs).
Proof. cbn [value_tokens]. unfold body_tokens, items_of. induction gs as [|[b cs|b its] gs IH]; [reflexivity|exact IH|]. cbn [flat_map group_items]. rewrite flat_map_app, <- IH. f_equal. apply flat_map_ext. intros []. reflexivity. Qed.
Lemma items_valued its : Forall (fun i => valued (ival i)) its -> forall l, opt_all (syn_item v (syn_value fl v)) its = Some l -> decodes fl v (body_tokens its) (DocTreeSpec.body_scalars l).
Proof.
  induction 1 as [|i its HV HF IH]; intros l E; cbn [opt_all] in E; fold (opt_all (syn_item v (syn_value fl v))) in E; [injection E as <-; constructor|].
  destruct (syn_item v (syn_value fl v) i) as [[ks y]|] eqn:EI; [|discriminate]. destruct (opt_all (syn_item v (syn_value fl v)) its) as [l0|] eqn:EL; [|discriminate]. injection E as <-. apply Forall2_app; [|apply IH; reflexivity].
  destruct i as [lead keys r x c]. cbn [syn_item ival] in *. unfold both in EI. destruct (opt_all (key_value v) keys); [|discriminate]. destruct (syn_value fl v x) as [y0|] eqn:EY; [|discriminate]. injection EI as _ <-. apply HV. exact EY.
Qed.
Lemma value_valued x : valued x.
Proof.
  induction x as [lead k w tc|table lead otc gs tc HG] using fval_ind'; intros y E.
  - cbn [syn_value value_tokens] in *. destruct (literal_value fl v k w) as [s|] eqn:EL; [|discriminate]. injection E as <-. constructor; [|constructor]. exists s. auto.
  - rewrite syn_box in E. rewrite value_tokens_box. destruct (opt_all _ (items_of gs)) as [l|] eqn:EL; [|discriminate]. injection E as <-. pose proof (items_valued _ (all_items _ _ HG) l EL) as H. destruct table; cbn [DocTreeSpec.syn_scalars]; [exact H|].
    unfold DocTreeSpec.body_scalars in H. rewrite flat_map_concat_map in H. rewrite flat_map_concat_map, map_map. exact H.
Qed.
Lemma body_valued gs b : syn_body fl v gs = Some b -> decodes fl v (body_tokens (items_of gs)) (DocTreeSpec.body_scalars b).
Proof. intros E. apply items_valued; [|exact E]. apply Forall_forall. intros i _. apply value_valued. Qed.
Lemma syntax_valued d x : syntax_of fl v d = Some x -> decodes fl v (document_tokens d) (DocTreeSpec.doc_scalars x).
Proof.
  unfold syntax_of. destruct (syn_body fl v (d_groups d)) as [b|] eqn:EB; [|discriminate]. destruct (opt_all (syn_section fl v) (d_tables d)) as [ss|] eqn:ES; [|discriminate]. intros E. injection E as <-. apply Forall2_app; [apply body_valued; exact EB|].
  cbn [DocTreeModel.d_sections]. revert ss ES. induction (d_tables d) as [|t ts IH]; intros ss ES; cbn [opt_all] in ES; fold (opt_all (syn_section fl v)) in ES; [injection ES as <-; constructor|].
  destruct (syn_section fl v t) as [s|] eqn:ET; [|discriminate]. destruct (opt_all (syn_section fl v) ts) as [ss0|]; [|discriminate]. injection ES as <-. apply Forall2_app; [|apply IH; reflexivity].
  unfold syn_section in ET. destruct (opt_all (key_value v) (t_keys t)); [|discriminate]. destruct (syn_body fl v (t_groups t)) as [b'|] eqn:EB'; [|discriminate]. injection ET as <-. apply body_valued. exact EB'.
Qed.
End Tokens.

(** Every text that is read without errors and whose tokens have values, with the tree that is built from it: building it does
    not panic, and unless a conflict is reported, the tree holds the values of all the value tokens of the text, each as
    often as it is written, and no other. *)
Theorem C53_tree_of_text : forall fl v seg stack source crlf d t errs, seg [] = [] ->
  read seg stack source = Done (Some (crlf, d)) -> tree_of_text fl v seg stack source = Some (t, errs) ->
  ~ In DocTreeModel.Unreachable errs /\ (errs = [] -> exists l, decodes fl v (document_tokens d) l /\ Permutation (DocTreeSpec.scalars t) l).
Proof.
  intros fl v seg stack source crlf d t errs Hs ER E. destruct (read_inv _ _ _ _ _ Hs ER) as (HW & _). unfold tree_of_text in E. rewrite ER in E. destruct (syntax_of fl v d) as [x|] eqn:EX; [|discriminate]. injection E as EB.
  pose proof (syntax_keyed fl v d x HW EX) as HK. split.
  - replace errs with (snd (DocTreeModel.build_document x)) by (rewrite EB; reflexivity). apply DocTreeProps.C23_no_panic. exact HK.
  - intros ->. exists (DocTreeSpec.doc_scalars x). split; [apply syntax_valued; exact EX|]. apply DocTreeProps.C23_nothing_lost; assumption.
Qed.
Print Assumptions C53_tree_of_text.
(** Two scalars with the same code are the same: nothing is confused by keeping scalars as lists of numbers. *)
Theorem C53_code : forall s s', code s = code s' -> s = s'.
Proof. exact code_inj. Qed.
Print Assumptions C53_code.
(** Without headers, the tree is exactly what the rules of TOML say, or an error is reported where they forbid the text. *)
Theorem C53_key_values : forall fl v seg stack source crlf d t errs, seg [] = [] ->
  read seg stack source = Done (Some (crlf, d)) -> d_tables d = [] -> tree_of_text fl v seg stack source = Some (t, errs) ->
  match toml_of_text fl v seg stack source with
  | Some data => errs = [] /\ DocTreeSpec.data_of t = data
  | None => errs <> []
  end.
Proof.
  intros fl v seg stack source crlf d t errs Hs ER HT E. destruct (read_inv _ _ _ _ _ Hs ER) as (HW & _). unfold tree_of_text in E. unfold toml_of_text. rewrite ER in *. destruct (syntax_of fl v d) as [x|] eqn:EX; [|discriminate]. injection E as EB.
  pose proof (syntax_keyed fl v d x HW EX) as [HK _]. assert (HX : x = {| DocTreeModel.d_body := DocTreeModel.d_body x; DocTreeModel.d_sections := [] |}).
  { unfold syntax_of in EX. rewrite HT in EX. destruct (syn_body fl v (d_groups d)); [|discriminate]. injection EX as <-. reflexivity. }
  pose proof (DocTreeProps.C23_key_values _ HK) as H. rewrite <- HX in H. destruct (DocTreeSpec.toml x) as [data|].
  - destruct H as (w & HB & HD). rewrite EB in HB. injection HB as -> ->. auto.
  - rewrite EB in H. exact H.
Qed.
Print Assumptions C53_key_values.
(** With headers [[a.b]] but no arrays of tables, a text that the rules allow gets the tree they say. *)
Theorem C53_tables_partial : forall fl v seg stack source crlf d data, seg [] = [] ->
  read seg stack source = Done (Some (crlf, d)) -> (forall t, In t (d_tables d) -> t_array t = false) -> toml_of_text fl v seg stack source = Some data ->
  exists t, tree_of_text fl v seg stack source = Some (t, []) /\ DocTreeSpec.data_of t = data.
Proof.
  intros fl v seg stack source crlf d data Hs ER HT E. destruct (read_inv _ _ _ _ _ Hs ER) as (HW & _). unfold toml_of_text in E. unfold tree_of_text. rewrite ER in *. destruct (syntax_of fl v d) as [x|] eqn:EX; [|discriminate].
  destruct (DocTreeProps.C23_tables x data (syntax_keyed fl v d x HW EX)) as (w & HB & HD); [|exact E|exists w; cbn [option_map]; rewrite HB; auto].
  unfold syntax_of in EX. destruct (syn_body fl v (d_groups d)) as [b|]; [|discriminate]. destruct (opt_all (syn_section fl v) (d_tables d)) as [ss|] eqn:ES; [|discriminate]. injection EX as <-. cbn [DocTreeModel.d_sections]. intros s Hx.
  destruct (opt_all_in _ _ _ ES _ Hx) as (t & Ht & Et). unfold syn_section in Et. destruct (opt_all (key_value v) (t_keys t)); [|discriminate]. destruct (syn_body fl v (t_groups t)); [|discriminate]. injection Et as <-. cbn [DocTreeModel.s_array]. apply HT. exact Ht.
Qed.
Print Assumptions C53_tables_partial.
(** Every value token of a text that the rules of TOML allow is in the data, decoded, at the place it is written under: the
    keys of its key/value, the positions in the arrays around it, and the keys of its header, where an array of tables
    stands for its last element. *)
Theorem C53_places : forall fl v seg stack source crlf d data path p,
  read seg stack source = Done (Some (crlf, d)) -> toml_of_text fl v seg stack source = Some data -> written_document v d path p ->
  exists s, literal_value fl v (fst p) (snd p) = Some s /\ data_at path data = Some (DocTreeSpec.DScalar (code s)).
Proof.
  intros fl v seg stack source crlf d data path p ER E HW. unfold toml_of_text in E. rewrite ER in E. destruct (syntax_of fl v d) as [x|] eqn:EX; [|discriminate]. exact (document_found fl v d x data path p EX E HW).
Qed.
Print Assumptions C53_places.
(** and every value token has a place. *)
Section Placed.
Context (fl : str -> option (list N)) (v : toml_version).
Definition placed (x : fval) : Prop := forall y p, syn_value fl v x = Some y -> In p (value_tokens x) -> exists path, written v x path p.
Lemma item_ok its l it : opt_all (syn_item v (syn_value fl v)) its = Some l -> In it its -> exists ks y, opt_all (key_value v) (ikeys it) = Some ks /\ syn_value fl v (ival it) = Some y.
Proof.
  revert l. induction its as [|i its IH]; intros l E HI; [destruct HI|]. cbn [opt_all] in E. fold (opt_all (syn_item v (syn_value fl v))) in E. destruct (syn_item v (syn_value fl v) i) as [b|] eqn:EI; [|discriminate]. destruct (opt_all (syn_item v (syn_value fl v)) its) as [l0|]; [|discriminate].
  destruct HI as [-> |HI]; [|exact (IH _ eq_refl HI)]. destruct it as [ld keys r x c]. cbn [syn_item ikeys ival] in *. unfold both in EI. destruct (opt_all (key_value v) keys) as [ks|]; [|discriminate]. destruct (syn_value fl v x) as [y|]; [|discriminate]. exists ks, y. auto.
Qed.
Lemma value_placed x : placed x.
Proof.
  induction x as [lead k w tc|table lead otc gs tc HG] using fval_ind'; intros y p E HI.
  - destruct HI as [<- |[]]. exists []. constructor.
  - rewrite syn_box in E. rewrite value_tokens_box in HI. destruct (opt_all _ (items_of gs)) as [l|] eqn:EL; [|discriminate]. apply in_flat_map in HI as (it & HI & HP). destruct (item_ok _ _ _ EL HI) as (ks & y0 & HK & HY).
    pose proof (all_items _ _ HG) as HF. rewrite Forall_forall in HF. destruct (HF it HI y0 p HY HP) as (path & HW). destruct table.
    + exists (map Key ks ++ path). eapply written_table; eauto.
    + destruct (In_nth_error _ _ HI) as (i & HN). exists (Index i :: path). eapply written_array; eauto.
Qed.
Lemma body_placed gs b p : syn_body fl v gs = Some b -> In p (body_tokens (items_of gs)) -> exists path, written_body v (items_of gs) path p.
Proof.
  intros E HI. apply in_flat_map in HI as (it & HI & HP). destruct (item_ok _ _ _ E HI) as (ks & y & HK & HY). destruct (value_placed _ y p HY HP) as (path & HW). exists (map Key ks ++ path), it, ks, path. auto.
Qed.
Lemma headers_ok ts ss : opt_all (syn_section fl v) ts = Some ss -> exists hs, opt_all (header v) ts = Some hs.
Proof.
  revert ss. induction ts as [|t ts IH]; intros ss E; [exists []; reflexivity|]. cbn [opt_all] in *. fold (opt_all (syn_section fl v)) in E. fold (opt_all (header v)). destruct (syn_section fl v t) as [s|] eqn:ES; [|discriminate]. destruct (opt_all (syn_section fl v) ts) as [ss0|]; [|discriminate].
  destruct (IH _ eq_refl) as (hs & ->). unfold syn_section in ES. unfold header. destruct (opt_all (key_value v) (t_keys t)) as [ks|]; [|discriminate]. eexists. reflexivity.
Qed.
End Placed.
Theorem C53_placed : forall fl v seg stack source crlf d data p,
  read seg stack source = Done (Some (crlf, d)) -> toml_of_text fl v seg stack source = Some data -> In p (document_tokens d) -> exists path, written_document v d path p.
Proof.
  intros fl v seg stack source crlf d data p ER E HI. unfold toml_of_text in E. rewrite ER in E. destruct (syntax_of fl v d) as [x|] eqn:EX; [|discriminate]. clear E. unfold syntax_of in EX. destruct (syn_body fl v (d_groups d)) as [b|] eqn:EB; [|discriminate].
  destruct (opt_all (syn_section fl v) (d_tables d)) as [ss|] eqn:ES; [|discriminate]. apply in_app_or in HI as [HI|HI].
  - destruct (body_placed fl v _ _ _ EB HI) as (path & HW). exists path. left. exact HW.
  - apply in_flat_map in HI as (t & HT & HI). apply in_split in HT as (l1 & l2 & HT). rewrite HT in ES. destruct (opt_all_split _ _ _ _ _ ES) as (s1 & s & s2 & _ & E1 & E2). destruct (headers_ok fl v _ _ E1) as (earlier & EH).
    unfold syn_section in E2. destruct (opt_all (key_value v) (t_keys t)) as [h|] eqn:EK; [|discriminate]. destruct (syn_body fl v (t_groups t)) as [tb|] eqn:ETB; [|discriminate]. destruct (body_placed fl v _ _ _ ETB HI) as (path & HW).
    exists (header_places earlier (t_array t) [] h ++ path). right. exists l1, t, l2, earlier, h, path. auto 6.
Qed.
Print Assumptions C53_placed.
(** So it is in the tree, if there are no arrays of tables (with them the tree may be another: C23). *)
Theorem C53_tree_places_partial : forall fl v seg stack source crlf d data path p, seg [] = [] ->
  read seg stack source = Done (Some (crlf, d)) -> (forall t, In t (d_tables d) -> t_array t = false) -> toml_of_text fl v seg stack source = Some data -> written_document v d path p ->
  exists t s, tree_of_text fl v seg stack source = Some (t, []) /\ literal_value fl v (fst p) (snd p) = Some s /\ data_at path (DocTreeSpec.data_of t) = Some (DocTreeSpec.DScalar (code s)).
Proof.
  intros fl v seg stack source crlf d data path p Hs ER HT E HW. destruct (C53_tables_partial fl v seg stack source crlf d data Hs ER HT E) as (t & E1 & E2). destruct (C53_places fl v seg stack source crlf d data path p ER E HW) as (s & E3 & E4). exists t, s. rewrite E2. auto.
Qed.
Print Assumptions C53_tree_places_partial.
Definition places_source : str := lines "a.b = [1, {c.d = 'x'}]|[[t]]|[[t.u]]|k = 2|[[t]]|[[t.u]]|[[t.u]]|k = 3|[t.w]|k = 4|".
Definition places_doc : fdoc := ltac:(let x := eval vm_compute in (read chars 200 places_source) in match x with Done (Some (_, ?d)) => exact d end).
Example C53_places_example : exists crlf d data, read chars 200 places_source = Done (Some (crlf, d)) /\ toml_of_text Some V1_0_0 chars 200 places_source = Some data /\
  written_document V1_0_0 d [Key (lit "a"); Key (lit "b"); Index 1; Key (lit "c"); Key (lit "d")] (LITERAL_STRING, lit "'x'") /\
  written_document V1_0_0 d [Key (lit "t"); Index 0; Key (lit "u"); Index 0; Key (lit "k")] (INTEGER_DEC, lit "2") /\
  written_document V1_0_0 d [Key (lit "t"); Index 1; Key (lit "u"); Index 1; Key (lit "k")] (INTEGER_DEC, lit "3") /\
  written_document V1_0_0 d [Key (lit "t"); Index 1; Key (lit "w"); Key (lit "k")] (INTEGER_DEC, lit "4").
Proof.
  destruct (toml_of_text Some V1_0_0 chars 200 places_source) as [data|] eqn:E; [|exfalso; revert E; vm_compute; discriminate].
  exists false, places_doc, data. split; [vm_compute; reflexivity|]. split; [reflexivity|]. clear E. unfold places_doc. split; [|split; [|split]].
  - left. do 2 eexists. exists [Index 1; Key (lit "c"); Key (lit "d")]. split; [left; reflexivity|]. split; [vm_compute; reflexivity|]. split; [|vm_compute; reflexivity].
    eapply written_array; [vm_compute; reflexivity|]. apply (written_table V1_0_0) with (ks := [lit "c"; lit "d"]) (path := []) (it := Item [] [(BARE_KEY, lit "c"); (BARE_KEY, lit "d")] (lit "c.d") (FLit [] LITERAL_STRING (lit "'x'") None) None); [left; vm_compute; reflexivity|vm_compute; reflexivity|constructor].
  - right. match goal with |- context [FDoc _ [?a; ?b; ?c; ?d; ?e; ?f]] => exists [a], b, [c; d; e; f] end. do 3 eexists. split; [vm_compute; reflexivity|]. split; [vm_compute; reflexivity|]. split; [vm_compute; reflexivity|]. split; [|vm_compute; reflexivity].
    do 2 eexists. exists []. split; [left; reflexivity|]. split; [vm_compute; reflexivity|]. split; [constructor|reflexivity].
  - right. match goal with |- context [FDoc _ [?a; ?b; ?c; ?d; ?e; ?f]] => exists [a; b; c; d], e, [f] end. do 3 eexists. split; [vm_compute; reflexivity|]. split; [vm_compute; reflexivity|]. split; [vm_compute; reflexivity|]. split; [|vm_compute; reflexivity].
    do 2 eexists. exists []. split; [left; reflexivity|]. split; [vm_compute; reflexivity|]. split; [constructor|reflexivity].
  - right. match goal with |- context [FDoc _ [?a; ?b; ?c; ?d; ?e; ?f]] => exists [a; b; c; d; e], f, [] end. do 3 eexists. split; [vm_compute; reflexivity|]. split; [vm_compute; reflexivity|]. split; [vm_compute; reflexivity|]. split; [|vm_compute; reflexivity].
    do 2 eexists. exists []. split; [left; reflexivity|]. split; [vm_compute; reflexivity|]. split; [constructor|reflexivity].
Qed.
Definition tree_source : str := lines "a.b = { c = 'x', d.e = [0b101, ""\u0041"", true] }|[t]|a = 2|[t.u]|'a' = 1979-05-27T07:32:00-07:00|".
Definition flat_source : str := lines "a.b = { c = 'x', d.e = [0b101, 1] }|a.c = 1|b = 2".
Example C53_examples : chars [] = [] /\
  (exists crlf d t, read chars 200 tree_source = Done (Some (crlf, d)) /\ (forall t, In t (d_tables d) -> t_array t = false) /\ length (d_tables d) = 2%nat /\
     tree_of_text Some V1_0_0 chars 200 tree_source = Some (t, []) /\
     map snd (document_tokens d) = map lit ["'x'"; "0b101"; """\u0041"""; "true"; "2"; "1979-05-27T07:32:00-07:00"]%string /\
     DocTreeSpec.scalars t = map code [VString (lit "x"); VInteger 5; VString (lit "A"); VBoolean true; VInteger 2;
       VOffsetDateTime ({| year := 1979; month := 5; day := 27 |}, {| hour := 7; minute := 32; second := 0; nanosecond := 0 |}, OffCustom (-420))] /\
     toml_of_text Some V1_0_0 chars 200 tree_source <> None) /\
  (exists crlf d t, read chars 200 flat_source = Done (Some (crlf, d)) /\ d_tables d = [] /\ tree_of_text Some V1_0_0 chars 200 flat_source = Some (t, [])) /\
  (exists crlf d t es, read chars 200 (lines "a = 1|a.b = 2") = Done (Some (crlf, d)) /\ d_tables d = [] /\ tree_of_text Some V1_0_0 chars 200 (lines "a = 1|a.b = 2") = Some (t, es) /\ es <> []).
Proof.
  split; [reflexivity|]. split; [|split].
  - destruct (read chars 200 tree_source) as [[[crlf d]|]| | |] eqn:ER; try (exfalso; revert ER; vm_compute; discriminate). destruct (tree_of_text Some V1_0_0 chars 200 tree_source) as [[t es]|] eqn:E; [|exfalso; revert E; vm_compute; discriminate].
    exists crlf, d, t. revert ER E. vm_compute. intros ER E. injection ER as <- <-. injection E as <- <-. repeat split; try discriminate. intros t [<- |[<- |[]]]; reflexivity.
  - destruct (read chars 200 flat_source) as [[[crlf d]|]| | |] eqn:ER; try (exfalso; revert ER; vm_compute; discriminate). destruct (tree_of_text Some V1_0_0 chars 200 flat_source) as [[t es]|] eqn:E; [|exfalso; revert E; vm_compute; discriminate].
    exists crlf, d, t. revert ER E. vm_compute. intros ER E. injection ER as <- <-. injection E as <- <-. repeat split.
  - destruct (read chars 200 (lines "a = 1|a.b = 2")) as [[[crlf d]|]| | |] eqn:ER; try (exfalso; revert ER; vm_compute; discriminate). destruct (tree_of_text Some V1_0_0 chars 200 (lines "a = 1|a.b = 2")) as [[t es]|] eqn:E; [|exfalso; revert E; vm_compute; discriminate].
    exists crlf, d, t, es. revert ER E. vm_compute. intros ER E. injection ER as <- <-. injection E as <- <-. repeat split. discriminate.
Qed.
