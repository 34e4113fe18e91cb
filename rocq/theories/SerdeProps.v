(** Writing Rust values as TOML ([serde_tombi::to_string], [to_document]): C55, C56. *)
From Coq Require Import String Ascii List NArith ZArith Bool Arith Lia Sorting.Permutation.
From Verif Require Import Base SyntaxKind TextModel LexerModel TomlTextModel NumberModel NumberSpec DateTimeModel DateTimeSpec ParserModel FormatPieces FormatterModel FormatterLayout FormatterSpec FormatterRelex FormatterProps FormatterTextProps
  TomlGrammar TomlStringGrammar ParserAcceptsProps ParseBack ReadBack TextTreeModel TextTreeProofs TextTreeProps SerdeModel SerdeSpec SerdeTokens SerdeBack SerdeLayout SerdeSections SerdeWhole SerdeMeaning SerdeSerialize SerdeValues SerdeTotal FormatterTotalProps.
From Verif Require DocTreeModel DocTreeArrays.
From Verif Require Import DocTreeSpec.
Import ListNotations.
Open Scope N_scope.
Open Scope list_scope.

(** * No header goes through an array of tables *)
Section Headers.
Context (show : list N -> str) (fl : str -> option (list N)).
Lemma in_below es : forall s, In s (below es []) <-> exists k v, In (k, v) es /\ has_header v = true /\ In s (secs v [k]).
Proof.
  intros s. unfold below. rewrite in_flat_map. split.
  - intros ([k v] & Hi & Hs). cbn [fst snd] in Hs. destruct (has_header v) eqn:E; [|destruct Hs]. eauto.
  - intros (k & v & Hi & Hh & Hs). exists (k, v). split; [exact Hi|]. cbn [fst snd]. rewrite Hh. exact Hs.
Qed.
Lemma first_key v k s : In s (secs v [k]) -> exists h, st_header s = k :: h.
Proof. rewrite <- (app_nil_r [k]), secs_prefix. intros H. apply in_map_iff in H as (s' & <- & _). exists (st_header s'). reflexivity. Qed.
Lemma same_entry es k v k' v' : distinct es -> In (k, v) es -> In (k', v') es -> k_value k = k_value k' -> (k, v) = (k', v').
Proof.
  unfold distinct. induction es as [|[q y] es IH]; intros HD Hi Hi' E; [destruct Hi|]. cbn [map fst] in HD. inversion HD as [|x l H1 H2]; subst. destruct Hi as [Hi|Hi], Hi' as [Hi'|Hi'].
  - congruence.
  - exfalso. injection Hi as -> ->. apply H1. rewrite E. exact (in_map (fun e => k_value (fst e)) _ _ Hi').
  - exfalso. injection Hi' as -> ->. apply H1. rewrite <- E. exact (in_map (fun e => k_value (fst e)) _ _ Hi).
  - exact (IH H2 Hi Hi' E).
Qed.
Lemma not_through es : table_ok show fl es -> forall a s q, In a (below es []) -> In s (below es []) -> st_array a = true -> map k_value (st_header s) = map k_value (st_header a) ++ q -> q = [].
Proof.
  induction 1 as [es HD HK HI HT IH HR]. intros a s q Ha Hs HA HE. apply in_below in Ha as (k & v & Hi & Hh & Ha). apply in_below in Hs as (k' & v' & Hi' & Hh' & Hs).
  destruct (first_key _ _ _ Ha) as (ha & Ea), (first_key _ _ _ Hs) as (hs & Es). pose proof HE as HE0. rewrite Ea, Es in HE0. cbn [map app] in HE0. injection HE0 as EK _. pose proof (same_entry es _ _ _ _ HD Hi' Hi EK) as EQ. injection EQ as -> ->. clear Hi' Hh'.
  destruct v as [x|[|] vs|[| |] sub]; try discriminate Hh.
  - cbn [secs] in Ha, Hs. apply in_map_iff in Ha as (r & <- & _). apply in_map_iff in Hs as (r' & <- & _). cbn [st_header map] in HE. apply (f_equal (@length _)) in HE. rewrite app_length in HE. cbn [length] in HE. destruct q; [reflexivity|cbn in HE; lia].
  - pose proof (headed_ok show fl sub (HT _ _ Hi) []) as HHD. rewrite Forall_forall in HHD. rewrite secs_table, (below_prefix [k]) in Ha, Hs.
    assert (Ha' : In a (map (prefixed [k]) (below sub []))) by (destruct (only_header sub); [exact Ha|destruct Ha as [<- |Ha]; [discriminate HA|exact Ha]]). apply in_map_iff in Ha' as (a' & <- & Ha').
    assert (Hs' : In s (map (prefixed [k]) (below sub [])) \/ st_header s = [k]) by (destruct (only_header sub); [left; exact Hs|destruct Hs as [<- |Hs]; [right; reflexivity|left; exact Hs]]). destruct Hs' as [Hs'|Hs'].
    + apply in_map_iff in Hs' as (s' & <- & Hs'). unfold prefixed in HE, HA. cbn [st_header st_array app map] in HE, HA. injection HE as HE. exact (IH _ _ Hi a' s' q Ha' Hs' HA HE).
    + rewrite Hs' in HE. unfold prefixed in HE. cbn [st_header app map] in HE. injection HE as HE. specialize (HHD _ Ha'). unfold headed in HHD. destruct (st_header a'); [contradiction|discriminate HE].
Qed.
End Headers.

(** * C55 *)
(** The text of a document is TOML, and says what the document says.  [show] and [fl] are Rust's [Display] and [FromStr] for
    floats; the document is one whose text needs no escapes (see [SerdeSpec]), nested no deeper than the parser goes. *)
Theorem C55_text_partial : forall show fl version seg stack es, seg [] = [] -> (128 < stack)%nat -> table_ok show fl es -> (depth_of (DvTable KTable es) <= 128)%nat ->
  exists data tree, toml_of_text fl version seg stack (text show false (DvTable KTable es) []) = Some data /\ alike data (doc_data (DvTable KTable es)) /\
    tree_of_text fl version seg stack (text show false (DvTable KTable es) []) = Some (tree, []) /\ data_of tree = data.
Proof.
  intros show fl version seg stack es Hs Hst HT HN. destruct (root_lay show fl es HT) as (qs & HL & EQ & HQ).
  assert (HD : (dnest (fd show es) <= MAX_RECURSION_DEPTH)%nat) by (etransitivity; [apply (doc_nest show fl); exact HT|exact HN]).
  destruct (layout_read seg stack _ _ _ _ _ Hs Hst (doc_wf show fl es HT) HD HL (doc_ok show fl es HT) HQ) as (l & crlf & d' & ELX & _ & ER & HSD & _).
  rewrite EQ in ER. unfold all_pieces in ER. rewrite <- (root_text show fl es HT) in ER.
  assert (HG : good_tokens (doc_content (fd show es))) by (eapply Forall_impl; [|exact (doc_ok show fl es HT)]; exact content_good).
  pose proof (data_syntax fl version _ d' HSD (doc_wf show fl es HT) HG) as ES. rewrite (doc_syntax show fl version es HT) in ES.
  destruct (document_meaning show fl es HT) as (data & EM & HA). pose proof (syntax_keyed fl version _ _ (doc_wf show fl es HT) (doc_syntax show fl version es HT)) as HK.
  destruct (DocTreeArrays.C23_plain_arrays (doc_syn es) data HK) as (tree & EB & ED); [|exact EM|].
  - intros a s q Ha Hi. unfold doc_syn in Ha, Hi. cbn [DocTreeModel.d_sections] in Ha, Hi. apply in_map_iff in Ha as (a' & <- & Ha). apply in_map_iff in Hi as (s' & <- & Hi). exact (not_through show fl es HT a' s' q Ha Hi).
  - exists data, tree. unfold toml_of_text, tree_of_text. rewrite ER, <- ES. cbn [option_map]. rewrite EB. auto.
Qed.
Print Assumptions C55_text_partial.
(** What [to_string] returns is TOML, and its data, by the rules of TOML and in tombi's own document tree, is what the value
    means.  Partial: for values whose document is [table_ok] (the refutations below show what goes wrong with others), and
    keys may come in another order. *)
Theorem C55_round_trip_partial : forall show fl version cfg le gr seg stack edited v d es out, seg [] = [] -> (128 < stack)%nat ->
  means v d -> untagged v -> to_document v = SOk (DvTable KTable es) -> table_ok show fl es -> (depth_of (DvTable KTable es) <= 128)%nat ->
  to_string show cfg le gr seg stack edited v = SOk out ->
  exists data tree, toml_of_text fl version seg stack out = Some data /\ alike data d /\ tree_of_text fl version seg stack out = Some (tree, []) /\ data_of tree = data.
Proof.
  intros show fl version cfg le gr seg stack edited v d es out Hs Hst HM HU ED HT HN E. unfold to_string in E. rewrite ED in E. cbn [sbind] in E.
  destruct (format_source cfg le gr seg stack edited _) as [[out'|]| | |] eqn:EF; try discriminate E. injection E as ->.
  destruct (root_lay show fl es HT) as (qs & HL & EQ & HQ).
  assert (HDD : (dnest (fd show es) <= MAX_RECURSION_DEPTH)%nat) by (etransitivity; [apply (doc_nest show fl); exact HT|exact HN]).
  destruct (layout_read seg stack _ _ _ _ _ Hs Hst (doc_wf show fl es HT) HDD HL (doc_ok show fl es HT) HQ) as (l & crlf & d' & ELX & HF & ER & HSD & HB & HCM).
  rewrite EQ in ELX, HF, ER. unfold all_pieces in ELX, HF, ER. rewrite <- (root_text show fl es HT) in ELX, HF, ER.
  destruct (C52_same_tree fl version cfg le gr seg stack edited _ out l crlf d' Hs Hst ELX HF ER HB EF) as [E1 E2]. rewrite E1, E2.
  destruct (C55_text_partial show fl version seg stack es Hs Hst HT HN) as (data & tree & H1 & H2 & H3 & H4). exists data, tree. split; [exact H1|]. split; [|auto].
  destruct (serialize_means v d HM HU) as (x & EX & EDD). unfold to_document in ED. rewrite EX in ED. cbn [sbind] in ED. destruct x as [x|k vs|k es']; try discriminate ED. injection ED as -> ->. rewrite <- EDD. exact H2.
Qed.
Print Assumptions C55_round_trip_partial.

(** The same in terms of the value alone: a struct of values that can be written ([SerdeSpec]: strings without escapes, integers
    of 64 bits, lists that are not empty, lists of structs only where sections can be written, anything in an [Inline]).
    Partial: as before. *)
Theorem C55_values_partial : forall show fl version cfg le gr seg stack edited v d out, seg [] = [] -> (128 < stack)%nat ->
  means v d -> a_table show fl v -> (value_depth v <= 128)%nat -> to_string show cfg le gr seg stack edited v = SOk out ->
  exists data tree, toml_of_text fl version seg stack out = Some data /\ alike data d /\ tree_of_text fl version seg stack out = Some (tree, []) /\ data_of tree = data.
Proof.
  intros show fl version cfg le gr seg stack edited v d out Hs Hst HM HA HN E. destruct (table_value show fl v HA) as (es & ES & HT).
  assert (ED : to_document v = SOk (DvTable KTable es)) by (unfold to_document; rewrite ES; reflexivity).
  assert (HD : (depth_of (DvTable KTable es) <= 128)%nat) by (pose proof (depth_inline (DvTable KTable es)) as H1; pose proof (serialize_depth v _ ES) as H2; exact (Nat.le_trans _ _ _ (Nat.le_trans _ _ _ H1 H2) HN)).
  exact (C55_round_trip_partial show fl version cfg le gr seg stack edited v d es out Hs Hst HM (table_untagged show fl v HA) ED HT HD E).
Qed.
Print Assumptions C55_values_partial.
(** And such a value is written: [to_string] does not panic, where the indentation of the deepest line fits into a byte.
    Partial: without the options that align equals signs or indent tables in tables. *)
Theorem C55_written_partial : forall show fl version cfg le gr seg stack edited v d, seg [] = [] -> (128 < stack)%nat ->
  means v d -> a_table show fl v -> (value_depth v <= 128)%nat ->
  f_key_value_equal_alignment cfg = false -> f_indent_sub_tables cfg = false -> (f_indent_tab cfg = true \/ f_indent_width cfg * N.of_nat (S (value_depth v)) < 256) ->
  exists out data tree, to_string show cfg le gr seg stack edited v = SOk out /\
    toml_of_text fl version seg stack out = Some data /\ alike data d /\ tree_of_text fl version seg stack out = Some (tree, []) /\ data_of tree = data.
Proof.
  intros show fl version cfg le gr seg stack edited v d Hs Hst HM HA HN HE HSub HI. destruct (table_value show fl v HA) as (es & ES & HT).
  assert (ED : to_document v = SOk (DvTable KTable es)) by (unfold to_document; rewrite ES; reflexivity).
  assert (HD1 : (depth_of (DvTable KTable es) <= value_depth v)%nat) by (pose proof (depth_inline (DvTable KTable es)) as H1; pose proof (serialize_depth v _ ES) as H2; exact (Nat.le_trans _ _ _ H1 H2)).
  assert (HDN : (dnest (fd show es) <= value_depth v)%nat) by (etransitivity; [apply (doc_nest show fl); exact HT|exact HD1]).
  destruct (root_lay show fl es HT) as (qs & HL & EQ & HQ).
  assert (HDD : (dnest (fd show es) <= MAX_RECURSION_DEPTH)%nat) by (etransitivity; [exact HDN|exact HN]).
  destruct (layout_read seg stack _ _ _ _ _ Hs Hst (doc_wf show fl es HT) HDD HL (doc_ok show fl es HT) HQ) as (l & crlf & d' & ELX & HF & ER & HSD & HB & HCM).
  rewrite EQ in ELX, HF, ER. unfold all_pieces in ELX, HF, ER. rewrite <- (root_text show fl es HT) in ELX, HF, ER.
  assert (HFM : formattable cfg seg stack (text show false (DvTable KTable es) [])).
  { apply (formattable_document cfg seg stack _ crlf d' ER).
    - assert (HLV : (levels cfg d' <= S (value_depth v))%nat) by (unfold levels; rewrite HSub, (same_data_nest _ _ HSD); destruct (f_indent_table_key_values cfg); lia). split; [lia|]. destruct HI as [HI|HI]; [left; exact HI|right]. nia.
    - intros c content Hc _. exfalso. pose proof (document_quiet show es) as HQu. rewrite Forall_forall in HQu. exact (HQu _ (HCM c Hc) eq_refl). }
  destruct (C57_no_panic_partial cfg le gr seg stack edited _ Hs HE HFM) as ([out|] & EO & HO); [|pose proof (proj1 HO eq_refl) as HX; rewrite ER in HX; discriminate HX].
  assert (ETO : to_string show cfg le gr seg stack edited v = SOk out) by (unfold to_string; rewrite ED; cbn [sbind]; rewrite EO; reflexivity).
  destruct (C55_values_partial show fl version cfg le gr seg stack edited v d out Hs Hst HM HA HN ETO) as (data & tree & H1 & H2 & H3 & H4). exists out, data, tree. auto.
Qed.
Print Assumptions C55_written_partial.
(** a struct with a nested struct, an option that is [None], lists of numbers and of structs, and an inline table *)
Definition str_of (x : string) : sval := SStr (lit x).
Definition fields (kvs : list (string * sval)) : sval := SMap (map (fun e => (str_of (fst e), snd e)) kvs).
Definition package : sval := fields
  [("name", str_of "tombi"); ("deps", fields [("serde", str_of "1"); ("opt", fields [("x", SInt 1)])]);
   ("bin", SSeq [fields [("a", SInt (-3)%Z)]; fields [("b", SSeq [SInt 1; SInt 2]); ("c", SNewtypeStruct INLINE_NAME (fields [("d", SBool true)]))]]);
   ("edition", SUint 7); ("license", SNone); ("day", SNewtypeStruct LOCAL_DATE_NAME (str_of "1979-05-27"))]%string.
Definition package_data : data := DTable
  [(lit "name", said (VString (lit "tombi"))); (lit "deps", DTable [(lit "serde", said (VString (lit "1"))); (lit "opt", DTable [(lit "x", said (VInteger 1))])]);
   (lit "bin", DArray [DTable [(lit "a", said (VInteger (-3)))]; DTable [(lit "b", DArray [said (VInteger 1); said (VInteger 2)]); (lit "c", DTable [(lit "d", said (VBoolean true))])]]);
   (lit "edition", said (VInteger 7)); (lit "day", said (VLocalDate {| year := 1979; month := 5; day := 27 |}))].
Definition package_entries : list (dkey * dvalue) :=
  [(DKey KBare (lit "name"), DvScalar (VString (lit "tombi")));
   (DKey KBare (lit "deps"), DvTable KTable [(DKey KBare (lit "serde"), DvScalar (VString (lit "1"))); (DKey KBare (lit "opt"), DvTable KTable [(DKey KBare (lit "x"), DvScalar (VInteger 1))])]);
   (DKey KBare (lit "bin"), DvArray KArrayOfTable [DvTable KTable [(DKey KBare (lit "a"), DvScalar (VInteger (-3)))];
     DvTable KTable [(DKey KBare (lit "b"), DvArray KArray [DvScalar (VInteger 1); DvScalar (VInteger 2)]); (DKey KBare (lit "c"), DvTable KInline [(DKey KBare (lit "d"), DvScalar (VBoolean true))])]]);
   (DKey KBare (lit "edition"), DvScalar (VInteger 7)); (DKey KBare (lit "day"), DvScalar (VLocalDate {| year := 1979; month := 5; day := 27 |}))].
Ltac nodup := repeat (constructor; [cbn; intros HX; repeat (destruct HX as [HX|HX]; [discriminate HX|]); exact HX|]); constructor.
Ltac each H := cbn [In] in H; repeat (destruct H as [H|H]; [first [discriminate H|injection H as <- <-|subst]|]); try (exfalso; exact H).
Lemma letter_key c s : forallb (fun c => ((97 <=? c) && (c <=? 122))%N) (c :: s) = true -> key_ok (DKey KBare (c :: s)).
Proof.
  intros HC. rewrite forallb_forall in HC. unfold key_ok. cbn [k_kind k_value]. split.
  - split; [discriminate|]. apply Forall_forall. intros x Hx. specialize (HC x Hx). apply andb_true_iff in HC as [H1 H2]. apply N.leb_le in H1, H2. lia.
  - intros a b E HD. exfalso. unfold date_like, g_full_date in HD. inversion HD as [| |r1 r2 u v HU HV| | | |]; subst. cbn [Regex.RRep] in HU. inversion HU as [| |r1' r2' u' v' HU' HV'| | | |]; subst. unfold g_digit in HU'. inversion HU' as [|f x Hx| | | | |]; subst.
    rewrite <- !app_assoc in E. cbn [app] in E. injection E as -> _. specialize (HC x (or_introl eq_refl)). unfold in_range in Hx. lia.
Qed.
Lemma letter_name c s : forallb (fun c => ((97 <=? c) && (c <=? 122))%N) (c :: s) = true -> name_ok (c :: s).
Proof. intros H. left. exact (letter_key c s H). Qed.
Lemma plain_text_ok s : forallb (fun c => ((93 <=? c) && (c <=? 126) || (35 <=? c) && (c <=? 91))%N) s = true -> plain_string s.
Proof. intros H. rewrite forallb_forall in H. apply Forall_forall. intros c Hc. specialize (H c Hc). unfold basic_unescaped. lia. Qed.
Ltac plain := apply plain_text_ok; reflexivity.
Lemma package_ok : table_ok (fun f => f) Some package_entries.
Proof.
  assert (HD : valid_date {| year := 1979; month := 5; day := 27 |}) by (split; [cbn; lia|]; split; [cbn; lia|]; exists 31; split; [apply DI31; cbn; tauto|cbn; lia]).
  constructor.
  - unfold distinct. cbn. nodup.
  - intros k v H. each H; apply letter_key; reflexivity.
  - intros k v H Hh. each H; try discriminate Hh; constructor; try plain; try (unfold scalar_ok, in_i64; lia). exact HD.
  - intros k sub H. each H. constructor.
    + unfold distinct. cbn. nodup.
    + intros k v H. each H; apply letter_key; reflexivity.
    + intros k v H Hh. each H; try discriminate Hh; constructor; plain.
    + intros k sub H. each H. constructor; [unfold distinct; cbn; nodup| | | |]; intros k v H; each H; try (apply letter_key; reflexivity); intros _; constructor; unfold scalar_ok, in_i64; lia.
    + intros k rows H. each H.
  - intros k rows H. each H. split; [discriminate|]. intros r H. each H.
    + do 2 eexists. split; [reflexivity|]. split; [unfold distinct; cbn; nodup|]. intros k v H. each H. split; [apply letter_key; reflexivity|]. constructor. unfold scalar_ok, in_i64. lia.
    + do 2 eexists. split; [reflexivity|]. split; [unfold distinct; cbn; nodup|]. intros k v H. each H; (split; [apply letter_key; reflexivity|]).
      * constructor. intros v H. each H; constructor; unfold scalar_ok, in_i64; lia.
      * constructor; [unfold distinct; cbn; nodup| |]; intros k v H; each H; [apply letter_key; reflexivity|constructor; exact I].
Qed.

Lemma package_means : means package package_data.
Proof.
  assert (HD : valid_date {| year := 1979; month := 5; day := 27 |}) by (split; [cbn; lia|]; split; [cbn; lia|]; exists 31; split; [apply DI31; cbn; tauto|cbn; lia]).
  unfold package, package_data, fields. cbn [map fst snd]. apply means_map; [|cbn; nodup].
  apply (fields_cons _ (lit "name")); [constructor|apply means_str|]. apply (fields_cons _ (lit "deps")); [constructor| |].
  { apply means_map; [|cbn; nodup]. apply (fields_cons _ (lit "serde")); [constructor|apply means_str|]. apply (fields_cons _ (lit "opt")); [constructor| |constructor].
    apply means_map; [|cbn; nodup]. apply (fields_cons _ (lit "x")); [constructor|apply means_int; unfold in_i64; lia|constructor]. }
  apply (fields_cons _ (lit "bin")); [constructor| |].
  { apply means_seq. apply means_cons; [|apply means_cons; [|apply means_nil]]; (apply means_map; [|cbn; nodup]).
    - apply (fields_cons _ (lit "a")); [constructor|apply means_int; unfold in_i64; lia|constructor].
    - apply (fields_cons _ (lit "b")); [constructor|apply means_seq; repeat (apply means_cons; [apply means_int; unfold in_i64; lia|]); apply means_nil|].
      apply (fields_cons _ (lit "c")); [constructor| |constructor]. apply means_inline. apply means_map; [|cbn; nodup]. apply (fields_cons _ (lit "d")); [constructor|apply means_bool|constructor]. }
  apply (fields_cons _ (lit "edition")); [constructor|apply (means_uint 7)|]. apply (fields_absent _ (lit "license")); [constructor|constructor|].
  apply (fields_cons _ (lit "day")); [constructor| |constructor]. apply (means_local_date {| year := 1979; month := 5; day := 27 |} HD).
Qed.
Ltac untag := repeat first [apply un_bool|apply un_int|apply un_str|apply un_none|apply un_uint; lia|apply un_newtype
  |apply un_seq; let v := fresh in let H := fresh in intros v H; each H|apply un_map; let k := fresh in let v := fresh in let H := fresh in intros k v H; each H].
Lemma package_untagged : untagged package.
Proof. unfold package, fields. cbn [map fst snd]. untag. Qed.
Example C55_round_trip_example : means package package_data /\ untagged package /\ to_document package = SOk (DvTable KTable package_entries) /\ table_ok (fun f => f) Some package_entries /\
  (depth_of (DvTable KTable package_entries) <= 128)%nat /\
  to_string (fun f => f) default_defs LELf width chars 200 true package =
    SOk (lines "name = ""tombi""|edition = 7|day = 1979-05-27||[deps]|serde = ""1""||[deps.opt]|x = 1||[[bin]]|a = -3||[[bin]]|b = [1, 2]|c = { d = true }|").
Proof.
  split; [exact package_means|]. split; [exact package_untagged|]. split; [vm_compute; reflexivity|]. split; [exact package_ok|]. split; [vm_compute; lia|]. vm_compute. reflexivity.
Qed.

Ltac named := eexists; split; [constructor|]; split; [apply letter_name; reflexivity|].
Lemma package_table : a_table (fun f => f) Some package.
Proof.
  assert (HD : valid_date {| year := 1979; month := 5; day := 27 |}) by (split; [cbn; lia|]; split; [cbn; lia|]; exists 31; split; [apply DI31; cbn; tauto|cbn; lia]).
  assert (HI : forall z, (-9 <= z <= 9)%Z -> small (fun f => f) Some (SInt z)) by (intros z Hz; apply small_int; unfold in_i64; lia).
  unfold package, fields. cbn [map fst snd]. apply table_map. intros kv H. cbn [In] in H. destruct H as [<- |[<- |[<- |[<- |[<- |[<- |[]]]]]]]; named.
  - right. left. apply line_small. apply small_str. plain.
  - right. right. left. apply table_map. intros kv H. cbn [In] in H. destruct H as [<- |[<- |[]]]; named.
    + right. left. apply line_small. apply small_str. plain.
    + right. right. left. apply table_map. intros kv H. cbn [In] in H. destruct H as [<- |[]]; named. right. left. apply line_small. apply HI. lia.
  - right. right. right. apply list_rows. intros r H. cbn [In] in H. destruct H as [<- |[<- |[]]]; apply row_map; intros kv H; cbn [In] in H.
    + destruct H as [<- |[]]; named. right. apply line_small. apply HI. lia.
    + destruct H as [<- |[<- |[]]]; named; right.
      * apply line_list; [apply HI; lia|]. intros x H. cbn [In] in H. destruct H as [<- |[]]. left. apply line_small. apply HI; lia.
      * apply line_inline. apply inlined_map. intros kv H. cbn [In] in H. destruct H as [<- |[]]; named. right. apply inlined_small. apply small_bool.
  - right. left. apply line_small. apply small_uint. reflexivity.
  - left. apply SerdeSpec.absent_none.
  - right. left. apply line_small. apply (small_local_date _ _ {| year := 1979; month := 5; day := 27 |} HD).
Qed.
Example C55_values_example : means package package_data /\ a_table (fun f => f) Some package /\ (value_depth package <= 128)%nat /\ f_indent_width default_defs * N.of_nat (S (value_depth package)) < 256.
Proof. split; [exact package_means|]. split; [exact package_table|]. split; [vm_compute; lia|vm_compute; reflexivity]. Qed.

(** ** Values that are not written as what they are *)
(** [to_string] with the default options; floats are kept as their texts *)
Definition written (v : sval) : sres str := to_string (fun f => f) default_defs LELf width chars 200 true v.
Definition read_back (out : str) : option data := toml_of_text Some V1_0_0 chars 200 out.
Lemma one_alike k x y : alike (DTable [(k, x)]) (DTable [(k, y)]) -> alike x y.
Proof.
  intros H. inversion H as [| |es es' es'' HP HF]; subst. apply Permutation_length_1_inv in HP. subst es'. inversion HF as [|e e' l l' HE HF']; subst. exact (proj2 HE).
Qed.
Ltac field := apply means_map; [|cbn; nodup]; eapply fields_cons; [constructor| |apply fields_nil].
(** The characters of a string are put between quotes as they are: a backslash and an [n] become a line break. *)
Theorem C55_backslash_refuted : exists v d out data, means v d /\ untagged v /\ written v = SOk out /\ read_back out = Some data /\ ~ alike data d.
Proof.
  exists (SMap [(str_of "a", SStr [92; 110])]), (DTable [(lit "a", said (VString [92; 110]))]), (lit "a = ""\n""" ++ [10]), (DTable [(lit "a", said (VString [10]))]).
  split; [field; apply means_str|]. split; [untag|]. split; [vm_compute; reflexivity|]. split; [vm_compute; reflexivity|]. intros H. apply one_alike in H. inversion H.
Qed.
Print Assumptions C55_backslash_refuted.
(** A quote in a string makes a text that is not TOML, and then [to_string] panics; so does a key with a space. *)
Theorem C55_panics_refuted :
  (exists v d, means v d /\ untagged v /\ v = SMap [(str_of "a", SStr [34])] /\ written v = SPanic) /\
  (exists v d, means v d /\ untagged v /\ v = SMap [(str_of "a b", SInt 1)] /\ written v = SPanic) /\
  (* an array of tables whose element has a table in it: [[a]] / b = [a.b] / c = 1 *)
  (exists v d, means v d /\ untagged v /\ v = SMap [(str_of "a", SSeq [SMap [(str_of "b", SMap [(str_of "c", SInt 1)])]])] /\ written v = SPanic).
Proof.
  repeat split.
  - exists (SMap [(str_of "a", SStr [34])]), (DTable [(lit "a", said (VString [34]))]). split; [field; apply means_str|]. split; [untag|]. split; [reflexivity|vm_compute; reflexivity].
  - exists (SMap [(str_of "a b", SInt 1)]), (DTable [(lit "a b", said (VInteger 1))]). split; [field; apply means_int; unfold in_i64; lia|]. split; [untag|]. split; [reflexivity|vm_compute; reflexivity].
  - exists (SMap [(str_of "a", SSeq [SMap [(str_of "b", SMap [(str_of "c", SInt 1)])]])]), (DTable [(lit "a", DArray [DTable [(lit "b", DTable [(lit "c", said (VInteger 1))])]])]).
    split; [field; apply means_seq; apply means_cons; [field; field; apply means_int; unfold in_i64; lia|apply means_nil]|]. split; [untag|]. split; [reflexivity|vm_compute; reflexivity].
Qed.
Print Assumptions C55_panics_refuted.
(** A list of scalars and structs is written well when a scalar comes first: [k = [2, { a = 1 }]]; with a struct first, or with a struct
    in the struct, the text is not TOML ([k = [a = 1 ...]]) and [to_string] panics. *)
Example C55_mixed_example :
  let v := SMap [(str_of "k", SSeq [SInt 2; SMap [(str_of "a", SInt 1)]])] in
  a_table (fun _ => []) (fun _ => None) v /\ written v = SOk (lines "k = [2, { a = 1 }]|").
Proof.
  split; [|vm_compute; reflexivity]. apply table_map. intros kv [<- |[]]. cbn [fst snd]. named. right. left.
  apply line_list; [apply small_int; unfold in_i64; lia|]. intros x [<- |[]]. right. apply row_map. intros kv [<- |[]]. named. right. apply line_small, small_int. unfold in_i64. lia.
Qed.
Theorem C55_mixed_refuted :
  (exists v d, means v d /\ untagged v /\ v = SMap [(str_of "k", SSeq [SMap [(str_of "a", SInt 1)]; SInt 2])] /\ written v = SPanic) /\
  (exists v d, means v d /\ untagged v /\ v = SMap [(str_of "k", SSeq [SInt 2; SMap [(str_of "b", SMap [(str_of "c", SInt 1)])]])] /\ written v = SPanic).
Proof.
  split.
  - exists (SMap [(str_of "k", SSeq [SMap [(str_of "a", SInt 1)]; SInt 2])]), (DTable [(lit "k", DArray [DTable [(lit "a", said (VInteger 1))]; said (VInteger 2)])]).
    split; [field; apply means_seq; apply means_cons; [field; apply means_int; unfold in_i64; lia|]; apply means_cons; [apply means_int; unfold in_i64; lia|apply means_nil]|]. split; [untag|]. split; [reflexivity|vm_compute; reflexivity].
  - exists (SMap [(str_of "k", SSeq [SInt 2; SMap [(str_of "b", SMap [(str_of "c", SInt 1)])]])]), (DTable [(lit "k", DArray [said (VInteger 2); DTable [(lit "b", DTable [(lit "c", said (VInteger 1))])]])]).
    split; [field; apply means_seq; apply means_cons; [apply means_int; unfold in_i64; lia|]; apply means_cons; [field; field; apply means_int; unfold in_i64; lia|apply means_nil]|]. split; [untag|]. split; [reflexivity|vm_compute; reflexivity].
Qed.
Print Assumptions C55_mixed_refuted.
(** A key with a dot becomes two keys. *)
Theorem C55_dotted_key_refuted : exists v d out data, means v d /\ untagged v /\ written v = SOk out /\ read_back out = Some data /\ ~ alike data d.
Proof.
  exists (SMap [(str_of "a.b", SInt 1)]), (DTable [(lit "a.b", said (VInteger 1))]), (lines "a.b = 1|"), (DTable [(lit "a", DTable [(lit "b", said (VInteger 1))])]).
  split; [field; apply means_int; unfold in_i64; lia|]. split; [untag|]. split; [vm_compute; reflexivity|]. split; [vm_compute; reflexivity|]. intros H. inversion H as [| |es es' es'' HP HF]; subst.
  apply Permutation_length_1_inv in HP. subst es'. inversion HF as [|e e' l l' HE HF']; subst. destruct HE as [HE _]. discriminate HE.
Qed.
Print Assumptions C55_dotted_key_refuted.
(** An empty list is not written, and lists in a list lose what is in them. *)
Theorem C55_lists_refuted :
  (exists v d out data, v = SMap [(str_of "a", SSeq [])] /\ means v d /\ untagged v /\ written v = SOk out /\ read_back out = Some data /\ ~ alike data d) /\
  (exists v d out data, v = SMap [(str_of "a", SSeq [SSeq [SInt 1]; SSeq [SInt 2]])] /\ means v d /\ untagged v /\ written v = SOk out /\ read_back out = Some data /\ ~ alike data d).
Proof.
  split.
  - exists (SMap [(str_of "a", SSeq [])]), (DTable [(lit "a", DArray [])]), [], (DTable []). split; [reflexivity|]. split; [field; apply means_seq; apply means_nil|]. split; [untag|]. split; [vm_compute; reflexivity|]. split; [vm_compute; reflexivity|].
    intros H. inversion H as [| |es es' es'' HP HF]; subst. apply Permutation_nil in HP. subst es'. inversion HF.
  - exists (SMap [(str_of "a", SSeq [SSeq [SInt 1]; SSeq [SInt 2]])]), (DTable [(lit "a", DArray [DArray [said (VInteger 1)]; DArray [said (VInteger 2)]])]), (lines "[[a]]||[[a]]|"), (DTable [(lit "a", DArray [DTable []; DTable []])]).
    split; [reflexivity|]. split; [field; apply means_seq; repeat (apply means_cons; [apply means_seq; apply means_cons; [apply means_int; unfold in_i64; lia|apply means_nil]|]); apply means_nil|]. split; [untag|].
    split; [vm_compute; reflexivity|]. split; [vm_compute; reflexivity|]. intros H. apply one_alike in H. inversion H as [|l l' HF|]; subst. inversion HF as [|x y l l' HX HF']; subst. inversion HX.
Qed.
Print Assumptions C55_lists_refuted.
(** Rust's [Display] of the float 1 is [1] (whatever the bits are called): it comes back as an integer. *)
Theorem C55_floats_refuted : exists v d out data, means v d /\ untagged v /\ written v = SOk out /\ read_back out = Some data /\ ~ alike data d.
Proof.
  exists (SMap [(str_of "a", SFloat (lit "1"))]), (DTable [(lit "a", said (VFloat (lit "1")))]), (lines "a = 1|"), (DTable [(lit "a", said (VInteger 1))]).
  split; [field; apply means_float|]. split; [apply un_map; intros k v H; each H; apply un_float|]. split; [vm_compute; reflexivity|]. split; [vm_compute; reflexivity|]. intros H. apply one_alike in H. inversion H.
Qed.
Print Assumptions C55_floats_refuted.
(** A struct in an [Inline] at the root is written with braces, which is not TOML. *)
Theorem C55_inline_root_refuted : exists v d, means v d /\ untagged v /\ written v = SPanic.
Proof.
  exists (SNewtypeStruct INLINE_NAME (SMap [(str_of "a", SInt 1)])), (DTable [(lit "a", said (VInteger 1))]). split; [apply means_inline; field; apply means_int; unfold in_i64; lia|]. split; [untag|]. vm_compute. reflexivity.
Qed.
Print Assumptions C55_inline_root_refuted.

(** * C56 *)
(** The document of a value that means a table says the same: the same keys in the same order, the same values.  Partial: for
    values without enum variants that hold something, and with integers of 64 bits. *)
Theorem C56_to_document_partial : forall v es, means v (DTable es) -> untagged v -> exists doc, to_document v = SOk doc /\ doc_data doc = DTable es.
Proof.
  intros v es HM HU. destruct (serialize_means v _ HM HU) as (x & EX & ED). unfold to_document. rewrite EX. cbn [sbind]. destruct x as [x|k vs|k fs]; try discriminate ED. eauto.
Qed.
Print Assumptions C56_to_document_partial.
(** A value that is not there is an empty document, and one that means no table is an error. *)
Theorem C56_root : (forall v, absent v -> to_document v = SOk (DvTable KTable [])) /\
  (forall v d, means v d -> untagged v -> (forall es, d <> DTable es) -> to_document v = SErr RootMustBeTable).
Proof.
  split.
  - intros v H. unfold to_document. rewrite (absent_none v H). reflexivity.
  - intros v d HM HU HN. destruct (serialize_means v _ HM HU) as (x & EX & ED). unfold to_document. rewrite EX. cbn [sbind]. destruct x as [x|k vs|k fs]; try reflexivity. destruct (HN _ (eq_sym ED)).
Qed.
Print Assumptions C56_root.
Example C56_example : means package package_data /\ untagged package /\ to_document package = SOk (DvTable KTable package_entries) /\ means (SInt 1) (said (VInteger 1)) /\ to_document (SInt 1) = SErr RootMustBeTable.
Proof. split; [exact package_means|]. split; [exact package_untagged|]. split; [vm_compute; reflexivity|]. split; [apply means_int; unfold in_i64; lia|reflexivity]. Qed.
(** The name of a variant that holds something is lost, and an integer of 64 bits without a sign becomes negative. *)
Theorem C56_variants_refuted :
  (exists v d doc, v = SMap [(str_of "a", SNewtypeVariant (lit "B") (SInt 1))] /\ means v d /\ to_document v = SOk doc /\ doc_data doc <> d) /\
  (exists v d doc, v = SMap [(str_of "a", STupleVariant (lit "B") [SInt 1])] /\ means v d /\ to_document v = SOk doc /\ doc_data doc <> d) /\
  (exists v d doc, v = SMap [(str_of "a", SStructVariant (lit "B") [(str_of "x", SInt 1)])] /\ means v d /\ to_document v = SOk doc /\ doc_data doc <> d) /\
  (exists v d doc, v = SMap [(str_of "a", SUint (2 ^ 63))] /\ means v d /\ to_document v = SOk doc /\ doc_data doc <> d).
Proof.
  split; [|split; [|split]].
  - eexists _, (DTable [(lit "a", DTable [(lit "B", said (VInteger 1))])]), _. split; [reflexivity|]. split; [field; apply means_newtype_variant; apply means_int; unfold in_i64; lia|]. split; [reflexivity|discriminate].
  - eexists _, (DTable [(lit "a", DTable [(lit "B", DArray [said (VInteger 1)])])]), _. split; [reflexivity|]. split; [field; apply means_tuple_variant; apply means_cons; [apply means_int; unfold in_i64; lia|apply means_nil]|]. split; [reflexivity|discriminate].
  - eexists _, (DTable [(lit "a", DTable [(lit "B", DTable [(lit "x", said (VInteger 1))])])]), _. split; [reflexivity|].
    split; [field; apply means_struct_variant; [eapply fields_cons; [constructor|apply means_int; unfold in_i64; lia|constructor]|cbn; nodup]|]. split; [reflexivity|discriminate].
  - eexists _, (DTable [(lit "a", said (VInteger (2 ^ 63)))]), _. split; [reflexivity|]. split; [field; apply (means_uint (2 ^ 63))|]. split; [vm_compute; reflexivity|vm_compute; discriminate].
Qed.
Print Assumptions C56_variants_refuted.
