(** Final theorems about highlighting (C70). *)
From Coq Require Import String Ascii List NArith Bool Arith Lia.
From Verif Require Import Base SyntaxKind TextModel LexerModel LexerSpec ParserModel ParserBuild TomlTextModel AstModel FormatterModel FormatterProps HighlightModel HighlightSpec HighlightProofs HighlightTree HighlightPlaces.
Import ListNotations.
Open Scope N_scope.
Open Scope list_scope.

(** C70: for every text that is read without errors, what is handed to the builder of semantic tokens is, in this order, exactly the comments,
    keys, equals signs, literals and header brackets of the text from left to right, each with its type; no token is left out or comes twice,
    nothing panics.  Only what stands in a comma behind a key/value of a table is not highlighted; such a text is no TOML. *)
Theorem C70_in_order : forall seg stack source t, seg [] = [] -> parse seg stack source = Done (t, []) ->
  map seen (highlights t) = sights false Elsewhere t.
Proof. exact highlights_exact. Qed.
Print Assumptions C70_in_order.

(** Without such commas everything is highlighted. *)
Theorem C70_everything_partial : forall seg stack source t, seg [] = [] -> parse seg stack source = Done (t, []) -> no_line_commas t = true ->
  map seen (highlights t) = sights true Elsewhere t.
Proof. intros seg stack source t Hs HP HN. rewrite (no_commas_sights Elsewhere t HN). exact (highlights_exact seg stack source t Hs HP). Qed.
Print Assumptions C70_everything_partial.

(** What is handed to the builder is highlighted where it stands: the text before it and its own text are the beginning of the text.  This
    holds for every tree, also of a text with errors. *)
Theorem C70_places : forall t ty e, In (ty, e) (highlights t) -> exists rest, ttext t = pre e ++ etext e ++ rest.
Proof. exact highlights_placed. Qed.
Print Assumptions C70_places.

Definition sample : str := lines "# a||b . ""c"" = [ # d|  1, # e|  {x = 2.5, y = 'z'} # f|  , # g|  # h|] # i||# j|[t.'u'] # k|# l||v = 1979-05-27|[[w]]|x = true".
Definition sample_tree : tree := match parse chars 129 sample with Done (t, []) => t | _ => TToken EOF [] end.
Example C70_example : parse chars 129 sample = Done (sample_tree, []) /\ no_line_commas sample_tree = true /\
  map seen (highlights sample_tree) = sights true Elsewhere sample_tree /\ length (highlights sample_tree) = 33%nat /\
  firstn 7 (map seen (highlights sample_tree)) =
    [(CommentType, COMMENT, lit "# a"); (KeyType, BARE_KEY, lit "b"); (KeyType, BASIC_STRING, lit """c"""); (OperatorType, EQUAL, []); (CommentType, COMMENT, lit "# d");
     (NumberType, INTEGER_DEC, lit "1"); (CommentType, COMMENT, lit "# e")] /\
  skipn 22 (map (fun m => (fst m, len_bytes (pre (snd m)))) (highlights sample_tree)) =
    [(CommentType, 88); (CommentType, 92); (KeyType, 97); (OperatorType, 99); (LocalDateType, 101); (OperatorType, 112); (TableType, 114); (OperatorType, 115); (KeyType, 118);
     (OperatorType, 120); (BooleanType, 122)].
Proof. vm_compute. repeat split. Qed.

(** C70 without the condition is false: the comment behind a comma at the end of a line is not highlighted although the parser reads the
    text without errors. *)
Theorem C70_comma_refuted : exists t, parse chars 129 (lines "a = 1, # c|b = 2 # d") = Done (t, []) /\
  In (CommentType, COMMENT, lit "# c") (sights true Elsewhere t) /\ ~ In (CommentType, COMMENT, lit "# c") (map seen (highlights t)).
Proof.
  eexists. split; [vm_compute; reflexivity|]. split; [vm_compute; auto 10|]. vm_compute. intros H. repeat (destruct H as [H|H]; [discriminate H|]). exact H.
Qed.
Print Assumptions C70_comma_refuted.
