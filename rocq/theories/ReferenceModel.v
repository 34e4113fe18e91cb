(** Model of how a schema's [$ref] is followed inside one schema document:
    crates/tombi-schema-store/src/schema/referable_schema.rs:134-256 [Referable::new], :314-545
    [resolve_with_dynamic_scope], :602-687 [apply_ref_annotations], [combine_ref_semantics],
    [apply_ref_semantics], and crates/tombi-schema-store/src/schema/document_schema.rs:163-195 (the map of
    definitions).

    Simplifications:
    - only references of kind [$ref]; [$dynamicRef] and [$recursiveRef], which only some dialects support,
      are not modelled;
    - a reference that is neither a definition, nor an anchor, nor a JSON pointer ends in [Elsewhere]: other
      documents are not modelled;
    - a schema view is its JSON source and what references set on it; a semantic schema is the tree of the
      JSON sources it is built from;
    - the document is available when a pointer asks for it (the code returns no schema when offline);
    - [fuel] bounds the number of references followed; the code has no such bound, and [None] stands for a
      call that has not returned after [fuel] of them. *)
From Coq Require Import String Ascii List NArith Bool Arith Lia.
From Verif Require Import Base JsonModel PointerModel.
Import ListNotations.
Open Scope N_scope.
Open Scope list_scope.

(** crates/tombi-schema-store/src/schema/semantic_schema.rs:94-130: a schema by itself, or an [AllOf]
    composite *)
Inductive semantics := Alone (source : jvalue) | AllOf (schemas : list semantics).

Section Reference.
  (** [lossy]: see PointerModel. [deprecation_of]: crates/tombi-schema-store/src/schema/deprecation.rs:16-32.
      [hidden]: the [x-taplo] test of referable_schema.rs:143-148. [anchors]: the anchors collected from the
      document, each with its [#] *)
  Context {deprecated : Type} (deprecation_of : list (str * jvalue) -> option deprecated).
  Context (hidden : list (str * jvalue) -> bool) (lossy : list N -> str) (anchors : list (str * jvalue)).

  (** the annotations beside a [$ref], referable_schema.rs:172-187 *)
  Record notes := Notes {
    n_title : option str; n_description : option str; n_default : option jvalue;
    n_examples : option (list jvalue); n_deprecation : option deprecated }.
  (** what is set on a view by the [set_*] functions of schema_view.rs:310-420: [None] is left alone, and
      for the title and the description [Some None] is set to nothing *)
  Record settings := Settings {
    s_title : option (option str); s_description : option (option str); s_default : option jvalue;
    s_examples : option (list jvalue); s_deprecation : option deprecated }.
  Definition nothing_set : settings := Settings None None None None None.

  (** referable_schema.rs:25-47 [Referable] *)
  Inductive referable :=
  | Resolved (source : jvalue) (set : settings) (sem : option semantics)
  | Ref (reference : str) (given : notes) (sem : option semantics).

  Definition string_at (k : str) (es : list (str * jvalue)) : option str :=
    match member k es with Some (JString s) => Some s | _ => None end.
  (** referable_schema.rs:166-187 *)
  Definition notes_of (es : list (str * jvalue)) : notes :=
    Notes (string_at (lit "title") es) (string_at (lit "description") es) (member (lit "default") es)
      (match member (lit "examples") es with Some (JArray items) => Some items | _ => None end) (deprecation_of es).
  (** referable_schema.rs:134-256 [Referable::new] *)
  Definition new (es : list (str * jvalue)) : option referable :=
    if hidden es then None
    else match string_at (lit "$ref") es with
         | Some reference => Some (Ref reference (notes_of es) (Some (Alone (JObject es))))
         | None => Some (Resolved (JObject es) nothing_set (Some (Alone (JObject es))))
         end.
  (** crates/tombi-schema-store/src/schema.rs:251-273 [referable_from_schema_value] *)
  Definition from_value (v : jvalue) : option referable :=
    match v with
    | JObject es => new es
    | JBool _ => Some (Resolved v nothing_set (Some (Alone v)))
    | _ => None
    end.

  (** document_schema.rs:163-195: [definitions] then [$defs], each name after its prefix; a value that is no
      schema is left out *)
  Definition keep {A} (p : str * option A) : list (str * A) := match snd p with Some r => [(fst p, r)] | None => [] end.
  Definition section_definitions (section : str) (prefix : str) (es : list (str * jvalue)) : list (str * referable) :=
    match member section es with
    | Some (JObject ds) => flat_map (fun d => keep (prefix ++ fst d, from_value (snd d))) ds
    | _ => []
    end.
  Definition definitions (doc : jvalue) : list (str * referable) :=
    match doc with
    | JObject es => section_definitions (lit "definitions") (lit "#/definitions/") es ++
                    section_definitions (lit "$defs") (lit "#/$defs/") es
    | _ => []
    end.
  (** referable_schema.rs:689-695 [resolve_from_schema_map] *)
  Fixpoint find (k : str) (m : list (str * referable)) : option referable :=
    match m with
    | [] => None
    | (k', r) :: m => if str_eqb k k' then Some r else find k m
    end.
  (** the anchors hold referables too (crates/tombi-schema-store/src/schema.rs, [AnchorCollector]) *)
  Definition anchor_map : list (str * referable) := flat_map (fun a => keep (fst a, from_value (snd a))) anchors.
  (** referable_schema.rs:873-884 [is_plain_name_anchor_reference] *)
  Definition is_anchor_reference (reference : str) : bool :=
    match reference with
    | c :: name => N.eqb c 35 && nonempty name && negb (existsb (N.eqb 47) name)
    | [] => false
    end.
  (** referable_schema.rs:375-383 *)
  Definition lookup (doc : jvalue) (reference : str) : option referable :=
    match find reference (definitions doc) with
    | Some r => Some r
    | None => if is_anchor_reference reference then find reference anchor_map else None
    end.

  Definition or_else {A} (outer inner : option A) : option A := match outer with Some _ => outer | None => inner end.
  (** referable_schema.rs:602-656 [apply_ref_annotations] *)
  Definition apply_annotations (n : notes) (r : referable) : referable :=
    match r with
    | Resolved source s sem =>
        Resolved source
          (Settings (match n_title n with Some t => Some (Some t) | None => s_title s end)
                    (match n_description n with Some d => Some (Some d) | None => s_description s end)
                    (or_else (n_default n) (s_default s)) (or_else (n_examples n) (s_examples s))
                    (or_else (n_deprecation n) (s_deprecation s))) sem
    | Ref reference g sem =>
        Ref reference
          (Notes (or_else (n_title n) (n_title g)) (or_else (n_description n) (n_description g))
                 (or_else (n_default n) (n_default g)) (or_else (n_examples n) (n_examples g))
                 (or_else (n_deprecation n) (n_deprecation g))) sem
    end.
  (** referable_schema.rs:658-671 [combine_ref_semantics] *)
  Definition combine (local target : option semantics) : option semantics :=
    match local, target with
    | Some l, Some t => Some (AllOf [l; t])
    | Some s, None | None, Some s => Some s
    | None, None => None
    end.
  (** referable_schema.rs:673-687 [apply_ref_semantics] *)
  Definition apply_semantics (local : option semantics) (r : referable) : referable :=
    match r with
    | Resolved source s sem => Resolved source s (combine local sem)
    | Ref reference g sem => Ref reference g (combine local sem)
    end.

  Inductive outcome :=
  | Schema (source : jvalue) (set : settings) (sem : option semantics)
  | InvalidJsonPointer (pointer : str)
  | Elsewhere (reference : str) (given : notes) (sem : option semantics).

  (** referable_schema.rs:405-455: the schema at a JSON pointer. The title and the description are set
      together when one of them is given. A [$ref] of the schema found is not followed *)
  Definition at_pointer (doc : jvalue) (pointer : str) (n : notes) (sem : option semantics) : outcome :=
    match resolve_pointer lossy doc pointer with
    | Some v =>
        match v with
        | JObject _ | JBool _ =>
            let both := match n_title n, n_description n with None, None => false | _, _ => true end in
            Schema v (Settings (if both then Some (n_title n) else None) (if both then Some (n_description n) else None)
                        (n_default n) (n_examples n) (n_deprecation n)) (combine sem (Some (Alone v)))
        | _ => InvalidJsonPointer pointer
        end
    | None => InvalidJsonPointer pointer
    end.
  (** referable_schema.rs:314-545 [resolve_with_dynamic_scope] *)
  Fixpoint resolve (fuel : nat) (doc : jvalue) (r : referable) : option outcome :=
    match r with
    | Resolved source s sem => Some (Schema source s sem)
    | Ref reference n sem =>
        match lookup doc reference with
        | Some target =>
            match fuel with
            | O => None
            | S fuel => resolve fuel doc (apply_annotations n (apply_semantics sem target))
            end
        | None =>
            match reference with
            | c :: _ => if N.eqb c 35 then Some (at_pointer doc reference n sem) else Some (Elsewhere reference n sem)
            | [] => Some (Elsewhere reference n sem)
            end
        end
    end.
End Reference.
Arguments Notes {deprecated}. Arguments Settings {deprecated}. Arguments nothing_set {deprecated}.
Arguments Resolved {deprecated}. Arguments Ref {deprecated}. Arguments find {deprecated}.
Arguments Schema {deprecated}. Arguments InvalidJsonPointer {deprecated}. Arguments Elsewhere {deprecated}.
Arguments n_title {deprecated}. Arguments n_description {deprecated}. Arguments n_default {deprecated}.
Arguments n_examples {deprecated}. Arguments n_deprecation {deprecated}.
Arguments s_title {deprecated}. Arguments s_description {deprecated}. Arguments s_default {deprecated}.
Arguments s_examples {deprecated}. Arguments s_deprecation {deprecated}.
