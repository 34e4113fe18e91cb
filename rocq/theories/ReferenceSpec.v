(** What it means to follow the references of a schema within its document; nothing here mentions the model
    of the code. *)
From Coq Require Import String Ascii List NArith Bool.
From Verif Require Import Base JsonModel PointerSpec.
Import ListNotations.
Open Scope N_scope.
Open Scope list_scope.

(** the member [k] of a schema is the string [s] *)
Definition has_string (k : str) (s : str) (v : jvalue) : Prop :=
  exists es, v = JObject es /\ In (k, JString s) es.
Definition has_value (k : str) (x : jvalue) (v : jvalue) : Prop := exists es, v = JObject es /\ In (k, x) es.
(** a schema that refers to no other *)
Definition stands_alone (v : jvalue) : Prop :=
  (exists b, v = JBool b) \/ (exists es, v = JObject es /\ forall s, ~ In (lit "$ref", JString s) es).

(** [#/definitions/name] and [#/$defs/name] *)
Definition is_section (s : str) : Prop := s = lit "definitions" \/ s = lit "$defs".
Definition reference_to (section name : str) : str := 35 :: 47 :: section ++ 47 :: name.
(** a name that a pointer spells as it is *)
Definition plain_name (s : str) : Prop := s <> [] /\ Forall (fun c => is_scalar c /\ c <> 47 /\ c <> 126 /\ c <> 37) s.

(** [refers doc anchors s t]: the reference of [s] names the definition [t] of the document, or the anchor of [t];
    [anchors] gives the schema of each [#name] *)
Inductive refers (doc : jvalue) (anchors : list (str * jvalue)) (s t : jvalue) : Prop :=
| refers_definition section name :
    has_string (lit "$ref") (reference_to section name) s ->
    is_section section -> plain_name name -> denotes [section; name] doc t -> refers doc anchors s t
| refers_anchor name :
    has_string (lit "$ref") (35 :: name) s -> name <> [] -> ~ In 47 name -> In (35 :: name, t) anchors -> refers doc anchors s t.
(** [chain doc anchors s refs last]: from [s], the references lead through the schemas [refs], of which [s] is the
    first, to the schema [last], which refers to no other *)
Inductive chain (doc : jvalue) (anchors : list (str * jvalue)) : jvalue -> list jvalue -> jvalue -> Prop :=
| chain_end s : stands_alone s -> chain doc anchors s [] s
| chain_ref s t refs last : refers doc anchors s t -> chain doc anchors t refs last -> chain doc anchors s (s :: refs) last.

(** [first_with p refs x]: [x] is what [p] finds in the first of [refs] in which it finds anything, if any *)
Inductive first_with {A} (p : A -> jvalue -> Prop) : list jvalue -> option A -> Prop :=
| first_none : first_with p [] None
| first_here s refs x : p x s -> first_with p (s :: refs) (Some x)
| first_later s refs x : (forall y, ~ p y s) -> first_with p refs x -> first_with p (s :: refs) x.

(** ** References that go round
    [leads doc anchors s t]: the reference of [s] is spelled as
    a definition of the document or, if there is none, as an anchor, and that is [t]. *)
Definition defined (doc : jvalue) (r : str) (t : jvalue) : Prop :=
  exists section name, is_section section /\ r = reference_to section name /\ denotes [section; name] doc t.
Definition is_schema (hidden : list (str * jvalue) -> bool) (v : jvalue) : Prop :=
  (exists b, v = JBool b) \/ (exists es, v = JObject es /\ hidden es = false).
Definition anchored (anchors : list (str * jvalue)) (r : str) (t : jvalue) : Prop :=
  (exists name, r = 35 :: name /\ name <> [] /\ ~ In 47 name) /\ In (r, t) anchors.
Definition leads (hidden : list (str * jvalue) -> bool) (doc : jvalue) (anchors : list (str * jvalue)) (s t : jvalue) : Prop :=
  exists r, has_string (lit "$ref") r s /\ is_schema hidden t /\
    (defined doc r t \/ ((forall u, is_schema hidden u -> ~ defined doc r u) /\ anchored anchors r t)).
Inductive leads_on (R : jvalue -> jvalue -> Prop) : jvalue -> jvalue -> Prop :=
| leads_one s t : R s t -> leads_on R s t
| leads_more s t u : R s t -> leads_on R t u -> leads_on R s u.
(** [s] leads into a circle *)
Definition circular (R : jvalue -> jvalue -> Prop) (s : jvalue) : Prop :=
  exists t, (s = t \/ leads_on R s t) /\ leads_on R t t.
