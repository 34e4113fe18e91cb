(** Model of the schemas kept in memory: crates/tombi-schema-store/src/store.rs:571-632 [try_get_document_schema] (an address without
    fragment), :386-413 [update_schema] and :1144-1164 [schema_cache_version].

    Simplifications: a schema is a function of its own bytes; schemas that it refers to are not loaded along with it. The map of schemas
    is a list, the last change first. *)
From Coq Require Import String Ascii List NArith Bool Arith Lia.
From Verif Require Import Base CacheModel.
Import ListNotations.
Open Scope N_scope.
Open Scope list_scope.

(** the time of the last change and the length of the file *)
Definition version := (N * N)%type.
Definition version_eqb (a b : option version) : bool :=
  match a, b with
  | Some (t, n), Some (t', n') => N.eqb t t' && N.eqb n n'
  | None, None => true
  | _, _ => false
  end.
(** [Ok(schema)] or [Err(_)] *)
Inductive result (doc : Type) := Loaded (d : doc) | Error.
Arguments Loaded {doc}. Arguments Error {doc}.

Section Memory.
  Context {uri doc : Type} (uri_eqb : uri -> uri -> bool).
  Definition memory := list (uri * (option version * result doc)).
  Fixpoint find (u : uri) (m : memory) : option (option version * result doc) :=
    match m with
    | [] => None
    | (u', e) :: m => if uri_eqb u u' then Some e else find u m
    end.
  (** store.rs:585-632: [checked] is the version when the memory is looked up, [fetched] is what is loaded if the memory does not serve
      ([None] for [Ok(None)]), and [stored] is the version when that is put into the memory *)
  Definition try_get (m : memory) (u : uri) (checked : option version) (fetched : option (result doc)) (stored : option version) : option (result doc) * memory :=
    let load := match fetched with
                | Some r => (Some r, (u, (stored, r)) :: m)
                | None => (None, m)
                end in
    match find u m with
    | Some (v, r) => if version_eqb v checked then (Some r, m) else load
    | None => load
    end.
  (** store.rs:386-413, when the address may be fetched *)
  Definition update (m : memory) (u : uri) (fetched : option (result doc)) (stored : option version) : bool * memory :=
    match find u m, fetched with
    | Some _, Some r => (true, (u, (stored, r)) :: m)
    | _, _ => (false, m)
    end.
End Memory.

Definition of_parse {doc} (o : option doc) : result doc := match o with Some d => Loaded d | None => Error end.
Section Sources.
  Context {doc : Type} (parse : list N -> option doc).
  (** schemas in files, store.rs:420-444: the files at one instant, each with its bytes and the time of its last change *)
  Definition disk := str -> option (list N * N).
  Definition file_version (d : disk) (u : str) : option version := match d u with Some (b, t) => Some (t, N.of_nat (length b)) | None => None end.
  Definition file_fetched (d : disk) (u : str) : result doc := match d u with Some (b, _) => of_parse (parse b) | None => Error end.
  (** a call during which the file may change: it is read at one instant, and its version is taken at the next *)
  Definition ask (before reading after : disk) (m : memory) (u : str) : option (result doc) * memory :=
    try_get str_eqb m u (file_version before u) (Some (file_fetched reading u)) (file_version after u).

  (** schemas from servers: the version is that of the copy on disk *)
  Definition http_version (f : files) (u : url) : option version :=
    match f (cache_path u) with Some (File b t) => Some (t, N.of_nat (length b)) | _ => None end.
  Definition http_fetched (default_ttl : option N) (u : url) (c : call) (f : files) : option (result doc) :=
    match fst (fetch parse default_ttl u c f f) with
    | Value d => Some (Loaded d)
    | Absent => None
    | Failed => Some Error
    end.
End Sources.
