(** Model of the choice of the schemas for a document: crates/tombi-schema-store/src/store.rs:215-235 and :700-1054.

    Simplifications:
    - whether an entry of the configuration matches the path of the document ([matches_schema_patterns]) is a
      component of the entry; GlobModel is about such patterns;
    - loading a schema is an argument; it gives the same answer every time, [None] when there is no schema or an
      error (both are only logged);
    - hash maps are lists of keys and values. *)
From Coq Require Import String Ascii List NArith Bool Arith Lia.
From Verif Require Import Base OverrideModel.
Import ListNotations.
Open Scope list_scope.

(** [PartialEq] of [PatternAccessor] *)
Definition pattern_eqb (p q : pattern) : bool :=
  match p, q with
  | PKey a, PKey b => str_eqb a b
  | PAnyKey, PAnyKey | PAnyIndex, PAnyIndex => true
  | PIndex a, PIndex b => N.eqb a b
  | _, _ => false
  end.
Fixpoint patterns_eqb (p q : list pattern) : bool :=
  match p, q with
  | [], [] => true
  | a :: p, b :: q => pattern_eqb a b && patterns_eqb p q
  | _, _ => false
  end.
(** [HashMap::get], [HashMap::insert] *)
Fixpoint get {K A} (eqb : K -> K -> bool) (k : K) (m : list (K * A)) : option A :=
  match m with [] => None | (k', a) :: m => if eqb k k' then Some a else get eqb k m end.
Fixpoint put {K A} (eqb : K -> K -> bool) (k : K) (a : A) (m : list (K * A)) : list (K * A) :=
  match m with
  | [] => [(k, a)]
  | (k', a') :: m => if eqb k k' then (k', a) :: m else (k', a') :: put eqb k a m
  end.
Definition first_some {A} (a b : option A) : option A := match a with Some _ => a | None => b end.

(** store.rs:232: where an entry of the configuration applies. A root that cannot be read is no root *)
Definition sub_root (root : option str) : option (list pattern) :=
  match root with
  | Some t => match parse t with Read ps => Some ps | _ => None end
  | None => None
  end.

Section Association.
  Context {version level format lint overrides doc : Type}.
  Context (load : str -> option doc) (doc_uri : doc -> str) (doc_version : doc -> option version).
  (** [normalize_schema_uri_key]: the address without its fragment *)
  Context (key : str -> str).
  (** store.rs [strict()]: the setting for all schemas; the default is strict *)
  Context (store_strict : option bool).

  (** schema.rs:448-464 [Schema], and whether it matches the document *)
  Record entry := Entry {
    e_uri : str; e_matches : bool; e_sub : option (list pattern); e_strict : option bool;
    e_version : option version; e_level : option level; e_format : option format; e_lint : option lint; e_overrides : overrides }.
  (** source_schema.rs:22-34; the [strict] of the root is a component of its document schema *)
  Record source := Source {
    root : option (doc * option bool); links : list (list pattern * (str * bool)); s_version : option version;
    s_level : option level; formats : list (str * format); lints : list (str * lint); all_overrides : list (str * overrides) }.
  (** source_schema.rs:58-67 *)
  Definition toml_version (s : source) : option version :=
    first_some (s_version s) (match root s with Some (d, _) => doc_version d | None => None end).
  Definition put_some {A} (k : str) (a : option A) (m : list (str * A)) : list (str * A) :=
    match a with Some a => put str_eqb k a m | None => m end.
  Definition or_true (b : option bool) : bool := match b with Some b => b | None => true end.

  (** store.rs:838-851 *)
  Definition already_loaded (e : entry) (s : option source) : bool :=
    match s with
    | None => false
    | Some s => match e_sub e with
                | Some a => match get patterns_eqb a (links s) with Some _ => true | None => false end
                | None => match root s with Some _ => true | None => false end
                end
    end.
  (** store.rs:835-1033: one matching entry; with the source so far go the sub-roots that inherit [strict] *)
  Definition step (st : option source * list (list pattern)) (e : entry) : option source * list (list pattern) :=
    if already_loaded e (fst st) then st
    else match load (e_uri e) with
         | None => st
         | Some d =>
             let k := key (doc_uri d) in
             match e_sub e with
             | Some a =>
                 let link := (doc_uri d, or_true (first_some (e_strict e) store_strict)) in
                 let inherit := match e_strict e with None => snd st ++ [a] | Some _ => snd st end in
                 match fst st with
                 | Some s =>
                     (Some (Source (root s) (put patterns_eqb a link (links s)) (s_version s) (s_level s)
                              (put_some k (e_format e) (formats s)) (put_some k (e_lint e) (lints s))
                              (put str_eqb k (e_overrides e) (all_overrides s))), inherit)
                 | None =>
                     (Some (Source None [(a, link)] (e_version e) (e_level e)
                              (put_some k (e_format e) []) (put_some k (e_lint e) []) [(k, e_overrides e)]), inherit)
                 end
             | None =>
                 match fst st with
                 | Some s =>
                     (Some (Source (Some (d, e_strict e)) (links s) (first_some (toml_version s) (e_version e)) (e_level e)
                              (put_some k (e_format e) (formats s)) (put_some k (e_lint e) (lints s))
                              (put str_eqb k (e_overrides e) (all_overrides s))), snd st)
                 | None =>
                     (Some (Source (Some (d, e_strict e)) [] (e_version e) (e_level e)
                              (put_some k (e_format e) []) (put_some k (e_lint e) []) [(k, e_overrides e)]), snd st)
                 end
             end
         end.
  (** store.rs:1036-1049 *)
  Definition inherit_strict (s : source) (subs : list (list pattern)) : source :=
    let strict := or_true (first_some (match root s with Some (_, b) => b | None => None end) store_strict) in
    Source (root s)
      (map (fun l => (fst l, if existsb (patterns_eqb (fst l)) subs then (fst (snd l), strict) else snd l)) (links s))
      (s_version s) (s_level s) (formats s) (lints s) (all_overrides s).
  (** store.rs:799-1052 [resolve_source_schema_from_path] *)
  Definition from_path (entries : list entry) : option source :=
    let r := fold_left step (filter e_matches entries) (None, []) in
    option_map (fun s => inherit_strict s (snd r)) (fst r).

  (** store.rs:700-770: the document names a schema; loading may also fail *)
  Inductive fetched := Found (d : doc) | NotThere | Failed.
  Inductive answer := Answer (s : source) | Error.
  Definition from_directive (named : fetched) (entries : list entry) : answer :=
    let c := from_path entries in
    let rest r := Source r (match c with Some s => links s | None => [] end) (match c with Some s => toml_version s | None => None end)
                    (match c with Some s => s_level s | None => None end) (match c with Some s => formats s | None => [] end)
                    (match c with Some s => lints s | None => [] end) (match c with Some s => all_overrides s | None => [] end) in
    let configured := match c with Some s => root s | None => None end in
    let strict := match configured with Some (_, b) => b | None => None end in
    match named with
    | Failed => Error
    | Found d => Answer (rest (Some (d, strict)))
    | NotThere => Answer (rest (option_map (fun r => (fst r, strict)) configured))
    end.
End Association.
