(** Model of the cache of downloaded schemas on disk: crates/tombi-cache/src/lib.rs and the part of
    crates/tombi-schema-store/src/store.rs:415-512 and :1264-1302 that reads schemas from addresses of kind http and https.

    Simplifications:
    - an address is given by its parts; its fragment has been removed before;
    - a path is the list of its components below the cache directory, which exists; empty components vanish, as
      they do in the file system; names that differ only in case are different;
    - a file is its bytes and the time of its last change, in nanoseconds; reading a file takes place at one instant;
      a write that another process sees half done is a write cut short followed by a whole one;
    - reading JSON from bytes is an argument: both places of the code decode UTF-8 and call the same parser. *)
From Coq Require Import String Ascii List NArith Bool Arith Lia.
From Verif Require Import Base.
Import ListNotations.
Open Scope N_scope.
Open Scope list_scope.

(** * Addresses *)
Record url := Url { u_scheme : str; u_user : str; u_host : option str; u_port : option N; u_segments : list str; u_query : option str }.
(** [Url::path] *)
Definition url_path (u : url) : str := flat_map (fun s => 47 :: s) (u_segments u).
Fixpoint starts (p s : str) : bool :=
  match p, s with
  | [], _ => true
  | a :: p, b :: s => N.eqb a b && starts p s
  | _, _ => false
  end.
Definition ends (p s : str) : bool := starts (rev p) (rev s).
Definition index_file : str := lit "__index__.json".
Definition is_http (u : url) : bool := str_eqb (u_scheme u) (lit "http") || str_eqb (u_scheme u) (lit "https").
Definition filled (s : str) : bool := match s with [] => false | _ => true end.
(** lib.rs:36-55 [get_cache_file_path] *)
Definition cache_path (u : url) : list str :=
  [u_scheme u] ++ (match u_host u with Some h => [h] | None => [] end) ++ filter filled (u_segments u) ++
  (if is_http u && negb (ends (lit ".json") (url_path u)) then [index_file] else []).

(** * Files *)
Inductive node := Dir | File (bytes : list N) (modified : N).
Definition files := list str -> option node.
Fixpoint path_eqb (p q : list str) : bool :=
  match p, q with
  | [], [] => true
  | a :: p, b :: q => str_eqb a b && path_eqb p q
  | _, _ => false
  end.
Definition set (f : files) (p : list str) (n : node) : files := fun q => if path_eqb q p then Some n else f q.
(** [create_dir_all]: false if a file is in the way *)
Fixpoint make_dirs (f : files) (made rest : list str) : files * bool :=
  match rest with
  | [] => (f, true)
  | c :: rest =>
      let p := made ++ [c] in
      match f p with
      | Some (File _ _) => (f, false)
      | Some Dir => make_dirs f p rest
      | None => make_dirs (set f p Dir) p rest
      end
  end.
(** what becomes of a write: it does not begin, ends after some bytes (the process or the machine stops, or the disk is full), or succeeds *)
Inductive outcome := Refused | Cut (n : nat) | Whole.
(** [tokio::fs::write] *)
Definition write (f : files) (p : list str) (b : list N) (o : outcome) (now : N) : files :=
  match f p, o with
  | Some Dir, _ | _, Refused => f
  | _, Cut n => set f p (File (firstn n b) now)
  | _, Whole => set f p (File b now)
  end.
(** lib.rs:113-141 [save_to_cache] *)
Definition save_to_cache (f : files) (p : list str) (b : list N) (o : outcome) (now : N) : files :=
  match f p with
  | Some (File _ _) => write f p b o now
  | _ => match make_dirs f [] (removelast p) with
         | (f, true) => write f p b o now
         | (f, false) => f
         end
  end.

(** options.rs *)
Record options := Options { no_cache : option bool; cache_ttl : option N }.
Definition or_false (b : option bool) : bool := match b with Some b => b | None => false end.
(** lib.rs:63-102 [read_from_cache]; a time of change in the future counts as no age *)
Definition read_from_cache (default_ttl : option N) (f : files) (p : list str) (o : option options) (now : N) : option (list N) :=
  if match o with Some o => or_false (no_cache o) | None => false end then None
  else match f p with
       | Some (File b t) =>
           match (match o with Some o => cache_ttl o | None => default_ttl end) with
           | Some ttl => if ttl <? now - t then None else Some b
           | None => Some b
           end
       | _ => None
       end.

Section Fetch.
  Context {value : Type} (parse : list N -> option value) (default_ttl : option N).
  (** store.rs:1284-1302 [load_json_schema_from_cache]; what is not a value counts as a miss *)
  Definition load (f : files) (p : list str) (o : option options) (now : N) : option value :=
    match read_from_cache default_ttl f p o now with Some b => parse b | None => None end.
  (** store.rs:1265-1282 [load_json_schema_from_cache_ignoring_ttl] *)
  Definition load_ignoring_ttl (f : files) (p : list str) (o : option options) (now : N) : option value :=
    load f p (Some (Options (match o with Some o => no_cache o | None => None end) None)) now.

  (** one call: the time, the options, and what the server would answer *)
  Record call := Call { c_now : N; c_options : option options; c_offline : bool; c_reply : option (list N) }.
  (** [Ok(Some(v))], [Ok(None)], [Err(_)] *)
  Inductive answer := Value (v : value) | Absent | Failed.
  (** store.rs:446-512 [fetch_schema_value] for http and https: the answer, and the bytes to save. [f] are the files at the first look into
      the cache, [f'] those at the second *)
  Definition fetch (u : url) (c : call) (f f' : files) : answer * option (list N) :=
    let p := cache_path u in
    match load f p (c_options c) (c_now c) with
    | Some v => (Value v, None)
    | None =>
        let stale := load_ignoring_ttl f' p (c_options c) (c_now c) in
        if c_offline c then (match stale with Some v => Value v | None => Absent end, None)
        else match c_reply c with
             | Some b => (match parse b with Some v => Value v | None => Failed end, Some b)
             | None => (match stale with Some v => Value v | None => Failed end, None)
             end
    end.
End Fetch.
Arguments Value {value}. Arguments Absent {value}. Arguments Failed {value}.

(** the writes of all processes that use the cache, in the order of time *)
Record saved := Saved { w_url : url; w_bytes : list N; w_outcome : outcome; w_time : N }.
Definition after (h : list saved) : files :=
  fold_left (fun f w => save_to_cache f (cache_path (w_url w)) (w_bytes w) (w_outcome w) (w_time w)) h (fun _ => None).
