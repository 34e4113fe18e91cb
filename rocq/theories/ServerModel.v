(** Model of the document store of the language server and of the handlers
    that read and write it, one step per stretch of code between two awaits.

    One document (one URI) is modelled; handlers of other documents only touch
    their own entries of the two maps.  The text of a document is the list of
    its characters; the syntax tree, document tree and line index kept with it
    are functions of the text and the TOML version (document.rs:67-97) and are
    left out.  The diagnostics of a document are represented by what they were
    computed from: the text and the TOML version given to the linter.

    Scheduling: the handlers are futures of one task; control passes between
    them only at awaits.  A handler that waits for the lock of the documents
    is one whose next step is the critical section.  [did_change] and
    [did_close] ask for the lock before any other await, and the lock is first
    come first served, so their first critical sections run in the order the
    messages arrived ([blocked]).  [did_save] holds the lock while it resolves
    the TOML version; nobody else can enter in between, so the two are one
    step.  What an await brings (a TOML version, whether a lock attempt
    failed) is given by the schedule. *)

From Coq Require Import List NArith ZArith Bool Lia.
From Verif Require Import Base.
Import ListNotations.
Open Scope N_scope.
Open Scope list_scope.

(** crates/tombi-lsp/src/document.rs:9-33 [DocumentSource]: text, version and
    TOML version; the rest is derived from these. *)
Record source := Src {
  s_text : list N;
  s_version : option Z;
  s_toml : N
}.

(** crates/tombi-lsp/src/diagnostic.rs:7-11 [DiagnosticsResult]; the list of
    diagnostics is represented by the text and TOML version linted. *)
Record dresult := DResult {
  r_text : list N;
  r_toml : N;
  r_version : option Z
}.

(** lsp_types [TextDocumentContentChangeEvent]: whether it has a range, and its
    text. *)
Record content_change := Change {
  c_ranged : bool;
  c_text : list N
}.

(** The messages about one document.  [MDisk] stands for what makes the server
    read the file: a created or changed file reported by the watcher
    (did_change_watched_files.rs:50-86) or the search of the workspace
    (workspace_diagnostic.rs:86-90).  [MDelete] is a deleted file
    (did_change_watched_files.rs:27-49).  [MDiagnostic] is a request for
    diagnostics with its request id. *)
Inductive msg :=
| MOpen (version : Z) (text : list N)
| MChange (version : Z) (changes : list content_change)
| MClose
| MSave (text : option (list N))
| MFormat
| MDisk (content : list N)
| MDelete
| MDiagnostic (id : nat).

(** Where a handler is: the next stretch of code it runs. *)
Inductive task :=
| TOpen (v : Z) (t : list N)                    (* did_open.rs:25-28 *)
| TOpenInsert (v : Z) (t : list N) (tv : N)     (* did_open.rs:37-41 *)
| TOpenClear                                    (* did_open.rs:43-47 *)
| TChange (v : Z) (t : option (list N))         (* did_change.rs:33-51 *)
| TChangeClear (v : Z) (t : option (list N)) (prev : N) (push : bool)
                                                (* did_change.rs:53-57 *)
| TChangeResolve (v : Z) (t : list N) (prev : N) (push : bool)
                                                (* did_change.rs:62-66 *)
| TChangeRefine (v : Z) (t : list N) (tv : N) (push : bool)
                                                (* did_change.rs:67-76 *)
| TChangeClear2 (push : bool)                   (* did_change.rs:78-82 *)
| TClose                                        (* did_close.rs:13-19 *)
| TCloseCache                                   (* did_close.rs:21-25 *)
| TSave (t : option (list N))                   (* did_save.rs:16-32 *)
| TSaveClear (push : bool)                      (* did_save.rs:34-43 *)
| TFormat                                       (* formatting.rs:74-88 *)
| TFormatting (t : list N) (tv : N)             (* formatting.rs:103-125 *)
| TDisk (c : list N)                            (* workspace_diagnostic.rs:147-150 *)
| TDiskWrite (c : list N) (tv : N)              (* workspace_diagnostic.rs:152-167 *)
| TDiskClear                                    (* did_change_watched_files.rs:77-81 *)
| TDelete                                       (* did_change_watched_files.rs:32-35 *)
| TUntrack                                      (* did_change_watched_files.rs:45-49 *)
| TDiag (id : option nat)                       (* diagnostic.rs:17-24 *)
| TDiagCached (id : option nat) (r : dresult)   (* diagnostic.rs:32-41 *)
| TDiagSnapshot (id : option nat)               (* diagnostic.rs:79-91 *)
| TDiagLint (id : option nat) (s : source)      (* diagnostic.rs:104-126 *)
| TDiagStore (id : option nat) (r : dresult).   (* diagnostic.rs:128-142 *)

(** What the server holds for the document: its entry in
    [Backend::document_sources], its entry in
    [WorkspaceDiagnosticsCache::cache], and whether it is one of the tracked
    workspace targets (backend.rs:53-60, cache.rs:4-7); and the results given
    to the client so far, latest first. *)
Record world := World {
  w_doc : option source;
  w_cache : option dresult;
  w_target : bool;
  w_served : list (option nat * dresult)
}.

(** What a step cannot know by itself: the TOML version resolved, whether an
    attempt to take a lock fails, whether diagnostics are pushed. *)
Record choice := Choice {
  k_toml : N;
  k_busy : bool;
  k_push : bool
}.

(** document.rs:67-70 [set_text]. *)
Definition set_text (s : source) (t : list N) (tv : N) : source :=
  Src t (s_version s) tv.

(** did_change.rs:14-22: the last change without a range. *)
Definition latest_text (cs : list content_change) : option (list N) :=
  fold_left (fun acc c => if c_ranged c then acc else Some (c_text c)) cs None.

(** [did_change]'s [version.is_none_or(|version| version < new)], 39-41. *)
Definition is_newer (old : option Z) (v : Z) : bool :=
  match old with None => true | Some o => (o <? v)%Z end.

Definition opt_z_eqb (a b : option Z) : bool :=
  match a, b with
  | None, None => true
  | Some x, Some y => Z.eqb x y
  | _, _ => false
  end.

Definition set_doc (w : world) (d : option source) : world :=
  World d (w_cache w) (w_target w) (w_served w).

Definition set_cache (w : world) (c : option dresult) : world :=
  World (w_doc w) c (w_target w) (w_served w).

Definition serve (w : world) (id : option nat) (r : dresult) : world :=
  World (w_doc w) (w_cache w) (w_target w) ((id, r) :: w_served w).

(** backend.rs [push_diagnostics] / handler/diagnostic.rs:35-37: nothing
    unless the client takes pushed diagnostics. *)
Definition push_task (push : bool) : option task :=
  if push then Some (TDiag None) else None.

(** The version [document_sources.get(uri).and_then(|s| s.version)],
    diagnostic.rs:32-37 and 131-133. *)
Definition doc_version (w : world) : option Z :=
  match w_doc w with None => None | Some s => s_version s end.

Section Server.
Context (fmt : N -> list N -> option (list N)). (* tombi_formatter::Formatter::format *)

(** One step of a handler: the new state of the server and what is left of the
    handler. *)
Definition run_task (k : choice) (w : world) (t : task) : world * option task :=
  match t with
  (* did_open.rs:22-28: resolving the TOML version awaits before the document
     is stored *)
  | TOpen v x => (w, Some (TOpenInsert v x (k_toml k)))
  (* did_open.rs:29-41 *)
  | TOpenInsert v x tv => (set_doc w (Some (Src x (Some v) tv)), Some TOpenClear)
  (* did_open.rs:43-47, 81 *)
  | TOpenClear => (set_cache w None, push_task (k_push k))
  (* did_change.rs:33-51 *)
  | TChange v x =>
      match w_doc w with
      | None => (w, None)
      | Some s =>
          let prev := s_toml s in
          let s1 := match x with Some y => set_text s y prev | None => s end in
          (set_doc w (Some (Src (s_text s1) (Some v) (s_toml s1))),
           Some (TChangeClear v x prev (is_newer (s_version s) v)))
      end
  (* did_change.rs:53-61: without a new text the rest is only publishing *)
  | TChangeClear v x prev push =>
      (set_cache w None,
       match x with
       | Some y => Some (TChangeResolve v y prev push)
       | None => push_task (push && k_push k)
       end)
  (* did_change.rs:62-66 *)
  | TChangeResolve v y prev push =>
      if negb (k_toml k =? prev) then (w, Some (TChangeRefine v y (k_toml k) push))
      else (w, push_task (push && k_push k))
  (* did_change.rs:67-76 *)
  | TChangeRefine v y tv push =>
      match w_doc w with
      | None => (w, None)
      | Some s =>
          if negb (opt_z_eqb (s_version s) (Some v)) then (w, None)
          else (set_doc w (Some (set_text s y tv)), Some (TChangeClear2 push))
      end
  (* did_change.rs:78-89 *)
  | TChangeClear2 push => (set_cache w None, push_task (push && k_push k))
  (* did_close.rs:13-19 *)
  | TClose =>
      (match w_doc w with
       | None => w
       | Some s => set_doc w (Some (Src (s_text s) None (s_toml s)))
       end, Some TCloseCache)
  (* did_close.rs:21-25, cache.rs:59-72 [close] *)
  | TCloseCache =>
      (if w_target w then
         match w_cache w with
         | Some r => set_cache w (Some (DResult (r_text r) (r_toml r) None))
         | None => w
         end
       else set_cache w None, None)
  (* did_save.rs:18-32 *)
  | TSave x =>
      match x with
      | None => (w, Some (TSaveClear (k_push k)))
      | Some y =>
          match w_doc w with
          | None => (w, Some (TSaveClear (k_push k)))
          | Some s =>
              (set_doc w (Some (set_text s y (k_toml k))),
               Some (TSaveClear (k_push k && negb (str_eqb (s_text s) y))))
          end
      end
  (* did_save.rs:34-43 *)
  | TSaveClear push => (set_cache w None, push_task push)
  (* formatting.rs:74-88: [try_read]; being disabled by an option ends the
     handler in the same way *)
  | TFormat =>
      if k_busy k then (w, None)
      else match w_doc w with
           | None => (w, None)
           | Some s => (w, Some (TFormatting (s_text s) (s_toml s)))
           end
  (* formatting.rs:103-125: the text is written back if it is still the one
     formatted *)
  | TFormatting x tv =>
      match fmt tv x with
      | None => (w, None)
      | Some y =>
          if str_eqb x y then (w, None)
          else if k_busy k then (w, None)
          else match w_doc w with
               | None => (w, None)
               | Some s =>
                   if str_eqb (s_text s) x then (set_doc w (Some (set_text s y tv)), None)
                   else (w, None)
               end
      end
  (* workspace_diagnostic.rs:138-150 *)
  | TDisk c => (w, Some (TDiskWrite c (k_toml k)))
  (* workspace_diagnostic.rs:152-169 *)
  | TDiskWrite c tv =>
      match w_doc w with
      | Some s =>
          match s_version s with
          | Some _ => (w, Some TDiskClear)
          | None => (set_doc w (Some (set_text s c tv)), Some TDiskClear)
          end
      | None => (set_doc w (Some (Src c None tv)), Some TDiskClear)
      end
  (* did_change_watched_files.rs:75-84 *)
  | TDiskClear => (set_cache w None, push_task (k_push k))
  (* did_change_watched_files.rs:32-35 *)
  | TDelete => (set_doc w None, Some TUntrack)
  (* did_change_watched_files.rs:45-49, cache.rs:45-50 [untrack] *)
  | TUntrack => (World (w_doc w) None false (w_served w), None)
  (* diagnostic.rs:17-24 *)
  | TDiag id =>
      match w_cache w with
      | Some r => (w, Some (TDiagCached id r))
      | None => (w, Some (TDiagSnapshot id))
      end
  (* diagnostic.rs:32-41: reused only if it is of the present version *)
  | TDiagCached id r =>
      if opt_z_eqb (r_version r) (doc_version w) then (serve w id r, None)
      else (w, Some (TDiagSnapshot id))
  (* diagnostic.rs:79-91 *)
  | TDiagSnapshot id =>
      if k_busy k then (w, None)
      else match w_doc w with
           | None => (w, None)
           | Some s => (w, Some (TDiagLint id s))
           end
  (* diagnostic.rs:104-126: the linter awaits *)
  | TDiagLint id s =>
      (w, Some (TDiagStore id (DResult (s_text s) (s_toml s) (s_version s))))
  (* diagnostic.rs:128-142 *)
  | TDiagStore id r =>
      let w1 := if negb (k_busy k) && opt_z_eqb (doc_version w) (r_version r)
                then set_cache w (Some r) else w in
      (serve w1 id r, None)
  end.

(** backend.rs:360-385, 479-537: the handler of a message. *)
Definition start (m : msg) : task :=
  match m with
  | MOpen v t => TOpen v t
  | MChange v cs => TChange v (latest_text cs)
  | MClose => TClose
  | MSave t => TSave t
  | MFormat => TFormat
  | MDisk c => TDisk c
  | MDelete => TDelete
  | MDiagnostic id => TDiag (Some id)
  end.

(** Handlers whose first await is the write lock of the documents. *)
Definition queued (t : task) : bool :=
  match t with TChange _ _ | TClose => true | _ => false end.

(** The lock is first come first served: a queued handler waits for the queued
    handlers before it. *)
Definition blocked (before : list task) (t : task) : bool :=
  queued t && existsb queued before.

Record config := Config {
  g_world : world;
  g_tasks : list task  (* handlers under way, oldest message first *)
}.

Inductive event :=
| ERecv (m : msg)
| ERun (i : nat) (k : choice).

Definition exec1 (c : config) (e : event) : config :=
  match e with
  | ERecv m => Config (g_world c) (g_tasks c ++ [start m])
  | ERun i k =>
      match nth_error (g_tasks c) i with
      | None => c
      | Some t =>
          let before := firstn i (g_tasks c) in
          let after := skipn (S i) (g_tasks c) in
          if blocked before t then c
          else
            let '(w, rest) := run_task k (g_world c) t in
            Config w (before ++ match rest with Some t' => [t'] | None => [] end ++ after)
      end
  end.

Definition exec (c : config) (es : list event) : config := fold_left exec1 es c.

(** backend.rs:92-110 [Backend::new]; whether the document is a workspace
    target does not matter for the document store. *)
Definition init (target : bool) : config := Config (World None None target []) [].

End Server.
