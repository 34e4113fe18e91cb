(** * The command line: rust/tombi-cli/src/app/command *)
From Coq Require Import List NArith Bool Arith.
From Verif Require Import Base GlobModel.
Import ListNotations.
Open Scope N_scope.
Open Scope list_scope.

(** Contents of files are bytes.  Files are identified by numbers ([ino]): two paths may lead to the same file. *)
Definition bytes := list N.
Definition ino := N.
Definition disk := ino -> bytes.
Definition set_file (d : disk) (i : ino) (c : bytes) : disk := fun j => if j =? i then c else d j.
(** Writing at an offset, as the operating system does it: a gap is filled with zeros. *)
Definition write_at (off : nat) (data content : bytes) : bytes :=
  firstn off content ++ repeat 0 (off - length content) ++ data ++ skipn (off + length data) content.

(** What becomes of the text of a file: [read_to_string] gives no text, or the formatter answers with a text, with diagnostics,
    or panics. *)
Inductive formatting := NotUtf8 | Formatted (f : bytes) | Diagnostics | FormatterPanics.
(** How a file is counted: [success_num], [not_needed_num], [skipped_num], [error_num]
    (rust/tombi-cli/src/app/command/format.rs:44-50) *)
Inductive outcome := Success | NotNeeded | WasSkipped | Failure.

(** The task of one file, with what it has done so far. *)
Inductive task :=
| Waiting                                         (* not opened yet *)
| Reading (read : bytes)
| HasRead (source : bytes)
| Resetting (formatted : bytes)
| Writing (off : nat) (flight rest : bytes)       (* [flight] is being written at [off], [rest] is not handed over yet *)
| Flushing (off : nat) (flight : bytes)           (* [write_all] has returned, the task has ended with [Ok(true)] *)
| Ended (o : outcome).
(** What happens to a task next: the operating system reads and writes as many bytes as it likes, and may fail.  [Buffer] is
    tokio's [File::poll_write]: up to 2 MiB are copied and handed to another thread, and the call returns; the result of that
    write is looked at by the next call only (tokio/src/fs/file.rs).  The task never makes another one after the last part. *)
Inductive event := Open | Read (n : nat) | ReadFails | Format | Truncate | TruncateFails | Buffer (n : nat) | Write (n : nat) | WriteFails.
Definition fails (e : event) : bool := match e with ReadFails | TruncateFails | WriteFails => true | _ => false end.

Section Cli.
(** [None]: there is no such file *)
Context (inode : path -> option ino) (readable writable : ino -> bool).
(** [get_format_options] gives no options (GlobModel.get_format_options) *)
Context (disabled : path -> bool).
(** the formatter with the options for a path *)
Context (format : path -> bytes -> formatting).
Context (check : bool).

Definition bytes_eqb (a b : bytes) : bool := if list_eq_dec N.eq_dec a b then true else false.
(** rust/tombi-cli/src/app/command/format.rs:189-231 and :472-483 (opening), :497-502 (reading), :347-384 [format_file], :487-495
    [reset], :504-509 [write_all].  The [seek] and the [set_len] of [reset] are one step. *)
Definition step (p : path) (t : task) (e : event) (d : disk) : option (task * disk) :=
  match t, e with
  | Waiting, Open =>
      if disabled p then Some (Ended NotNeeded, d)
      else match inode p with
           | None => Some (Ended Failure, d)
           | Some i => if readable i && (check || writable i) then Some (Reading [], d) else Some (Ended Failure, d)
           end
  | Reading read, Read (S n) =>
      match inode p with
      | None => None
      | Some i => match skipn (length read) (d i) with
                  | [] => Some (HasRead read, d)
                  | rest => Some (Reading (read ++ firstn (S n) rest), d)
                  end
      end
  | Reading _, ReadFails => Some (Ended Failure, d)
  | HasRead source, Format =>
      match format p source with
      | Formatted f => if bytes_eqb source f then Some (Ended NotNeeded, d)
                       else if check then Some (Ended Failure, d) else Some (Resetting f, d)
      | NotUtf8 | Diagnostics | FormatterPanics => Some (Ended Failure, d)
      end
  | Resetting f, Truncate => match inode p with None => None | Some i => Some (Writing 0 [] f, set_file d i []) end
  | Resetting _, TruncateFails => Some (Ended Failure, d)
  | Writing off [] rest, Buffer (S n) =>
      match rest with
      | [] => Some (Ended Success, d)
      | _ => match skipn (S n) rest with
             | [] => Some (Flushing off rest, d)
             | rest' => Some (Writing off (firstn (S n) rest) rest', d)
             end
      end
  | Writing off (b :: flight) rest, Write (S n) =>
      match inode p with
      | None => None
      | Some i => let part := firstn (S n) (b :: flight) in
                  Some (Writing (off + length part) (skipn (S n) (b :: flight)) rest, set_file d i (write_at off part (d i)))
      end
  | Writing off (_ :: _) rest, WriteFails => Some (Ended Failure, d)
  | Flushing off flight, Write (S n) =>
      match inode p with
      | None => None
      | Some i => let part := firstn (S n) flight in
                  Some (match skipn (S n) flight with [] => Ended Success | rest => Flushing (off + length part) rest end,
                        set_file d i (write_at off part (d i)))
      end
  | Flushing _ _, WriteFails => Some (Ended Success, d)
  | _, _ => None
  end.

(** * Runs *)
(** rust/tombi-cli/src/app/command/format.rs:176-246: every entry of the search (GlobModel.entry) becomes a task or is counted.
    The tasks run while others are still being opened; here they may even be opened in any order. *)
Definition start (e : entry) : task := match e with Found _ => Waiting | Skipped _ => Ended WasSkipped | NotFound _ => Ended Failure end.
Record run := Run { tasks : list task; files : disk }.
Definition starts (es : list entry) (d : disk) : run := Run (map start es) d.
Fixpoint set_nth {A} (n : nat) (a : A) (l : list A) : list A :=
  match n, l with O, _ :: l => a :: l | S n, b :: l => b :: set_nth n a l | _, [] => [] end.
(** The tasks of the [JoinSet] are run by several threads: the task with number [fst ev] takes the step [snd ev]. *)
Definition take (es : list entry) (r : run) (ev : nat * event) : option run :=
  match nth_error es (fst ev), nth_error (tasks r) (fst ev) with
  | Some (Found p), Some t => match step p t (snd ev) (files r) with
                              | Some (t, d) => Some (Run (set_nth (fst ev) t (tasks r)) d)
                              | None => None
                              end
  | _, _ => None
  end.
Fixpoint takes (es : list entry) (r : run) (evs : list (nat * event)) : option run :=
  match evs with [] => Some r | ev :: evs => match take es r ev with Some r => takes es r evs | None => None end end.
(** The program ends when all tasks have been joined and the writes that were handed over are done (the runtime waits for them). *)
Definition ended (t : task) : bool := match t with Ended _ => true | _ => false end.
Definition over (r : run) : bool := forallb ended (tasks r).
(** rust/tombi-cli/src/app/command/format.rs:248-266 *)
Definition outcome_of (t : task) : option outcome := match t with Ended o => Some o | Flushing _ _ => Some Success | _ => None end.
Definition outcome_eqb (a b : outcome) : bool :=
  match a, b with Success, Success | NotNeeded, NotNeeded | WasSkipped, WasSkipped | Failure, Failure => true | _, _ => false end.
Definition count (o : outcome) (r : run) : nat :=
  length (filter (fun t => match outcome_of t with Some o' => outcome_eqb o o' | None => false end) (tasks r)).
(** rust/tombi-cli/src/app/command/format.rs:97-101 *)
Definition exit_code (r : run) : N := if Nat.ltb 0 (count Failure r) then 1 else 0.

(** * Standard input *)
(** rust/tombi-cli/src/app/command/format.rs:145-174, :283-330: what is written to standard output, and how the input is counted.
    [None] for the output: the formatter panicked.  [p] stands for the name given with --stdin-filename. *)
Definition stdin_run (p : path) (source : bytes) : option (bytes * outcome) :=
  if disabled p then Some ([], NotNeeded)
  else match format p source with
       | NotUtf8 => Some ([], Failure)
       | Formatted f =>
           let has_diff := negb (bytes_eqb source f) in
           if check then Some ([], if has_diff then Failure else NotNeeded) else Some (f, if has_diff then Success else NotNeeded)
       | Diagnostics => Some (source, Failure)
       | FormatterPanics => None
       end.
End Cli.

(** * Linting *)
(** crates/tombi-diagnostic/src/level.rs *)
Inductive level := Warning | Error.
(** What the linter says about the text of a file: [None] when there is no text *)
Section Lint.
Context (inode : path -> option ino) (readable : ino -> bool) (disabled : path -> bool) (lint : path -> bytes -> option (list level)).
Context (error_on_warnings : bool).
(** rust/tombi-cli/src/app/command/lint.rs:247-296.  The files are only read, so that the order of the tasks does not matter. *)
Definition lint_text (p : path) (source : bytes) : outcome :=
  match lint p source with
  | None => Failure
  | Some [] => Success
  | Some ds => if if error_on_warnings then match ds with [] => true | _ => false end else forallb (fun l => match l with Warning => true | Error => false end) ds
               then Success else Failure
  end.
(** rust/tombi-cli/src/app/command/lint.rs:164-216 *)
Definition lint_entry (d : disk) (e : entry) : outcome :=
  match e with
  | Found p => if disabled p then Success
               else match inode p with None => Failure | Some i => if readable i then lint_text p (d i) else Failure end
  | Skipped _ => WasSkipped
  | NotFound _ => Failure
  end.
(** rust/tombi-cli/src/app/command/lint.rs:84-88 *)
Definition lint_exit_code (es : list entry) (d : disk) : N :=
  if Nat.ltb 0 (length (filter (fun o => outcome_eqb o Failure) (map (lint_entry d) es))) then 1 else 0.
End Lint.
