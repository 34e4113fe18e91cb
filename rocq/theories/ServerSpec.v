(** What an editor expects of the document store: the editor's own copy of the
    document as a function of the messages it sent. *)

From Coq Require Import List NArith ZArith Bool.
From Verif Require Import Base ServerModel.
Import ListNotations.
Open Scope N_scope.
Open Scope list_scope.

(** The messages received in a schedule, in order. *)
Fixpoint received (es : list event) : list msg :=
  match es with
  | [] => []
  | ERecv m :: es' => m :: received es'
  | ERun _ _ :: es' => received es'
  end.

(** The editor's copy: version and text after the messages [h]. *)
Fixpoint editor (d : option (Z * list N)) (h : list msg) : option (Z * list N) :=
  match h with
  | [] => d
  | MOpen v t :: h' => editor (Some (v, t)) h'
  | MChange v cs :: h' =>
      editor (match d with
              | Some (_, t) => Some (v, last (map c_text cs) t)
              | None => None
              end) h'
  | MClose :: h' => editor None h'
  | _ :: h' => editor d h'
  end.

(** A change as an editor sends it to a server that asked for whole documents
    (initialize.rs:107-110): at least one new text and no ranges. *)
Definition whole_document (cs : list content_change) : Prop :=
  cs <> [] /\ Forall (fun c => c_ranged c = false) cs.

(** Messages that do not edit: formatting, saving (the server asked for no text
    with it, initialize.rs:111), the file on disk being read, diagnostics. *)
Definition quiet (m : msg) : Prop :=
  match m with
  | MFormat | MSave None | MDisk _ | MDiagnostic _ => True
  | _ => False
  end.

(** Messages while a document is open. *)
Definition editing (m : msg) : Prop :=
  match m with
  | MChange _ cs => whole_document cs
  | _ => quiet m
  end.

(** Versions grow with every change. *)
Fixpoint growing (v : Z) (h : list msg) : Prop :=
  match h with
  | [] => True
  | MChange v' _ :: h' => (v < v')%Z /\ growing v' h'
  | _ :: h' => growing v h'
  end.

(** The texts sent, with their versions. *)
Fixpoint sent (h : list msg) : list (Z * list N) :=
  match h with
  | [] => []
  | MOpen v t :: h' => (v, t) :: sent h'
  | MChange v cs :: h' => (v, last (map c_text cs) []) :: sent h'
  | _ :: h' => sent h'
  end.

(** A text obtained from another by formatting it, any number of times. *)
Inductive formatted_from (fmt : N -> list N -> option (list N)) (t : list N) : list N -> Prop :=
| ff_refl : formatted_from fmt t t
| ff_step : forall tv t1 t2,
    formatted_from fmt t t1 -> fmt tv t1 = Some t2 -> formatted_from fmt t t2.

(** A handler that has an opened text still to store. *)
Definition opening (t : task) : bool :=
  match t with TOpen _ _ | TOpenInsert _ _ _ => true | _ => false end.

(** All handlers have finished. *)
Definition idle (c : config) : Prop := g_tasks c = [].

(** What the protocol lets an editor send: open a closed document, change an
    open one with growing versions, close an open one.  Anything may be sent
    at any time, without waiting for earlier handlers. *)
Fixpoint protocol (d : option Z) (h : list msg) : Prop :=
  match h with
  | [] => True
  | MOpen v _ :: h' => d = None /\ protocol (Some v) h'
  | MChange v cs :: h' =>
      match d with
      | Some v0 => (v0 < v)%Z /\ whole_document cs /\ protocol (Some v) h'
      | None => False
      end
  | MClose :: h' => d <> None /\ protocol None h'
  | MSave (Some _) :: _ => False
  | _ :: h' => protocol d h'
  end.

(** The document the server holds is the editor's, up to formatting. *)
Definition agrees (fmt : N -> list N -> option (list N)) (c : config) (v : Z) (t : list N) : Prop :=
  exists s, w_doc (g_world c) = Some s /\ s_version s = Some v /\ formatted_from fmt t (s_text s).

(** Convergence, in full: once the handlers of everything the editor sent have
    finished, the server holds the editor's document. *)
Definition converges (fmt : N -> list N -> option (list N)) (target : bool) (es : list event) : Prop :=
  protocol None (received es) -> idle (exec fmt (init target) es) ->
  forall v t, editor None (received es) = Some (v, t) ->
  agrees fmt (exec fmt (init target) es) v t.
