(** * What a TOML document means (TOML v1.0.0 and v1.1.0, "Keys", "Table", "Inline Table", "Array of Tables")

    A document is read from top to bottom; every step either adds to what is there or is forbidden. *)
From Coq Require Import List NArith Bool.
From Verif Require Import Base DocTreeModel.
Import ListNotations.
Open Scope list_scope.

(** the data of a document *)
Inductive data := DScalar (x : str) | DArray (l : list data) | DTable (es : list (str * data)).

(** While reading, a name stands for: a value, which is closed (inline tables and arrays included); a table, with what created
    it; or an array of tables, whose last element can be extended. *)
Inductive origin :=
| Implicit   (* only named on the way to a table: [a] in [[a.b]] *)
| Defined    (* by a header [[a]], or as the element of an array of tables *)
| Dotted.    (* by dotted keys: [a] in [a.b = 1] *)
Inductive node := Leaf (d : data) | Dir (o : origin) (es : list (str * node)) | Elems (ts : list (list (str * node))).

Fixpoint assoc {A} (k : str) (es : list (str * A)) : option A :=
  match es with [] => None | (k', v) :: es => if str_eqb k k' then Some v else assoc k es end.
Fixpoint assoc_set {A} (k : str) (v : A) (es : list (str * A)) : list (str * A) :=
  match es with [] => [] | (k', v') :: es => if str_eqb k k' then (k', v) :: es else (k', v') :: assoc_set k v es end.

(** [keys = d] inside a table: the last key must be new; the keys before it create tables, or name tables created by dotted keys
    under the same header. *)
Fixpoint put (keys : list str) (d : data) (es : list (str * node)) : option (list (str * node)) :=
  match keys with
  | [] => None
  | [k] => match assoc k es with None => Some (es ++ [(k, Leaf d)]) | Some _ => None end
  | k :: keys =>
      match assoc k es with
      | None => option_map (fun sub => es ++ [(k, Dir Dotted sub)]) (put keys d [])
      | Some (Dir Dotted sub) => option_map (fun sub' => assoc_set k (Dir Dotted sub') es) (put keys d sub)
      | Some _ => None
      end
  end.
(** several of them; [None] is a value that is itself forbidden *)
Fixpoint put_all (kvs : list (list str * option data)) (es : list (str * node)) : option (list (str * node)) :=
  match kvs with
  | [] => Some es
  | (keys, Some d) :: kvs => match put keys d es with Some es' => put_all kvs es' | None => None end
  | (_, None) :: _ => None
  end.

(** the data a node stands for *)
Fixpoint meaning (n : node) : data :=
  match n with
  | Leaf d => d
  | Dir _ es => DTable (map (fun e => (fst e, meaning (snd e))) es)
  | Elems ts => DArray (map (fun es => DTable (map (fun e => (fst e, meaning (snd e))) es)) ts)
  end.
Definition table_meaning (es : list (str * node)) : data := meaning (Dir Defined es).

Fixpoint all_some {A} (l : list (option A)) : option (list A) :=
  match l with
  | [] => Some []
  | Some x :: l => option_map (cons x) (all_some l)
  | None :: _ => None
  end.
(** values: an inline table is filled like a table and then closed *)
Fixpoint eval (v : syn_value) : option data :=
  match v with
  | SynScalar x => Some (DScalar x)
  | SynArray vs => option_map DArray (all_some (map eval vs))
  | SynInline kvs => option_map table_meaning (put_all (map (fun kv => (fst kv, eval (snd kv))) kvs) [])
  end.
Definition eval_body (kvs : list (list str * syn_value)) : list (list str * option data) := map (fun kv => (fst kv, eval (snd kv))) kvs.

(** [[header]] or [[[header]]] with its key/values: the keys before the last name tables, which are created if new, or arrays of
    tables, which stand for their last element. *)
Fixpoint define (array : bool) (header : list str) (body : list (list str * option data)) (es : list (str * node)) : option (list (str * node)) :=
  match header with
  | [] => None
  | [k] =>
      if array then
        match assoc k es with
        | None => option_map (fun t => es ++ [(k, Elems [t])]) (put_all body [])
        | Some (Elems ts) => option_map (fun t => assoc_set k (Elems (ts ++ [t])) es) (put_all body [])
        | Some _ => None
        end
      else
        match assoc k es with
        | None => option_map (fun t => es ++ [(k, Dir Defined t)]) (put_all body [])
        | Some (Dir Implicit sub) => option_map (fun t => assoc_set k (Dir Defined t) es) (put_all body sub)
        | Some _ => None
        end
  | k :: header =>
      match assoc k es with
      | None => option_map (fun sub => es ++ [(k, Dir Implicit sub)]) (define array header body [])
      | Some (Dir o sub) => option_map (fun sub' => assoc_set k (Dir o sub') es) (define array header body sub)
      | Some (Elems ts) => option_map (fun t => assoc_set k (Elems (removelast ts ++ [t])) es) (define array header body (last ts []))
      | Some (Leaf _) => None
      end
  end.
Fixpoint define_all (l : list section) (es : list (str * node)) : option (list (str * node)) :=
  match l with
  | [] => Some es
  | s :: l => match define (s_array s) (s_header s) (eval_body (s_body s)) es with Some es' => define_all l es' | None => None end
  end.
(** the document: [None] if it is forbidden *)
Definition toml (d : document) : option data :=
  match put_all (eval_body (d_body d)) [] with
  | Some es => option_map table_meaning (define_all (d_sections d) es)
  | None => None
  end.
(** keys and headers are not empty, as the grammar demands *)
Inductive keyed_value : syn_value -> Prop :=
| kv_scalar x : keyed_value (SynScalar x)
| kv_array vs : (forall v, In v vs -> keyed_value v) -> keyed_value (SynArray vs)
| kv_inline kvs : (forall keys v, In (keys, v) kvs -> keys <> [] /\ keyed_value v) -> keyed_value (SynInline kvs).
Definition keyed_body (kvs : list (list str * syn_value)) : Prop := forall keys v, In (keys, v) kvs -> keys <> [] /\ keyed_value v.
Definition keyed_document (d : document) : Prop :=
  keyed_body (d_body d) /\ forall s, In s (d_sections d) -> s_header s <> [] /\ keyed_body (s_body s).

(** the data in tombi's tree *)
Fixpoint data_of (v : value) : data :=
  match v with
  | Scalar x => DScalar x
  | Tab _ es => DTable (map (fun e => (fst e, data_of (snd e))) es)
  | Arr _ vs => DArray (map data_of vs)
  end.

(** what a path of names leads to: arrays of tables stand for their last element *)
Fixpoint at_path (path : list str) (es : list (str * node)) : option node :=
  match path with
  | [] => None
  | [k] => assoc k es
  | k :: path =>
      match assoc k es with
      | Some (Dir _ sub) => at_path path sub
      | Some (Elems ts) => at_path path (last ts [])
      | _ => None
      end
  end.
(** the state after the document's own key/values and the sections [l] *)
Definition read (d : document) (l : list section) : option (list (str * node)) :=
  match put_all (eval_body (d_body d)) [] with Some es => define_all l es | None => None end.
(** all the scalars of a document, and of tombi's tree *)
Fixpoint syn_scalars (v : syn_value) : list str :=
  match v with
  | SynScalar x => [x]
  | SynArray vs => flat_map syn_scalars vs
  | SynInline kvs => flat_map (fun kv => syn_scalars (snd kv)) kvs
  end.
Definition body_scalars (kvs : list (list str * syn_value)) : list str := flat_map (fun kv => syn_scalars (snd kv)) kvs.
Definition doc_scalars (d : document) : list str := body_scalars (d_body d) ++ flat_map (fun s => body_scalars (s_body s)) (d_sections d).
Fixpoint scalars (v : value) : list str :=
  match v with
  | Scalar x => [x]
  | Tab _ es => flat_map (fun e => scalars (snd e)) es
  | Arr _ vs => flat_map scalars vs
  end.

(** What a header is told about the arrays of tables before it: [p] is named by an earlier header [[[p]]], and since then no header
    [[[..]]] with another first key came up. *)
Definition announced (earlier : list section) (s : section) (p : list str) : Prop :=
  exists l1 a l2, earlier = l1 ++ a :: l2 /\ s_array a = true /\ s_header a = p /\
  forall b, In b l2 -> s_array b = true -> hd_error (s_header b) = hd_error (s_header s).
