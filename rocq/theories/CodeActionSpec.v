(** What the rewriting actions are about: a key/value anywhere in a document, where it is, and what the document says. *)
From Coq Require Import String Ascii List NArith Bool Arith Lia.
From Verif Require Import Base TomlTextModel TomlStringGrammar CodeActionModel.
From Verif Require DocTreeModel DocTreeSpec.
Import ListNotations.
Open Scope list_scope.
Open Scope nat_scope.

(** ** A place for a key/value *)
(** in a value: in the value itself, or in an element of an array *)
Inductive vplace_in := VHere | VElement (open : str) (before : list (lval * str)) (w : vplace_in) (gap : str) (after : list (lval * str)).
(** among the key/values of the document, or among those of an inline table that is in the value of another key/value *)
Inductive place :=
| InDoc (lead : str) (before : list item) (gap : str) (after : list item)
| InTable (p : place) (ks : list (key * str)) (w : vplace_in) (open : str) (comments : bool) (before : list item) (gap : str) (after : list item).
Fixpoint vplug (w : vplace_in) (v : lval) : lval :=
  match w with VHere => v | VElement open b w gap a => LArray open (b ++ (vplug w v, gap) :: a) end.
Fixpoint plug (p : place) (kv : lkv) : doc :=
  match p with
  | InDoc lead b gap a => Doc lead (b ++ (kv, gap) :: a)
  | InTable p ks w open c b gap a => plug p (ks, vplug w (LInline open c (b ++ (kv, gap) :: a)))
  end.
(** the other key/values of the same table *)
Definition siblings (p : place) : list item := match p with InDoc _ b _ a | InTable _ _ _ _ _ b _ a => b ++ a end.
(** keys are not missing, as the grammar demands *)
Fixpoint keyed (p : place) : Prop :=
  (forall x, In x (siblings p) -> fst (fst x) <> []) /\
  match p with InDoc _ _ _ _ => True | InTable p ks _ _ _ _ _ _ => ks <> [] /\ keyed p end.
(** where it begins *)
Fixpoint voffset (w : vplace_in) : nat :=
  match w with VHere => 0 | VElement open b w _ _ => 1 + length open + length (flat_map (fun x => text (fst x) ++ snd x) b) + voffset w end.
Fixpoint offset (p : place) : nat :=
  match p with
  | InDoc lead b _ _ => length lead + length (items_text b)
  | InTable p ks w open _ b _ _ => offset p + length (keys_text ks) + voffset w + 1 + length open + length (items_text b)
  end.

(** ** The keys and indices that lead to the cursor, and their places
    (crates/tombi-lsp/src/completion.rs:869-944, crates/tombi-document-tree/src/lib.rs:135-184) *)
Definition vals (ks : list (key * str)) : list str := map (fun k => val (fst k)) ks.
Fixpoint vpath (w : vplace_in) : list accessor := match w with VHere => [] | VElement _ b w _ _ => AIndex (length b) :: vpath w end.
Fixpoint vcontexts (w : vplace_in) : list context := match w with VHere => [] | VElement _ _ w _ _ => CIndex :: vcontexts w end.
Fixpoint key_contexts (o : nat) (ks : list (key * str)) : list context :=
  match ks with
  | [] => []
  | (k, s) :: ks => CKey (match ks with [] => Last | _ => Dotted end) (o, o + length (raw k)) :: key_contexts (o + length (raw k) + length s) ks
  end.
Fixpoint path (p : place) : list accessor :=
  match p with InDoc _ _ _ _ => [] | InTable p ks w _ _ _ _ _ => path p ++ map AKey (vals ks) ++ vpath w end.
Fixpoint contexts (p : place) : list context :=
  match p with InDoc _ _ _ _ => [] | InTable p ks w _ _ _ _ _ => contexts p ++ key_contexts (offset p) ks ++ vcontexts w end.
(** the cursor is at the [n]-th of the keys [ks] of the key/value at [p] *)
Definition accessors_at (p : place) (ks : list (key * str)) (n : nat) : list accessor := path p ++ firstn n (map AKey (vals ks)).
Definition contexts_at (p : place) (ks : list (key * str)) (n : nat) : list context := contexts p ++ firstn n (key_contexts (offset p) ks).

(** ** What a document says: its syntax without blanks, and TOML's rules for it *)
Fixpoint syntax (v : lval) : DocTreeModel.syn_value :=
  match v with
  | LScalar w => DocTreeModel.SynScalar w
  | LArray _ vs => DocTreeModel.SynArray (map (fun x => syntax (fst x)) vs)
  | LInline _ _ items => DocTreeModel.SynInline (map (fun x => (vals (fst (fst x)), syntax (snd (fst x)))) items)
  end.
Definition kv_syntax (kv : lkv) : list str * DocTreeModel.syn_value := (vals (fst kv), syntax (snd kv)).
Definition says (d : doc) : option DocTreeSpec.data :=
  DocTreeSpec.toml {| DocTreeModel.d_body := map (fun x => kv_syntax (fst x)) (items d); DocTreeModel.d_sections := [] |}.
(** a key is written as TOML demands *)
Definition spelled (v : toml_version) (k : key) : Prop := simple_key (negb (is_v1_0_0 v)) (raw k) (val k).
(** one list of names begins with another *)
Definition begins (p l : list str) : Prop := exists q, l = p ++ q.
