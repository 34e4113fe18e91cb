(** Model of the paths in the configuration and of the overrides for them:
    crates/tombi-accessor/src/pattern_accessor.rs, crates/tombi-schema-store/src/schema.rs:62-205,
    crates/tombi-schema-store/src/store.rs:1318-1391 and
    crates/tombi-schema-store/src/schema/schema_context.rs:90-330.

    Simplifications:
    - the overrides of deprecation, array order and table order are the same lists with different rules; the
      rule is a parameter;
    - a schema is known by its address without fragment, here a string. *)
From Coq Require Import String Ascii List NArith Bool Arith Lia.
From Verif Require Import Base TomlTextModel DateTimeModel PointerModel.
Import ListNotations.
Open Scope N_scope.
Open Scope list_scope.

(** crates/tombi-accessor/src/accessor.rs:5-9 *)
Inductive accessor := AccKey (k : str) | AccIndex (n : N).
(** pattern_accessor.rs:6-12 *)
Inductive pattern := PKey (k : str) | PAnyKey | PAnyIndex | PIndex (n : N).

(** * Reading a path *)
Inductive reading := Read (ps : list pattern) | Rejected | Crashed.

(** pattern_accessor.rs:84-90 *)
Definition key_or_wildcard (k : str) : pattern := if str_eqb k [42] then PAnyKey else PKey k.
(** pattern_accessor.rs:29-32, :54-57, :66-68: what has been collected becomes a key, unless there is nothing *)
Definition flush (cur : str) (acc : list pattern) : list pattern :=
  match cur with [] => acc | _ => acc ++ [key_or_wildcard cur] end.
(** pattern_accessor.rs:33-40: up to the next [']'], and what follows it *)
Fixpoint until_bracket (s : str) : option (str * str) :=
  match s with
  | [] => None
  | c :: s => if N.eqb c 93 then Some ([], s) else match until_bracket s with Some (i, r) => Some (c :: i, r) | None => None end
  end.
(** pattern_accessor.rs:41-47 *)
Definition read_index (i : str) : option pattern :=
  if str_eqb i [42] then Some PAnyIndex else option_map PIndex (parse_usize i).
(** pattern_accessor.rs:92-117: up to the closing quote, and what follows it *)
Fixpoint until_quote (quote : char) (escaped : bool) (s : str) : option (str * str) :=
  match s with
  | [] => None
  | c :: s =>
      let more escaped := match until_quote quote escaped s with Some (b, r) => Some (c :: b, r) | None => None end in
      if N.eqb quote 34 && N.eqb c 92 && negb escaped then more true
      else if N.eqb c quote && negb escaped then Some ([], s)
      else more false
  end.
(** pattern_accessor.rs:106-111 *)
Definition unquote (quote : char) (b : str) : decoded :=
  if N.eqb quote 34 then try_from_basic_string ([quote] ++ b ++ [quote]) V1_0_0 else try_from_literal_string ([quote] ++ b ++ [quote]).

(** pattern_accessor.rs:15-71: the loop; every round takes at least one character, [fuel] is their number *)
Fixpoint read_loop (fuel : nat) (cur : str) (acc : list pattern) (s : str) : reading :=
  match s with
  | [] => Read (flush cur acc)
  | c :: s =>
      match fuel with
      | O => Rejected
      | S fuel =>
          if N.eqb c 91 then
            match until_bracket s with
            | None => Rejected
            | Some (i, rest) =>
                match read_index i with
                | None => Rejected
                | Some p => read_loop fuel [] (flush cur acc ++ [p]) rest
                end
            end
          else if (N.eqb c 39 || N.eqb c 34) && match cur with [] => true | _ => false end then
            match until_quote c false s with
            | None => Rejected
            | Some (b, rest) =>
                match unquote c b with
                | DOk k => read_loop fuel cur (acc ++ [PKey k]) rest
                | DErr _ => Rejected
                | DPanic => Crashed
                end
            end
          else if N.eqb c 46 then read_loop fuel [] (flush cur acc) s
          else read_loop fuel (cur ++ [c]) acc s
      end
  end.
Definition parse (path : str) : reading :=
  match path with [] => Rejected | _ => read_loop (length path) [] [] path end.

(** * Writing a path *)
(** pattern_accessor.rs:150-159 *)
Definition show_part (p : pattern) : str :=
  match p with
  | PKey k => to_key_string k
  | PAnyKey => [42]
  | PAnyIndex => [91; 42; 93]
  | PIndex n => [91] ++ decimal n ++ [93]
  end.
(** pattern_accessor.rs:133-148 *)
Definition show_next (p : pattern) : str :=
  match p with PKey _ | PAnyKey => [46] ++ show_part p | _ => show_part p end.
Definition show (ps : list pattern) : str :=
  match ps with [] => [] | p :: ps => show_part p ++ flat_map show_next ps end.

(** * Which override is used *)
(** schema.rs:149-179: [pattern_match_score] *)
Fixpoint score_from (count : nat) (ps : list pattern) (path : list accessor) : option nat :=
  match ps, path with
  | p :: ps, a :: path =>
      match p, a with
      | PKey k, AccKey k' => if str_eqb k k' then score_from (S count) ps path else None
      | PAnyKey, AccKey _ => score_from count ps path
      | PAnyIndex, AccIndex _ => score_from count ps path
      | PIndex n, AccIndex m => if N.eqb n m then score_from (S count) ps path else None
      | _, _ => None
      end
  | _, _ => Some count
  end.
Definition score (ps : list pattern) (path : list accessor) : option nat :=
  if Nat.eqb (length ps) (length path) then score_from 0 ps path else None.

Section Overrides.
  Context {rule : Type}.
  (** schema.rs:62-66, :71-75 *)
  Definition override := (list pattern * rule)%type.
  (** schema.rs:181-205 [find_best_pattern_match] *)
  Definition find_best (items : list override) (path : list accessor) : option override :=
    fst (fold_left (fun best item =>
           match score (fst item) path with
           | None => best
           | Some s => match snd best with
                       | Some b => if (b <? s)%nat then (Some item, Some s) else best
                       | None => (Some item, Some s)
                       end
           end) items (None, None)).

  (** store.rs:1385-1391 *)
  Definition parse_target (t : str) : reading := match t with [] => Read [] | _ => parse t end.
  (** store.rs:1331-1335: targets that cannot be read are left out *)
  Fixpoint targets_of (ts : list str) : list (list pattern) :=
    match ts with
    | [] => []
    | t :: ts => match parse_target t with Read p => p :: targets_of ts | _ => targets_of ts end
    end.
  (** store.rs:1318-1383: one item of the configuration has targets and perhaps a rule of the kind in question *)
  Definition config_item := (list str * option rule)%type.
  Definition overrides_of (items : list config_item) : list override :=
    flat_map (fun it : config_item => match snd it with Some r => map (fun t => (t, r)) (targets_of (fst it)) | None => [] end) items.
  (** schema_context.rs:149-173 [array_order_override], [table_order_override]: the overrides of the schema at hand,
      then those of the root schema *)
  Definition override_for (all : str -> option (list override)) (current root : option str) (path : list accessor) : option override :=
    let of s := match s with Some u => match all u with Some os => find_best os path | None => None end | None => None end in
    match of current with Some o => Some o | None => of root end.
End Overrides.

(** * The order that is used *)
Section Order.
  Context {order : Type}.
  (** schema.rs:62-66 *)
  Record order_rule := Rule { disabled : bool; given : option order }.
  (** [schema_context.rs] [ResolvedFormatOrder]; the order of a schema may be more than one order for the whole table *)
  Inductive source_order (from_schema : Type) := All (o : order) | FromSchema (s : from_schema).
  Context {from_schema : Type}.
  Record resolved := Resolved { use : source_order from_schema; off : bool }.
  (** schema_context.rs:203-222, :253-272: without the comment directive *)
  Definition order_without_comment (o : option order_rule) (schema : option from_schema) (has_schema enabled : bool) : option resolved :=
    let plain := if has_schema then option_map (fun s => Resolved (FromSchema _ s) (negb enabled)) schema else None in
    match o with
    | Some r =>
        if disabled r then option_map (fun s => Resolved (FromSchema _ s) true) schema
        else match given r with Some x => Some (Resolved (All _ x) false) | None => plain end
    | None => plain
    end.
  (** schema_context.rs:179-229, :231-279 [table_keys_order], [array_values_order] *)
  Definition order_for (comment : option order_rule) (o : option order_rule) (schema : option from_schema) (has_schema enabled : bool) : option resolved :=
    match comment with
    | Some r =>
        if disabled r then option_map (fun x => Resolved (use x) true) (order_without_comment o schema has_schema enabled)
        else match given r with Some x => Some (Resolved (All _ x) false) | None => order_without_comment o schema has_schema enabled end
    | None => order_without_comment o schema has_schema enabled
    end.
End Order.
