(** Model of the search for the configuration file: rust/serde_tombi/src/config.rs:84-260.

    Simplifications:
    - a path is the list of its components below the root, and the search begins at an absolute path (the
      callers pass the current directory or a workspace folder);
    - the file system is an argument: whether a path is a file, and its text if it can be read; it does not
      change during the search;
    - reading a configuration from a text is an argument ([config.rs:16-31] and [:39-54]);
    - the environment is an argument: [XDG_CONFIG_HOME] and the home directory; the places of macOS and
      Windows are not modelled. *)
From Coq Require Import String Ascii List NArith Bool Arith Lia.
From Verif Require Import Base.
Import ListNotations.
Open Scope list_scope.

Notation place := (list (list N)) (only parsing).

Section Config.
  Context {config text : Type}.
  Context (is_file : place -> bool) (read : place -> option text).
  (** [from_str]: the configuration in a text; [pyproject]: that of [tool.tombi], if the text is read at all *)
  Context (from_str : text -> option config) (pyproject : text -> option (option config)).

  Inductive level := Project | User | System | Default.
  Inductive loaded :=
  | Loaded (c : config) (p : place) (l : level)
  | NoConfig
  (** [unreachable!] *)
  | Panics.

  (** config.rs:84-120 [try_from_path], by the name of the file: [None] is an error, [Some None] a
      [pyproject.toml] without [tool.tombi] *)
  Definition try_from_path (p : place) : option (option config) :=
    if is_file p then
      match read p with
      | None => None
      | Some t =>
          let name := last p [] in
          if str_eqb name (lit ".tombi.toml") || str_eqb name (lit "tombi.toml") || str_eqb name (lit "config.toml")
          then option_map Some (from_str t)
          else if str_eqb name (lit "pyproject.toml") then pyproject t
          else None
      end
    else None.

  (** config.rs:128-149: the three files of a directory; [None] when none is taken *)
  Fixpoint try_names (dir : place) (names : list place) : option loaded :=
    match names with
    | [] => None
    | n :: names =>
        let p := dir ++ n in
        if is_file p then
          match try_from_path p with
          | Some (Some c) => Some (Loaded c p Project)
          | Some None => Some Panics
          | None => try_names dir names
          end
        else try_names dir names
    end.
  Definition config_names : list place :=
    [[lit ".tombi.toml"]; [lit "tombi.toml"]; [lit ".config"; lit "tombi.toml"]].
  (** config.rs:127-170: one directory *)
  Definition try_directory (dir : place) : option loaded :=
    match try_names dir config_names with
    | Some r => Some r
    | None =>
        let p := dir ++ [lit "pyproject.toml"] in
        if is_file p then
          match try_from_path p with
          | Some (Some c) => Some (Loaded c p Project)
          | _ => None
          end
        else None
    end.
  (** config.rs:126-175: the directory, then its parents. [above] holds the components of the directory from
      the last to the first, so that [PathBuf::pop] is taking the first of them *)
  Fixpoint climb (above : place) : option loaded :=
    match try_directory (rev above) with
    | Some r => Some r
    | None => match above with [] => None | _ :: above => climb above end
    end.

  Context (xdg_config_home home_dir : option place).
  (** config.rs:208-260: the first of these files that exists *)
  Definition user_places : list (place * level) :=
    (match xdg_config_home with Some d => [(d ++ [lit "tombi"; lit "config.toml"], User)] | None => [] end) ++
    (match home_dir with Some d => [(d ++ [lit ".config"; lit "tombi"; lit "config.toml"], User)] | None => [] end) ++
    [([lit "etc"; lit "tombi"; lit "config.toml"], System)].
  Definition user_path : option (place * level) := find (fun e => is_file (fst e)) user_places.
  (** config.rs:122-192 [load_with_path_and_level] *)
  Definition load (search_dir : option place) : loaded :=
    match match search_dir with Some d => climb (rev d) | None => None end with
    | Some r => r
    | None =>
        match user_path with
        | Some (p, l) => match try_from_path p with Some (Some c) => Loaded c p l | _ => Panics end
        | None => NoConfig
        end
    end.
End Config.
