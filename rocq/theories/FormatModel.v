(** * String formats of a schema: crates/tombi-validator/src/validate/format/ *)
From Coq Require Import String Ascii List NArith Bool Arith.
From Verif Require Import Base.
Import ListNotations.
Open Scope N_scope.
Open Scope list_scope.

Definition is_ascii (s : str) : bool := forallb (fun c => c <? 128) s.
(** the standard library's [str::parse::<u32>] on at most nine bytes (no overflow): an optional [+], then digits *)
Fixpoint parse_digits (acc : N) (s : str) : option N :=
  match s with
  | [] => Some acc
  | c :: s => if is_ascii_digit c then parse_digits (acc * 10 + (c - 48)) s else None
  end.
Definition parse_u32 (s : str) : option N :=
  match s with
  | [] => None
  | c :: r => if N.eqb c 43 then match r with [] => None | _ => parse_digits 0 r end else parse_digits 0 s
  end.
(** [&value[a..b]] of an ASCII text *)
Definition slice (a b : nat) (s : str) : str := firstn (b - a) (skipn a s).
Definition at_is (i : nat) (c : char) (s : str) : bool := match nth_error s i with Some x => N.eqb x c | None => false end.

(** format/date.rs:1-40 *)
Definition format_date (value : str) : bool :=
  if negb (N.eqb (len_bytes value) 10) || negb (is_ascii value) then false
  else if negb (at_is 4 45 value) || negb (at_is 7 45 value) then false
  else match parse_u32 (slice 0 4 value), parse_u32 (slice 5 7 value), parse_u32 (slice 8 10 value) with
       | Some year, Some month, Some day =>
           if negb ((1 <=? month) && (month <=? 12)) then false
           else
             let max_day :=
               if existsb (N.eqb month) [1; 3; 5; 7; 8; 10; 12] then 31
               else if existsb (N.eqb month) [4; 6; 9; 11] then 30
               else if N.eqb (year mod 4) 0 && (negb (N.eqb (year mod 100) 0) || N.eqb (year mod 400) 0) then 29 else 28 in
             (1 <=? day) && (day <=? max_day)
       | _, _, _ => false
       end.
(** format/time.rs:14-53 [parse_time_components] *)
Definition parse_time_components (value : str) : option str :=
  if (len_bytes value <? 8) || negb (is_ascii value) then None
  else if negb (at_is 2 58 value) || negb (at_is 5 58 value) then None
  else match parse_u32 (slice 0 2 value), parse_u32 (slice 3 5 value), parse_u32 (slice 6 8 value) with
       | Some hour, Some minute, Some second =>
           if (23 <? hour) || (59 <? minute) || (60 <? second) then None
           else match skipn 8 value with
                | c :: stripped =>
                    if N.eqb c 46 then match take_while is_ascii_digit stripped with [] => None | _ => Some (drop_while is_ascii_digit stripped) end
                    else Some (c :: stripped)
                | [] => Some []
                end
       | _, _, _ => None
       end.
(** format/time.rs:56-70 [validate_timezone] *)
Definition validate_timezone (rest : str) : bool :=
  if negb (is_ascii rest) then false
  else if str_eqb rest [90] || str_eqb rest [122] then true
  else match rest with
       | c :: tz =>
           (N.eqb c 43 || N.eqb c 45) && N.eqb (len_bytes rest) 6
           && at_is 2 58 tz
           && match parse_u32 (slice 0 2 tz) with Some h => h <=? 23 | None => false end
           && match parse_u32 (slice 3 5 tz) with Some m => m <=? 59 | None => false end
       | [] => false
       end.
(** format/time.rs:1-9 *)
Definition format_time (value : str) : bool := match parse_time_components value with Some rest => validate_timezone rest | None => false end.
(** format/local_time.rs:1-9 *)
Definition format_local_time (value : str) : bool := match parse_time_components value with Some rest => match rest with [] => true | _ => false end | None => false end.
(** format/date_time.rs:6-17, format/local_date_time.rs:1-12: the separator is an ASCII byte, so it is the first such character *)
Definition not_sep (c : char) : bool := negb (N.eqb c 84 || N.eqb c 116 || N.eqb c 32).
Definition split_date_time (time : str -> bool) (value : str) : bool :=
  match drop_while not_sep value with
  | [] => false
  | _ :: time_part => format_date (take_while not_sep value) && time time_part
  end.
Definition format_date_time (value : str) : bool := split_date_time format_time value.
Definition format_local_date_time (value : str) : bool := split_date_time format_local_time value.

(** format/json_pointer.rs:1-24 *)
Fixpoint pointer_loop (s : str) : bool :=
  match s with
  | [] => true
  | c :: s =>
      if N.eqb c 126 then match s with d :: s => (N.eqb d 48 || N.eqb d 49) && pointer_loop s | [] => false end
      else pointer_loop s
  end.
Definition format_json_pointer (value : str) : bool := match value with [] => true | c :: s => N.eqb c 47 && pointer_loop s end.

(** format/uri_reference.rs:35-56 [validate_uri_component] *)
Definition is_hex (c : char) : bool := in_range 48 57 c || in_range 65 70 c || in_range 97 102 c.
Definition is_alnum (c : char) : bool := in_range 48 57 c || in_range 65 90 c || in_range 97 122 c.
Definition uri_punctuation : str := lit "-._~:@!$&'()*+,;=/".
Fixpoint uri_component (s : str) : bool :=
  match s with
  | [] => true
  | c :: s =>
      if N.eqb c 37 then match s with h1 :: h2 :: s => is_hex h1 && is_hex h2 && uri_component s | _ => false end
      else (is_alnum c || existsb (N.eqb c) uri_punctuation) && uri_component s
  end.
(** [str::split_once] *)
Definition split_once (sep : char) (s : str) : str * option str :=
  match drop_while (fun c => negb (N.eqb c sep)) s with
  | [] => (s, None)
  | _ :: after => (take_while (fun c => negb (N.eqb c sep)) s, Some after)
  end.
(** format/uri_reference.rs:10-33 [is_relative_reference] *)
Definition is_relative_reference (value : str) : bool :=
  match value with
  | [] => true
  | _ =>
      let (without_fragment, fragment) := split_once 35 value in
      let (path, query) := split_once 63 without_fragment in
      uri_component path && match query with Some q => uri_component q | None => true end && match fragment with Some f => uri_component f | None => true end
  end.
(** format/uri_reference.rs:3-8; [uri] is the [url] crate's parser *)
Definition format_uri_reference (uri : str -> bool) (value : str) : bool := uri value || is_relative_reference value.
