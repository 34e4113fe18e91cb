(** Model of crates/tombi-date-time (printing and parsing), of the conversion of date-time tokens in
    crates/tombi-document-tree/src/support/chrono.rs and of the date-time formatting of the formatter. *)
From Coq Require Import String Ascii List NArith ZArith Bool.
From Verif Require Import Base SyntaxKind TextModel LexerModel LexerSpec TomlTextModel.
Import ListNotations.
Open Scope N_scope.
Open Scope list_scope.

(** crates/tombi-date-time/src/private/date.rs:2-9 *)
Record date := MkDate { year : N; month : N; day : N }.
(** crates/tombi-date-time/src/private/time.rs:2-11 *)
Record time := MkTime { hour : N; minute : N; second : N; nanosecond : N }.
(** crates/tombi-date-time/src/offset.rs:2-15 *)
Inductive offset := OffZ | OffCustom (minutes : Z).
(** crates/tombi-date-time/src/private/date_time.rs:2-14 *)
Record datetime := MkDateTime { dt_date : option date; dt_time : option time; dt_offset : option offset }.

(** crates/tombi-date-time/src/error.rs:4-73 *)
Inductive dt_error :=
| TooShort | TooLong | ExpectedOffsetDateTime | ExpectedLocalDateTime | ExpectedLocalDate | ExpectedLocalTime
| ExpectedDateOrTimeFormat | ExpectedYearFormat | ExpectedTimeFormat | ExpectedNanoseconds
| ExpectedTimeZoneOffsetSign | ExpectedTimeZoneOffsetColon | InvalidMonth | InvalidDay (max_days : N)
| InvalidHour | InvalidMinute | InvalidSecond | InvalidNanoseconds
| InvalidTimeZoneOffsetHour | InvalidTimeZoneOffsetMinute | InvalidTimeZoneOffset | InvalidFormat.
Inductive dt_result (A : Type) := DTOk (a : A) | DTErr (e : dt_error).
Arguments DTOk {A} a. Arguments DTErr {A} e.
Definition bind {A B} (r : dt_result A) (f : A -> dt_result B) : dt_result B :=
  match r with DTOk a => f a | DTErr e => DTErr e end.

(** crates/tombi-date-time/src/private/date_time.rs:344-349; the iterator is the remaining text *)
Definition digit (chars : str) : dt_result (N * str) :=
  match chars with
  | c :: s => if is_ascii_digit c then DTOk (c - 48, s) else DTErr InvalidFormat
  | [] => DTErr InvalidFormat
  end.
(** two calls of [digit] combined as [d1 * 10 + d2] *)
Definition two_digits (chars : str) : dt_result (N * str) :=
  bind (digit chars) (fun '(d1, s) => bind (digit s) (fun '(d2, s) => DTOk (d1 * 10 + d2, s))).
(** [match chars.next() { Some(c) => {} _ => return Err(e) }] *)
Definition expect (c : char) (e : dt_error) (chars : str) : dt_result str :=
  match chars with x :: s => if N.eqb x c then DTOk s else DTErr e | [] => DTErr e end.

(** crates/tombi-date-time/src/private/date_time.rs:122-129 *)
Definition is_leap_year (y : N) : bool :=
  N.eqb (y mod 4) 0 && (negb (N.eqb (y mod 100) 0) || N.eqb (y mod 400) 0).
Definition max_days_in_month (y m : N) : N :=
  if N.eqb m 2 then (if is_leap_year y then 29 else 28)
  else if N.eqb m 4 || N.eqb m 6 || N.eqb m 9 || N.eqb m 11 then 30
  else 31.

(** crates/tombi-date-time/src/private/date_time.rs:92-136 *)
Definition parse_date (chars : str) : dt_result (date * str) :=
  bind (digit chars) (fun '(y1, s) => bind (digit s) (fun '(y2, s) =>
  bind (digit s) (fun '(y3, s) => bind (digit s) (fun '(y4, s) =>
  bind (expect 45 ExpectedDateOrTimeFormat s) (fun s =>
  bind (two_digits s) (fun '(m, s) =>
  bind (expect 45 ExpectedYearFormat s) (fun s =>
  bind (two_digits s) (fun '(d, s) =>
  let y := y1 * 1000 + y2 * 100 + y3 * 10 + y4 in
  if (m <? 1) || (12 <? m) then DTErr InvalidMonth
  else if (d <? 1) || (max_days_in_month y m <? d) then DTErr (InvalidDay (max_days_in_month y m))
  else DTOk (MkDate y m d, s))))))))).

(** crates/tombi-date-time/src/private/date_time.rs:171-185: the digits from index [i] on; returns the sum,
    the number of digits and what is left *)
Fixpoint fraction (i : N) (s : str) : N * nat * str :=
  match s with
  | c :: s' =>
      if is_ascii_digit c then
        let '(n, len, r) := fraction (i + 1) s' in
        ((if i <? 9 then 10 ^ (8 - i) * (c - 48) else 0) + n, S len, r)
      else (0, O, s)
  | [] => (0, O, [])
  end.

(** crates/tombi-date-time/src/private/date_time.rs:151-218 *)
Definition parse_seconds (chars : str) : dt_result (N * N * str) :=
  match chars with
  | c :: s =>
      if N.eqb c 58 then
        bind (two_digits s) (fun '(sec, s) =>
        match s with
        | p :: whole =>
            if N.eqb p 46 then
              match fraction 0 whole with
              | (_, O, _) => DTErr ExpectedNanoseconds
              | (n, _, r) => DTOk (sec, n, r)
              end
            else DTOk (sec, 0, s)
        | [] => DTOk (sec, 0, s)
        end)
      else DTOk (0, 0, chars)
  | [] => DTOk (0, 0, chars)
  end.
Definition parse_time (chars : str) : dt_result (time * str) :=
  bind (two_digits chars) (fun '(h, s) =>
  bind (expect 58 ExpectedTimeFormat s) (fun s =>
  bind (two_digits s) (fun '(m, s) =>
  bind (parse_seconds s) (fun '(sec, nano, s) =>
  if 24 <=? h then DTErr InvalidHour
  else if 60 <=? m then DTErr InvalidMinute
  else if 60 <? sec then DTErr InvalidSecond
  else if 999999999 <? nano then DTErr InvalidNanoseconds
  else DTOk (MkTime h m sec nano, s))))).

(** crates/tombi-date-time/src/private/date_time.rs:225-270 *)
Definition parse_offset (chars : str) : dt_result (option offset * str) :=
  match chars with
  | [] => DTOk (None, [])
  | c :: s =>
      if N.eqb c 90 || N.eqb c 122 then DTOk (Some OffZ, s)
      else if N.eqb c 43 || N.eqb c 45 then
        bind (two_digits s) (fun '(h, s) =>
        bind (expect 58 ExpectedTimeZoneOffsetColon s) (fun s =>
        bind (two_digits s) (fun '(m, s) =>
        if 24 <=? h then DTErr InvalidTimeZoneOffsetHour
        else if 60 <=? m then DTErr InvalidTimeZoneOffsetMinute
        else
          let total := ((if N.eqb c 43 then 1 else -1) * (Z.of_N h * 60 + Z.of_N m))%Z in
          if negb ((-24 * 60 <=? total) && (total <=? 24 * 60))%Z then DTErr InvalidTimeZoneOffset
          else DTOk (Some (OffCustom total), s))))
      else DTErr ExpectedTimeZoneOffsetSign
  end.

Definition is_dt_delim (c : char) : bool := N.eqb c 84 || N.eqb c 116 || N.eqb c 32.

(** crates/tombi-date-time/src/private/date_time.rs:74-283 *)
Definition parse_datetime (s : str) : dt_result datetime :=
  if len_bytes s <? 3 then DTErr TooShort
  else
    let finish (d : option date) (t : option time) (o : option offset) (chars : str) :=
      match chars with [] => DTOk (MkDateTime d t o) | _ => DTErr TooLong end in
    match nth_error s 2 with
    | Some 58 => bind (parse_time s) (fun '(t, s) => finish None (Some t) None s)
    | _ =>
        bind (parse_date s) (fun '(d, s) =>
        match s with
        | c :: s' =>
            if is_dt_delim c then
              bind (parse_time s') (fun '(t, s) => bind (parse_offset s) (fun '(o, s) => finish (Some d) (Some t) o s))
            else finish (Some d) None None s
        | [] => finish (Some d) None None s
        end)
    end.

(** crates/tombi-date-time/src/offset_date_time.rs:81-95 *)
Definition offset_date_time_from_str (s : str) : dt_result (date * time * offset) :=
  bind (parse_datetime s) (fun v => match v with
  | MkDateTime (Some d) (Some t) (Some o) => DTOk (d, t, o) | _ => DTErr ExpectedOffsetDateTime end).
(** crates/tombi-date-time/src/local_date_time.rs:97-111 *)
Definition local_date_time_from_str (s : str) : dt_result (date * time) :=
  bind (parse_datetime s) (fun v => match v with
  | MkDateTime (Some d) (Some t) None => DTOk (d, t) | _ => DTErr ExpectedLocalDateTime end).
(** crates/tombi-date-time/src/local_date.rs:27-41 *)
Definition local_date_from_str (s : str) : dt_result date :=
  bind (parse_datetime s) (fun v => match v with
  | MkDateTime (Some d) None None => DTOk d | _ => DTErr ExpectedLocalDate end).
(** crates/tombi-date-time/src/local_time.rs:58-72 *)
Definition local_time_from_str (s : str) : dt_result time :=
  bind (parse_datetime s) (fun v => match v with
  | MkDateTime None (Some t) None => DTOk t | _ => DTErr ExpectedLocalTime end).

(** * Printing *)
(** The decimal digits of [n]; [fuel] bounds their number *)
Fixpoint decimal_fuel (fuel : nat) (n : N) (acc : str) : str :=
  match fuel with
  | O => acc
  | S fuel => let acc := (48 + n mod 10) :: acc in if n <? 10 then acc else decimal_fuel fuel (n / 10) acc
  end.
Definition decimal (n : N) : str := decimal_fuel (S (N.to_nat (N.log2 n))) n [].
(** the format [{:0width}] of an unsigned number *)
Definition pad (width : nat) (n : N) : str := let s := decimal n in repeat 48 (width - length s) ++ s.

(** crates/tombi-date-time/src/private/date.rs:11-15 *)
Definition print_date (d : date) : str := pad 4 (year d) ++ [45] ++ pad 2 (month d) ++ [45] ++ pad 2 (day d).
(** [str::trim_end_matches('0')] *)
Fixpoint trim_zeros (s : str) : str :=
  match s with
  | [] => []
  | c :: s' => match trim_zeros s' with [] => if N.eqb c 48 then [] else [c] | t => c :: t end
  end.
(** crates/tombi-date-time/src/private/time.rs:13-22 *)
Definition print_time (t : time) : str :=
  pad 2 (hour t) ++ [58] ++ pad 2 (minute t) ++ [58] ++ pad 2 (second t) ++
  (if N.eqb (nanosecond t) 0 then [] else [46] ++ trim_zeros (pad 9 (nanosecond t))).
(** crates/tombi-date-time/src/offset.rs:17-33; the negation of the [i16] does not overflow on the values in range *)
Definition print_offset (o : offset) : str :=
  match o with
  | OffZ => [90]
  | OffCustom z =>
      let m := Z.abs_N z in
      [if (z <? 0)%Z then 45 else 43] ++ pad 2 (m / 60) ++ [58] ++ pad 2 (m mod 60)
  end.
(** crates/tombi-date-time/src/offset_date_time.rs:97-104, local_date_time.rs:113-121, local_date.rs:43-47, local_time.rs:74-78 *)
Definition print_offset_date_time (v : date * time * offset) : str :=
  let '(d, t, o) := v in print_date d ++ [84] ++ print_time t ++ print_offset o.
Definition print_local_date_time (v : date * time) : str := let '(d, t) := v in print_date d ++ [84] ++ print_time t.

(** * Conversion of tokens, crates/tombi-document-tree/src/support/chrono.rs *)
(** [OptionalSeconds] or an error of the date-time parser *)
Inductive token_error := OptionalSeconds | DateTimeError (e : dt_error).
Inductive token_result (A : Type) := TROk (a : A) | TRErr (e : token_error).
Arguments TROk {A} a. Arguments TRErr {A} e.
Definition lift {A} (r : dt_result A) : token_result A := match r with DTOk a => TROk a | DTErr e => TRErr (DateTimeError e) end.

(** crates/tombi-document-tree/src/support/chrono.rs:159-174; [i] is the byte index *)
Fixpoint datetime_str_loop (v : toml_version) (i : N) (s : str) : option str :=
  match s with
  | [] => Some []
  | c :: s' =>
      let rest := datetime_str_loop v (i + len_utf8 c) s' in
      if N.eqb i 10 && (N.eqb c 84 || N.eqb c 116) then option_map (cons 32) rest
      else if N.eqb i 16 && negb (N.eqb c 58) then
        if is_v1_0_0 v then None else option_map (fun r => lit ":00" ++ c :: r) rest
      else option_map (cons c) rest
  end.
(** crates/tombi-document-tree/src/support/chrono.rs:151-186; [None] is [Err(OptionalSeconds)] *)
Definition make_datetime_str (v : toml_version) (value : str) : option str :=
  match datetime_str_loop v 0 value with
  | None => None
  | Some s => if N.eqb (len_bytes s) 16 then (if is_v1_0_0 v then None else Some (s ++ lit ":00")) else Some s
  end.

(** crates/tombi-document-tree/src/support/chrono.rs:47-71 *)
Definition try_new_offset_date_time (v : toml_version) (text : str) : token_result (date * time * offset) :=
  match make_datetime_str v text with None => TRErr OptionalSeconds | Some s => lift (offset_date_time_from_str s) end.
(** crates/tombi-document-tree/src/support/chrono.rs:73-97 *)
Definition try_new_local_date_time (v : toml_version) (text : str) : token_result (date * time) :=
  match make_datetime_str v text with None => TRErr OptionalSeconds | Some s => lift (local_date_time_from_str s) end.
(** crates/tombi-document-tree/src/support/chrono.rs:99-116 *)
Definition try_new_local_date (v : toml_version) (text : str) : token_result date := lift (local_date_from_str text).
(** crates/tombi-document-tree/src/support/chrono.rs:118-148 *)
Definition try_new_local_time (v : toml_version) (text : str) : token_result time :=
  match nth_error text 5 with
  | Some 58 => lift (local_time_from_str text)
  | _ => if is_v1_0_0 v then TRErr OptionalSeconds else lift (local_time_from_str text)
  end.

(** * Formatting *)
(** crates/tombi-config/src/types/date_time_delimiter.rs:6 and crates/tombi-formatter/src/formatter/definitions.rs:118-125 *)
Inductive delimiter_option := DelimT | DelimSpace | DelimPreserve.
Definition delimiter_text (d : delimiter_option) : option str :=
  match d with DelimT => Some (lit "T") | DelimSpace => Some (lit " ") | DelimPreserve => None end.
(** crates/tombi-formatter/src/format/value/date_time.rs:23-27; [String::replace_range(10..11)] panics ([None])
    when an end is out of bounds or inside a character *)
Definition replace_range_10_11 (text by_ : str) : option str :=
  match slice text (MkSpan 0 10), slice text (MkSpan 10 11), drop_bytes 11 text with
  | Some a, Some _, Some b => Some (a ++ by_ ++ b)
  | _, _, _ => None
  end.
Definition format_date_time (d : delimiter_option) (text : str) : option str :=
  match delimiter_text d with Some t => replace_range_10_11 text t | None => Some text end.
