(** Dates and times of TOML (RFC 3339): what is valid and what a text denotes, written independently of the parser. *)
From Coq Require Import String Ascii List NArith ZArith Bool.
From Verif Require Import Base TextModel TomlTextModel DateTimeModel NumberSpec.
Import ListNotations.
Open Scope N_scope.
Open Scope list_scope.

(** * Validity *)
Definition leap (y : N) : Prop := (y mod 4 = 0 /\ y mod 100 <> 0) \/ y mod 400 = 0.
(** [days_in y m n]: month [m] of year [y] has [n] days. *)
Inductive days_in (y : N) : N -> N -> Prop :=
| DI31 m : In m [1; 3; 5; 7; 8; 10; 12] -> days_in y m 31
| DI30 m : In m [4; 6; 9; 11] -> days_in y m 30
| DI29 : leap y -> days_in y 2 29
| DI28 : ~ leap y -> days_in y 2 28.
Definition valid_date (d : date) : Prop := year d <= 9999 /\ 1 <= day d /\ exists n, days_in (year d) (month d) n /\ day d <= n.
Definition valid_time (t : time) : Prop := hour t <= 23 /\ minute t <= 59 /\ second t <= 60 /\ nanosecond t <= 999999999.
(** Less than a day in either direction. *)
Definition valid_offset (o : offset) : Prop := match o with OffZ => True | OffCustom m => (-1440 < m < 1440)%Z end.

(** * Texts *)
(** [w] consists of exactly [n] decimal digits and denotes [v]. *)
Definition digits_are (n : nat) (v : N) (w : str) : Prop :=
  length w = n /\ Forall (fun c => 48 <= c <= 57) w /\ v = positional 10 w.
Definition date_text (w : str) (d : date) : Prop :=
  exists wy wm wd, w = wy ++ [45] ++ wm ++ [45] ++ wd /\
    digits_are 4 (year d) wy /\ digits_are 2 (month d) wm /\ digits_are 2 (day d) wd.
(** [hh:mm], [hh:mm:ss] or [hh:mm:ss.f]; a fraction is truncated to nanoseconds *)
Inductive seconds_text : bool -> str -> N -> N -> Prop :=
| ST_none : seconds_text false [] 0 0
| ST_whole ws s : digits_are 2 s ws -> seconds_text true ([58] ++ ws) s 0
| ST_fraction ws s wf f : digits_are 2 s ws -> wf <> [] -> digits_are (length wf) f wf ->
    seconds_text true ([58] ++ ws ++ [46] ++ wf) s (f * 1000000000 / 10 ^ N.of_nat (length wf)).
(** [with_seconds] tells whether the seconds are written. *)
Definition time_text (with_seconds : bool) (w : str) (t : time) : Prop :=
  exists wh wm ws, w = wh ++ [58] ++ wm ++ ws /\ digits_are 2 (hour t) wh /\ digits_are 2 (minute t) wm /\
    seconds_text with_seconds ws (second t) (nanosecond t).
Inductive offset_text : str -> offset -> Prop :=
| OT_upper : offset_text [90] OffZ
| OT_lower : offset_text [122] OffZ
| OT_plus wh wm h m : digits_are 2 h wh -> digits_are 2 m wm -> h <= 23 -> m <= 59 ->
    offset_text ([43] ++ wh ++ [58] ++ wm) (OffCustom (Z.of_N (h * 60 + m)))
| OT_minus wh wm h m : digits_are 2 h wh -> digits_are 2 m wm -> h <= 23 -> m <= 59 ->
    offset_text ([45] ++ wh ++ [58] ++ wm) (OffCustom (- Z.of_N (h * 60 + m))).
Definition delim (c : char) : Prop := c = 84 \/ c = 116 \/ c = 32.

(** The four kinds of TOML; [sec] tells whether the seconds are written. *)
Definition toml_local_date (w : str) (d : date) : Prop := date_text w d /\ valid_date d.
Definition toml_local_time (sec : bool) (w : str) (t : time) : Prop := time_text sec w t /\ valid_time t.
Definition toml_local_date_time (sec : bool) (w : str) (v : date * time) : Prop :=
  exists wd c wt, w = wd ++ [c] ++ wt /\ delim c /\ toml_local_date wd (fst v) /\ toml_local_time sec wt (snd v).
Definition toml_offset_date_time (sec : bool) (w : str) (v : date * time * offset) : Prop :=
  exists w1 wo, w = w1 ++ wo /\ toml_local_date_time sec w1 (fst v) /\ offset_text wo (snd v).
