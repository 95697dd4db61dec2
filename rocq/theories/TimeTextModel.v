(** Model of Awl/Time.h (C87) with std::chrono::system_clock in nanoseconds (libstdc++), int of 32
    and time_t of 64 bits.

    - std::mktime is the function of the library of C: it brings the months into 0..11 by whole
      years and counts the days, hours, minutes and seconds that follow, in the Gregorian calendar.
      The local time is at a fixed distance [off] seconds from UTC: there is no daylight saving time.
    - The branch of format_duration for other compilers than MSVC, GCC and clang (:59-104) is not
      modelled. *)
From Verif Require Import Common.
Local Open Scope Z_scope.

Definition int_ok (z : Z) : bool := (- 2 ^ 31 <=? z) && (z <? 2 ^ 31).
Definition i64_ok (z : Z) : bool := (- 2 ^ 63 <=? z) && (z <? 2 ^ 63).

(** The days before the year [y] and before the month [m] (from 0) in the year, since 1 January of year 0 *)
Definition leap (y : Z) : bool := (y mod 4 =? 0) && (negb (y mod 100 =? 0) || (y mod 400 =? 0)).
Definition days_before_year (y : Z) : Z := 365 * y + (y + 3) / 4 - (y + 99) / 100 + (y + 399) / 400.
Definition days_before_month (lp : bool) (m : Z) : Z :=
  nth (Z.to_nat m) [0; 31; 59; 90; 120; 151; 181; 212; 243; 273; 304; 334] 0 + (if lp && (2 <=? m) then 1 else 0).
Definition epoch_days : Z := 719528.   (* 1 January 1970 *)
Record tm := { tm_year : Z; tm_mon : Z; tm_mday : Z; tm_hour : Z; tm_min : Z; tm_sec : Z }.
(** mktime; -1 when the year of the result does not fit tm_year *)
Definition mktime (off : Z) (t : tm) : Z :=
  let y := tm_year t + 1900 + tm_mon t / 12 in
  let m := tm_mon t mod 12 in
  let days := days_before_year y + days_before_month (leap y) m + (tm_mday t - 1) - epoch_days in
  let s := days * 86400 + tm_hour t * 3600 + tm_min t * 60 + tm_sec t - off in
  let day := (s + off) / 86400 + epoch_days in
  if (days_before_year (- 2 ^ 31 + 1900) <=? day) && (day <? days_before_year (2 ^ 31 + 1900)) then s else -1.

(** Time.h:18-33 make_time: nanoseconds since the epoch *)
Definition make_time (off : Z) (year month day hour min second : Z) : res Z :=
  let* y := guard (int_ok (year - 1900)) (Ok (year - 1900)) in
  let t := mktime off {| tm_year := y; tm_mon := month; tm_mday := day; tm_hour := hour; tm_min := min; tm_sec := second |} in
  guard (i64_ok (t * 10 ^ 9)) (Ok (t * 10 ^ 9)).
(** :35-41 *)
Definition make_time_fs (off : Z) (year month day hour min second fs : Z) : res Z :=
  let* tp := make_time off year month day hour min second in
  guard (i64_ok (tp + fs)) (Ok (tp + fs)).

(** ** :45-57 format_duration with GCC and MSVC: std::chrono::hh_mm_ss and its operator << *)
Fixpoint rdigits (fuel : nat) (v : Z) : list Z :=      (* from the last *)
  match fuel with
  | O => []
  | S f => if v <? 10 then [v] else v mod 10 :: rdigits f (v / 10)
  end.
(** At least [w] decimal digits; a duration has at most 19 *)
Definition put (w : nat) (v : Z) : list Z :=
  let ds := rdigits 20 v in map (fun d => 48 + d) (rev (ds ++ repeat 0 (w - length ds))).
Definition format_duration (ns : Z) : res (list Z) :=
  let* a := guard (i64_ok (Z.abs ns)) (Ok (Z.abs ns)) in
  Ok ((if ns <? 0 then [45] else [])
      ++ put 2 (a / 10 ^ 9 / 3600) ++ [58] ++ put 2 (a / 10 ^ 9 / 60 mod 60) ++ [58]
      ++ put 2 (a / 10 ^ 9 mod 60) ++ [46] ++ put 9 (a mod 10 ^ 9)).
(** :106-113 with clang *)
Definition format_duration_clang (ns : Z) : list Z :=
  (if ns <? 0 then [45] else []) ++ put 1 (Z.abs ns) ++ [110; 115].
