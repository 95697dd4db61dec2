(** Model of Awl/StopWatch.h (C75), Awl/RangeUtil.h (C76), Awl/Math.h (C77), the operators of
    Awl/Tuplizable.h (C78) and Awl/Hashable.h (C79). *)
From Verif Require Import Common FloatModel.
From Coq Require Import QArith.
Local Open Scope Z_scope.

(** ** StopWatch: times and durations of steady_clock are 64 bit integer counts of its ticks *)
Definition in_int64 (z : Z) : bool := (- 2 ^ 63 <=? z) && (z <? 2 ^ 63).
(** A duration type with an integer count; its unit is [num]/[den] of a tick of steady_clock, in
    lowest terms.  Types with a floating point count are not modelled. *)
Record unit_type := { num : positive; den : positive }.
(** duration_cast<steady_clock::duration>(interval): intmax_t arithmetic, truncated *)
Definition to_ticks (u : unit_type) (count : Z) : res Z :=
  guard (in_int64 (count * Zpos (num u))) (Ok (Z.quot (count * Zpos (num u)) (Zpos (den u)))).
(** duration_cast<ToDuration>(elapsed) *)
Definition from_ticks (u : unit_type) (ticks : Z) : res Z :=
  guard (in_int64 (ticks * Zpos (den u))) (Ok (Z.quot (ticks * Zpos (den u)) (Zpos (num u)))).
(** StopWatch.h:50-53 *)
Definition get_elapsed_time (start now : Z) : res Z := guard (in_int64 (now - start)) (Ok (now - start)).
(** StopWatch.h:33-37 *)
Definition get_elapsed_cast (u : unit_type) (start now : Z) : res Z := let* t := get_elapsed_time start now in from_ticks u t.
(** StopWatch.h:55-59 *)
Definition has_elapsed (u : unit_type) (start now count : Z) : res bool :=
  let* t := get_elapsed_time start now in let* i := to_ticks u count in Ok (i <=? t).

(** ** position_changed, RangeUtil.h:17-49: the range is a list, the iterator an index *)
Definition position_changed {A} (comp : A -> A -> bool) (r : list A) (i : nat) : res bool :=
  match nth_error r i with
  | None => UB
  | Some x =>
    let prev := match i with O => None | S j => nth_error r j end in
    let changed := match prev with Some y => negb (comp y x) | None => false end in
    if changed then Ok true else
    Ok (match nth_error r (S i) with Some y => negb (comp x y) | None => false end)
  end.

(** ** Math.h *)
(** round, Math.h:34-38; I has the numbers [lo] to [hi], F is the format [f], and the value is finite *)
Definition math_round (f : format) (lo hi : Z) (x : Q) : res Z :=
  let i := qtrunc (rnd f (x + (1 # 2))) in guard ((lo <=? i) && (i <=? hi)) (Ok i).
(** clamp, Math.h:42-57: the new value of v *)
Definition math_clamp {A} (less : A -> A -> bool) (v lo hi : A) : A := if less v lo then lo else if less hi v then hi else v.
(** sign, Math.h:65-69; of numbers that are not NaN *)
Definition math_sign (x : Q) : Z := (if Qlt_le_dec 0 x then 1 else 0) - (if Qlt_le_dec x 0 then 1 else 0).

(** ** The operators of AWL_MEMBERWISE_EQUATABLE_AND_COMPARABLE, Tuplizable.h:121-141
    An object is the list of its members.  A member type has == and <=>, None is unordered.  Members
    with < only are compared by synth-three-way, so they have such a <=> too. *)
Record member_type (V : Type) := { equal : V -> V -> bool; order : V -> V -> option comparison }.
Arguments equal {V}. Arguments order {V}.
(** == of tuples *)
Fixpoint tuple_eq {V} (ts : list (member_type V)) (a b : list V) : bool :=
  match ts, a, b with
  | t :: ts, x :: a, y :: b => equal t x y && tuple_eq ts a b
  | _, _, _ => true
  end.
(** <=> of tuples: of the first members that are not equivalent *)
Fixpoint tuple_order {V} (ts : list (member_type V)) (a b : list V) : option comparison :=
  match ts, a, b with
  | t :: ts, x :: a, y :: b => match order t x y with Some Eq => tuple_order ts a b | c => c end
  | _, _, _ => Some Eq
  end.
(** The operators, Tuplizable.h:121-137 *)
Definition op_eq {V} (ts : list (member_type V)) a b : bool := tuple_eq ts a b.
Definition op_ne {V} (ts : list (member_type V)) a b : bool := negb (tuple_eq ts a b).
Definition op_lt {V} (ts : list (member_type V)) a b : bool := match tuple_order ts a b with Some Lt => true | _ => false end.
Definition op_gt {V} (ts : list (member_type V)) a b : bool := match tuple_order ts a b with Some Gt => true | _ => false end.
Definition op_le {V} (ts : list (member_type V)) a b : bool := match tuple_order ts a b with Some Lt | Some Eq => true | _ => false end.
Definition op_ge {V} (ts : list (member_type V)) a b : bool := match tuple_order ts a b with Some Gt | Some Eq => true | _ => false end.

(** ** Hashable.h: size_t has 64 bits *)
Definition size64 (z : Z) : Z := z mod 2 ^ 64.
(** CombineHash, Hashable.h:14-18; [h] is std::hash of the value *)
Definition combine_hash (seed h : Z) : Z :=
  Z.lxor seed (size64 (h + 0x9e3779b9 + size64 (Z.shiftl seed 6) + Z.shiftr seed 2)).
(** GetTupleHash, Hashable.h:20-45: the members from the first to the last one *)
Fixpoint tuple_hash_from {V} (hs : list (V -> Z)) (seed : Z) (a : list V) : Z :=
  match hs, a with
  | h :: hs, x :: a => tuple_hash_from hs (combine_hash seed (h x)) a
  | _, _ => seed
  end.
Definition tuple_hash {V} (hs : list (V -> Z)) (a : list V) : Z := tuple_hash_from hs 0 a.
(** hash<vector<T>>, Hashable.h:50-66 *)
Definition vector_hash {V} (h : V -> Z) (a : list V) : Z := fold_left (fun seed x => combine_hash seed (h x)) a 0.
