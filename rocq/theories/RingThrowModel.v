(** Model of awl::ring (Awl/Ring.h) when the constructor of an element throws (C80).

    Each function is the one of RingModel up to the constructor that throws; what is left by then
    is the result.  The exception leaves the ring function: there is no handler in Ring.h. *)
From Verif Require Import Common RingModel.

Section RingThrow.
Context {T : Type}.
(** Ring.h:301-309 and 291-299: allocate_next() and allocate_prev() run before the constructor *)
Definition push_back_throws (m : memory T) (r : rv) : res (memory T * rv) :=
  let* (m1, r1, _) := allocate_next m r in Ok (m1, r1).
Definition push_front_throws (m : memory T) (r : rv) : res (memory T * rv) :=
  let* (m1, r1, _) := allocate_prev m r in Ok (m1, r1).
(** Ring.h:562-574 copy, the copy of element [n] throws: the fields of the new ring *)
Definition copy_throws (m : memory T) (src : rv) (n : nat) : res (memory T * rv) :=
  let (m1, k) := allocate m (cap src) in
  let* (m2, r) := copy_loop m1 {| buf := Some k; cap := cap src; data := 0; size := 0 |} src (seq 0 n) in
  push_back_throws m2 r.
(** Ring.h:191-194: the object is not constructed, so its destructor does not run *)
Definition copy_ctor_throws (m : memory T) (src : rv) (n : nat) : res (memory T) :=
  let* (m1, _) := copy_throws m src n in Ok m1.
(** Ring.h:203-214: the left operand has the fields set by copy() *)
Definition assign_throws (m : memory T) (dst src : robj) (n : nat) : res (memory T * robj) :=
  match src with
  | Robj s =>
    let* m1 := ofree m dst in
    let* (m2, r) := copy_throws m1 s n in
    Ok (m2, Robj r)
  | Indet => UB
  end.
(** Ring.h:241-270 reserve, the move of the element [n] of those to be moved throws: the ring is
    not changed *)
Definition reserve_throws (m : memory T) (r : rv) (c n : nat) : res (memory T) :=
  guard (negb (c =? 0))
  (let (m1, nb) := allocate m c in
   reserve_loop m1 r nb (size r - Nat.min c (size r)) (seq 0 n)).
End RingThrow.
