(** Model of the iterators of awl::ring, Awl/Ring.h:33-170 and 375-389 (C83).

    An iterator is the number of its ring and m_pos, a size_t of 64 bits. *)
From Verif Require Import Common RingModel.
Local Open Scope Z_scope.

Definition size_wrap (z : Z) : Z := z mod 2 ^ 64.
(** static_cast<difference_type>, :158-161; ptrdiff_t has 64 bits *)
Definition to_diff (z : Z) : Z := let u := z mod 2 ^ 64 in if u <? 2 ^ 63 then u else u - 2 ^ 64.

Record iter := { ring_of : nat; pos : Z }.
(** :375-381 *)
Definition it_begin (i : nat) : iter := {| ring_of := i; pos := 0 |}.
Definition it_end (i : nat) (r : rv) : iter := {| ring_of := i; pos := Z.of_nat (size r) |}.
(** :143-151 *)
Definition it_next (x : iter) : iter := {| ring_of := ring_of x; pos := size_wrap (pos x + 1) |}.
Definition it_prev (x : iter) : iter := {| ring_of := ring_of x; pos := size_wrap (pos x - 1) |}.
(** :88-110: the difference is converted to size_t *)
Definition it_add (x : iter) (d : Z) : iter := {| ring_of := ring_of x; pos := size_wrap (pos x + size_wrap d) |}.
Definition it_sub (x : iter) (d : Z) : iter := it_add x (- d).
(** :112-130: the rings are not compared *)
Definition it_diff (x y : iter) : res Z :=
  let d := to_diff (pos x) - to_diff (pos y) in guard ((- 2 ^ 63 <=? d) && (d <? 2 ^ 63)) (Ok d).
Definition it_eq (x y : iter) : bool := pos x =? pos y.
Definition it_ne (x y : iter) : bool := negb (it_eq x y).
Definition it_lt (x y : iter) : bool := pos x <? pos y.

Section Deref.
Context {T : Type}.
(** :52-54 *)
Definition it_deref (m : memory T) (r : rv) (x : iter) : res T := load m (buf r) (address r (Z.to_nat (pos x))).
(** std::reverse_iterator (:383-389): the element before the base *)
Definition it_rderef (m : memory T) (r : rv) (x : iter) : res T := it_deref m r (it_prev x).
End Deref.

(** Programs with iterators in variables over one ring that does not change *)
Inductive iop :=
| IBegin (x : nat) | IEnd (x : nat) | INext (x : nat) | IPrev (x : nat)
| IAdd (x y : nat) (d : Z)      (* x = y + d *)
| ISub (x y : nat) (d : Z)      (* x = y - d *)
| IAddTo (x : nat) (d : Z)      (* x += d *)
| ISubFrom (x : nat) (d : Z)    (* x -= d *)
| IDiff (x y : nat) | IEq (x y : nat) | INe (x y : nat) | ILess (x y : nat)
| IDeref (x : nat) | IRDeref (x : nat).
Inductive iobs (T : Type) := JUnit | JInt (z : Z) | JBool (b : bool) | JElt (v : T).
Arguments JUnit {T}. Arguments JInt {T}. Arguments JBool {T}. Arguments JElt {T}.

Section Run.
Context {T : Type} (m : memory T) (i : nat) (r : rv).
Notation vars := (nat -> iter).
Definition istep (e : vars) (o : iop) : res (vars * iobs T) :=
  match o with
  | IBegin x => Ok (upd e x (it_begin i), JUnit)
  | IEnd x => Ok (upd e x (it_end i r), JUnit)
  | INext x => Ok (upd e x (it_next (e x)), JUnit)
  | IPrev x => Ok (upd e x (it_prev (e x)), JUnit)
  | IAdd x y d => Ok (upd e x (it_add (e y) d), JUnit)
  | ISub x y d => Ok (upd e x (it_sub (e y) d), JUnit)
  | IAddTo x d => Ok (upd e x (it_add (e x) d), JUnit)
  | ISubFrom x d => Ok (upd e x (it_sub (e x) d), JUnit)
  | IDiff x y => let* d := it_diff (e x) (e y) in Ok (e, JInt d)
  | IEq x y => Ok (e, JBool (it_eq (e x) (e y)))
  | INe x y => Ok (e, JBool (it_ne (e x) (e y)))
  | ILess x y => Ok (e, JBool (it_lt (e x) (e y)))
  | IDeref x => let* v := it_deref m r (e x) in Ok (e, JElt v)
  | IRDeref x => let* v := it_rderef m r (e x) in Ok (e, JElt v)
  end.
Fixpoint irun (e : vars) (os : list iop) : res (list (iobs T)) :=
  match os with
  | [] => Ok []
  | o :: os => let* (e1, v) := istep e o in let* vs := irun e1 os in Ok (v :: vs)
  end.
End Run.
