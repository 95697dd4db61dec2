(** Model of Awl/Int2Array.h for the integer types of [w] bytes, signed or not.
    Arithmetic is done in a type at least as wide as T (integral promotion) and is
    reduced to T on assignment; shifts of signed values are those of C++20. *)
From Verif Require Import Common.
Local Open Scope Z_scope.

Definition range (sg : bool) (w : nat) (v : Z) : Prop :=
  if sg then - 2 ^ (8 * Z.of_nat w - 1) <= v < 2 ^ (8 * Z.of_nat w - 1) else 0 <= v < 2 ^ (8 * Z.of_nat w).
(** Conversion to T *)
Definition wrap (sg : bool) (w : nat) (v : Z) : Z :=
  let m := 2 ^ (8 * Z.of_nat w) in
  if sg then (v + m / 2) mod m - m / 2 else v mod m.

(** Int2Array.h:14-26: result[i - 1] = static_cast<uint8_t>(value >> ((sizeof(T) - i) * 8)) *)
Definition to_array (w : nat) (v : Z) : list Z :=
  map (fun i => Z.shiftr v (Z.of_nat (w - i) * 8) mod 256) (seq 1 w).
(** Int2Array.h:28-39 *)
Definition from_array (sg : bool) (w : nat) (a : list Z) : Z :=
  fold_left (fun val byte => wrap sg w (Z.shiftl val 8 + byte)) a 0.
