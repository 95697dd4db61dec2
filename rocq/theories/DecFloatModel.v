(** Model of the functions of Awl/Decimal.h that use double (C70, C71).

    Arguments and results of type double are finite (see FloatModel.v); float arguments are
    converted to double without a change.  cast<float>() is in DecSingleModel.v; long double is not modelled. *)
From Coq Require Import QArith.
From Verif Require Import Common DecimalModel FloatModel.
Local Open Scope Z_scope.

Definition fl (x : Q) : Q := rnd binary64 x.
(** static_cast of a floating point number to an integer type *)
Definition to_integer (bits : nat) (z : Z) : res Z := guard ((- 2 ^ Z.of_nat (bits - 1) <=? z) && (z <? 2 ^ Z.of_nat (bits - 1))) (Ok z).
(** static_cast between signed integer types: modulo since C++20 *)
Definition wrap (bits : nat) (z : Z) : Z := (z + 2 ^ Z.of_nat (bits - 1)) mod 2 ^ Z.of_nat bits - 2 ^ Z.of_nat (bits - 1).

(** static_cast<double>(denominator()), Decimal.h:164-167 *)
Definition denom_double (c : cfg) (e : nat) : Q := fl (inject_Z (denom c e)).
(** cast<double>() and operator double(), cast<I>() of a signed integer, Decimal.h:92-96, 101-104 *)
Definition to_double (c : cfg) (d : dec) : Q := fl (fl (inject_Z (mantissa d)) / denom_double c (ex d))%Q.
Definition cast_integer (bits : nat) (c : cfg) (d : dec) : res Z :=
  to_integer bits (qtrunc (fl (fl (inject_Z (wrap bits (mantissa d))) / denom_double c (ex d))))%Q.
(** operator = (Float), Decimal.h:172-179; the integers *)
Definition assign (c : cfg) (d : dec) (val : Q) : res dec :=
  let* m := to_integer (W c) (qtrunc (fl (val * denom_double c (ex d))))%Q in set_mantissa c d m.
Definition assign_integer (c : cfg) (d : dec) (val : Z) : res dec := assign c d (fl (inject_Z val)).
(** make_decimal, make_truncated, Decimal.h:392-400, 453-457 *)
Definition make_truncated (c : cfg) (val : Q) (digits : nat) : res dec := assign c (blank c digits) val.
(** make_rounded, Decimal.h:402-410; llround of a number beyond long long is unspecified *)
Definition make_rounded (c : cfg) (val : Q) (digits : nat) : res dec :=
  let d := blank c digits in let* m := to_integer 64 (qround (fl (val * denom_double c (ex d))))%Q in set_mantissa c d (wrap (W c) m).
(** make_ceiled, make_floored, Decimal.h:418-427, 435-444 *)
Definition make_ceiled (c : cfg) (val : Q) (digits : nat) : res dec :=
  let d := blank c digits in let* m := to_integer (W c) (qceil (fl (val * denom_double c (ex d))))%Q in set_mantissa c d m.
Definition make_floored (c : cfg) (val : Q) (digits : nat) : res dec :=
  let d := blank c digits in let* m := to_integer (W c) (qfloor (fl (val * denom_double c (ex d))))%Q in set_mantissa c d m.
(** make_other, Decimal.h:624-632 *)
Definition make_other (c : cfg) (d : dec) (val : Q) : res dec := assign c (blank c (ex d)) val.
(** operators + - with a double, Decimal.h:262-284 *)
Definition add_double (c : cfg) (d : dec) (val : Q) : res dec := let* o := make_other c d val in add c d o.
Definition sub_double (c : cfg) (d : dec) (val : Q) : res dec := let* o := make_other c d val in sub c d o.
(** operators * / with a double, Decimal.h:286-312; division by zero gives infinity or NaN *)
Definition times (c : cfg) (d : dec) (a : Q) : Q := fl (a * to_double c d)%Q.
Definition divided (c : cfg) (d : dec) (a : Q) : Q := fl (to_double c d / a)%Q.
Definition times_assign (c : cfg) (d : dec) (a : Q) : res dec := make_other c d (times c d a).
Definition divide_assign (c : cfg) (d : dec) (a : Q) : res dec := guard (negb (Qeq_bool a 0)) (make_other c d (divided c d a)).
