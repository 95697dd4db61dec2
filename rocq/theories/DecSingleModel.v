(** Model of decimal::cast<float>() of Awl/Decimal.h (C92). *)
From Coq Require Import QArith.
From Verif Require Import Common DecimalModel FloatModel DecFloatModel.
Local Open Scope Z_scope.

Definition fs (x : Q) : Q := rnd binary32 x.
(** Decimal.h:92-96 with Float = float: the mantissa is converted to float, the quotient of a float
    and a double is a double, and that is converted to float.  There is no overflow: mantissas have
    less than 128 bits. *)
Definition to_float (c : cfg) (d : dec) : Q := fs (fl (fs (inject_Z (mantissa d)) / denom_double c (ex d)))%Q.
(** A float that is an argument of the functions of DecFloatModel.v is converted to double, which
    does not change its value. *)
