(** IEEE 754 arithmetic to nearest even, which float and double of C++ are on every platform of
    the library (std::numeric_limits<>::is_iec559).

    A finite number is its value.  The result of an operation is the exact one rounded to the
    format.  Overflow to infinity and signed zeros are not modelled: the numbers have no upper
    bound here, which matters only for values beyond 2^1023; NaN does not occur. *)
From Coq Require Import QArith Qreduction.
From Verif Require Import Common.
Local Open Scope Z_scope.

(** Digits of the significand, exponent of the least number *)
Record format := { prec : Z; emin : Z }.
Definition binary64 : format := {| prec := 53; emin := -1074 |}.
Definition binary32 : format := {| prec := 24; emin := -149 |}.

(** The integer nearest to n / d, the even one of two *)
Definition rne (n d : Z) : Z :=
  let q := n / d in let r := n mod d in
  if 2 * r <? d then q else if d <? 2 * r then q + 1 else if Z.even q then q else q + 1.
(** The exponent k with 2^k <= n / d < 2^(k+1) *)
Definition ilog2 (n d : Z) : Z :=
  let k := Z.log2 n - Z.log2 d in
  if n * 2 ^ Z.max 0 (- k) <? d * 2 ^ Z.max 0 k then k - 1 else k.
Definition scaled (m e : Z) : Q := if 0 <=? e then inject_Z (m * 2 ^ e) else m # Z.to_pos (2 ^ (- e)).
Definition rnd (f : format) (x : Q) : Q :=
  let (n, d) := Qred x in
  if n =? 0 then 0%Q else
  let e := Z.max (emin f) (ilog2 (Z.abs n) (Zpos d) - (prec f - 1)) in
  scaled (rne (n * 2 ^ Z.max 0 (- e)) (Zpos d * 2 ^ Z.max 0 e)) e.

(** The functions of <cmath> and the conversion to an integer, with exact results *)
Definition qfloor (x : Q) : Z := Qnum x / Zpos (Qden x).
Definition qceil (x : Q) : Z := - (- Qnum x / Zpos (Qden x)).
Definition qtrunc (x : Q) : Z := Z.quot (Qnum x) (Zpos (Qden x)).
(** std::llround: halves away from zero *)
Definition qround (x : Q) : Z := Z.sgn (Qnum x) * ((2 * Z.abs (Qnum x) + Zpos (Qden x)) / (2 * Zpos (Qden x))).
