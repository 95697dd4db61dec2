(** What a decimal and a numeral mean, independently of the algorithms. *)
From Verif Require Import Common DecimalModel.
From Coq Require Export QArith.
Local Open Scope Z_scope.

(** Instances whose table of denominators does not overflow the mantissa and
    whose mantissa leaves four bits of UInt free: decimal<uint64_t, 4>,
    decimal<uint64_t, 3>, decimal<__uint128_t, 3..5>. *)
Definition good (c : cfg) : Prop :=
  (3 <= X c <= 7)%nat /\ (X c + 5 <= W c)%nat /\ 10 ^ Z.of_nat (2 ^ X c - 1) < 2 ^ Z.of_nat (W c - (X c + 1)).

Definition d64 : cfg := {| W := 64; X := 4 |}.
Definition d128 : cfg := {| W := 128; X := 5 |}.

(** Every bit pattern is one of these. *)
Definition wf (c : cfg) (d : dec) : Prop := (ex d < 2 ^ X c)%nat /\ 0 <= man d < 2 ^ Z.of_nat (W c - (X c + 1)).

Definition ten (e : nat) : positive := Z.to_pos (10 ^ Z.of_nat e).
Definition signed (d : dec) : Z := if neg d then - man d else man d.
Definition value (d : dec) : Q := signed d # ten (ex d).

(** One unit of the n-th digit after the point. *)
Definition unit_of (n : nat) : Q := 1 # ten n.

(** Numerals: an optional sign, digits, optionally a point and digits. *)
Definition is_digit (x : Z) : bool := (48 <=? x) && (x <=? 57).
Fixpoint num (a : Z) (l : list Z) : Z := match l with [] => a | x :: l' => num (10 * a + (x - 48)) l' end.
Fixpoint split_point (t : text) : text * text :=
  match t with
  | [] => ([], [])
  | x :: t' => if x =? 46 then ([], t') else let (i, f) := split_point t' in (x :: i, f)
  end.
(** sign, digits of the integer part, digits of the fraction *)
Definition numeral (t : text) : option (bool * text * text) :=
  let (s, body) := match t with
                   | [] => (false, t)
                   | x :: b => if x =? 45 then (true, b) else if x =? 43 then (false, b) else (false, t)
                   end in
  let (i, f) := split_point body in
  if forallb is_digit i && forallb is_digit f then Some (s, i, f) else None.
(** without trailing zeros *)
Fixpoint strip (l : text) : text :=
  match l with
  | [] => []
  | x :: l' => match strip l' with [] => if x =? 48 then [] else [x] | r => x :: r end
  end.
(** the number a numeral denotes *)
Definition number (s : bool) (i f : text) : Q :=
  (if s then - num 0 (i ++ f) else num 0 (i ++ f)) # ten (length f).
