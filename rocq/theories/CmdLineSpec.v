(** Specification of the command line and of the texts of attribute values. *)
From Coq Require Import Sorted.
From Verif Require Import Common CmdLineModel.
Local Open Scope Z_scope.

(** ** Command lines *)
Definition letter (c : Z) : Prop := 65 <= c <= 90 \/ 97 <= c <= 122.
Definition decimal (c : Z) : Prop := 48 <= c <= 57.
(** What may be the name of an option: a letter, and one or more letters, digits and _. *)
Definition long_name (n : text) : Prop :=
  match n with c :: r => letter c /\ r <> [] /\ Forall (fun x => letter x \/ decimal x \/ x = 95) r | [] => False end.
(** -- and a name *)
Definition dashed (n : text) : text := 45 :: 45 :: n.
Definition options := list (text * option text).
(** The arguments that a user types for some options. *)
Definition typed (o : options) : list text := flat_map (fun p => dashed (fst p) :: match snd p with Some v => [v] | None => [] end) o.
(** No option is given twice, and no value looks like an option. *)
Definition clear_options (o : options) : Prop :=
  NoDup (map fst o) /\ Forall (fun p => long_name (fst p) /\ forall v n, snd p = Some v -> long_name n -> v <> dashed n) o.
(** The value of an option; a flag has an empty one. *)
Definition given (o : options) (n s : text) : Prop := In (n, Some s) o \/ (s = [] /\ In (n, None) o).

(** ** Values of attributes *)
Definition white (c : Z) : Prop := c = 32 \/ 9 <= c <= 13.
Definition within (k : scalar) (z : Z) : Prop :=
  match k with
  | FBool => z = 0 \/ z = 1
  | FInt => - 2 ^ 31 <= z < 2 ^ 31
  | FUInt => 0 <= z < 2 ^ 32
  | FLong => - 2 ^ 63 <= z < 2 ^ 63
  | FULong => 0 <= z < 2 ^ 64
  end.
Definition elem_within (e : elem) (a : atom) : Prop :=
  match e, a with
  | EBool, Num z => z = 0 \/ z = 1
  | ESigned b, Num z => 1 <= b <= 64 /\ - 2 ^ (b - 1) <= z < 2 ^ (b - 1)
  | EUnsigned b, Num z => 1 <= b <= 64 /\ 0 <= z < 2 ^ b
  | EChar, Num _ => True
  | EText, Txt _ => True
  | _, _ => False
  end.
Definition less (a b : atom) : Prop := atom_ltb a b = true.
(** The values of a type. *)
Definition value_of (t : attr) (v : aval) : Prop :=
  match t, v with
  | AScalar k, One (Num z) => within k z
  | AText, One (Txt _) => True
  | AVector e, Many l => Forall (elem_within e) l
  | ASet e, Many l => Forall (elem_within e) l /\ StronglySorted less l
  | _, _ => False
  end.
(** Those that can be passed: flags are true, unsigned int is not larger than int,
    characters are not white, strings in collections are neither empty nor contain white
    characters. *)
Definition elem_plain (a : atom) (e : elem) : Prop :=
  match e, a with
  | EChar, Num c => ~ white c
  | EText, Txt s => s <> [] /\ Forall (fun c => ~ white c) s
  | _, _ => True
  end.
Definition plain (t : attr) (v : aval) : Prop :=
  match t, v with
  | AScalar FBool, One (Num z) => z = 1
  | AScalar FUInt, One (Num z) => z < 2 ^ 31
  | (AVector e | ASet e), Many l => Forall (fun a => elem_plain a e) l
  | _, _ => True
  end.
