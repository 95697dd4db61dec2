(** Model of the adapters of boost::multiprecision (C72, C73):
    Extras/Boost/BoostExtras/MultiprecisionDecimalData.h and Io/Rw/MultiprecisionReadWrite.h.

    The numbers are fixed size unchecked cpp_ints: an unsigned one of [w] bits is a number modulo
    2^w, a signed one is a sign and a magnitude of [w] bits. *)
From Verif Require Import Common DecimalModel.
Local Open Scope Z_scope.

(** ** MultiprecisionDecimalData<UInt, exp_len> *)
(** ~ << - of UInt *)
Definition unot (c : cfg) (z : Z) : Z := Z.lnot z mod p2 (W c).
Definition ushl (c : cfg) (z : Z) (n : nat) : Z := Z.shiftl z (Z.of_nat n) mod p2 (W c).
(** MultiprecisionDecimalData.h:86-90 *)
Definition sign_mask : Z := 1.
Definition exp_mask (c : cfg) : Z := ushl c (ushl c 1 (X c) - 1) 1.
Definition man_mask (c : cfg) : Z := Z.land (p2 (W c) - 1) (unot c (Z.lor (exp_mask c) sign_mask)).
(** MultiprecisionDecimalData.h:41-49 *)
Definition mp_positive (c : cfg) (v : Z) : bool := Z.land v sign_mask =? 0.
Definition mp_set_positive (c : cfg) (v : Z) (pos : bool) : Z := Z.lor (Z.land v (unot c sign_mask)) (if pos then 0 else 1).
(** MultiprecisionDecimalData.h:51-59; the argument is a uint8_t *)
Definition mp_exp (c : cfg) (v : Z) : Z := Z.shiftr (Z.land v (exp_mask c)) 1 mod 256.
Definition mp_set_exp (c : cfg) (v : Z) (e : Z) : Z := Z.lor (Z.land v (unot c (exp_mask c))) (ushl c e 1).
(** MultiprecisionDecimalData.h:61-69 *)
Definition mp_man (c : cfg) (v : Z) : Z := Z.shiftr v (Z.of_nat (X c + 1)).
Definition mp_set_man (c : cfg) (v : Z) (m : Z) : Z := Z.lor (Z.land v (unot c (man_mask c))) (ushl c m (X c + 1)).
(** MultiprecisionDecimalData.h:32-39; m_val is zero before the setters *)
Definition mp_make (c : cfg) (pos : bool) (e m : Z) : Z := mp_set_man c (mp_set_exp c (mp_set_positive c 0 pos) e) m.
(** DecimalConstants.h:18, 25: man_len with its type uint8_t; type_size is one too *)
Definition mp_man_len (c : cfg) : Z := (Z.of_nat (W c / 8) mod 256 * 8 - (Z.of_nat (X c) + 1)) mod 256.

(** The interface that decimal uses, DecimalData.h:56-104 and MultiprecisionDecimalData.h:41-82 *)
Inductive op := SetPositive (pos : bool) | SetExp (e : Z) | SetMan (m : Z) | FromBits (r : Z).
Definition mp_step (c : cfg) (v : Z) (o : op) : Z :=
  match o with
  | SetPositive pos => mp_set_positive c v pos
  | SetExp e => mp_set_exp c v e
  | SetMan m => mp_set_man c v m
  | FromBits r => r
  end.
(** The same of BuiltinDecimalData *)
Definition data_step (c : cfg) (d : dec) (o : op) : dec :=
  match o with
  | SetPositive pos => {| neg := negb pos; ex := ex d; man := man d |}
  | SetExp e => set_exp c d (Z.to_nat e)
  | SetMan m => set_man c d m
  | FromBits r => from_bits c r
  end.

(** ** MultiprecisionReadWrite.h *)
Record num_type := { is_signed : bool; width : nat }.
(** boost::multiprecision::export_bits(val, out, 8): the magnitude, the most significant byte first *)
Fixpoint be (n : nat) (m : Z) : list Z := match n with O => [] | S n' => be n' (m / 256) ++ [m mod 256] end.
Definition byte_count (m : Z) : nat := if m =? 0 then 1 else Z.to_nat (Z.log2 m / 8 + 1).
Definition export_bits (z : Z) : list Z := be (byte_count (Z.abs z)) (Z.abs z).
(** import_bits(val, begin, end): bytes that do not fit are dropped, no bytes are zero *)
Definition import_bits (t : num_type) (l : list Z) : Z := fold_left (fun a b => a * 256 + b) l 0 mod 2 ^ Z.of_nat (width t).
(** val.backend().negate() *)
Definition negate_num (t : num_type) (v : Z) : Z := if is_signed t then - v else (- v) mod 2 ^ Z.of_nat (width t).
(** Write, MultiprecisionReadWrite.h:47-74 *)
Definition mp_write (z : Z) : res (list Z) :=
  let v := export_bits z in
  if (127 <? length v)%nat then Throw Corruption else
  Ok ((Z.of_nat (length v) + (if z <? 0 then 128 else 0)) :: v).
(** Read, MultiprecisionReadWrite.h:22-45 *)
Definition mp_read (t : num_type) (s : list Z) : res (Z * list Z) :=
  match s with
  | [] => Throw EndOfFile
  | size :: r =>
    let n := Z.to_nat (size mod 128) in
    if (length r <? n)%nat then Throw EndOfFile else
    let val := import_bits t (firstn n r) in
    Ok (if 128 <=? size then negate_num t val else val, skipn n r)
  end.
