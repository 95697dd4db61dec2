(** Model of the loops that pack bools, Awl/Io/Rw/VectorReadWrite.h:53-92, as they are executed: with a mask of type uint8_t, an
    index of the size_type of the container and assignments to its elements one by one.  The containers are std::vector<bool>,
    std::array<bool, N>, and std::bitset<N> and bitmap by way of the adapters (RwAdapters.h, BitMapReadWrite.h).

    The integer types and the conversions are those of CompKeyModel.v.  When the fuel of a loop is used up the result is [UB]: the
    theorems show that it is not. *)
From Verif Require Import Common CompareModel CompKeyModel CodecModel.
Local Open Scope Z_scope.

(** The largest value of a type *)
Definition imax (t : ity) : Z := if isg t then 2 ^ (Z.of_nat (ibits t) - 1) - 1 else 2 ^ Z.of_nat (ibits t) - 1.
(** ++i: types narrower than int are converted back, int and wider signed types overflow *)
Definition incr (t : ity) (i : Z) : res Z :=
  if isg t && negb (ibits t <? 32)%nat && (i =? imax t) then UB else Ok (icast t (i + 1)).

Section Pack.
(** size_type: std::size_t, or for a bitmap the underlying type of the enumeration, BitMap.h:27 *)
Variable t : ity.

(** size(), RwAdapters.h:32-35, 62-65; BitMap.h:159-162 *)
Definition size_of (x : list bool) : Z := icast t (Z.of_nat (length x)).
(** at(i), RwAdapters.h:37-45, 67-75: the index is converted to the enumeration, back (BitMap.h:178-181) and to std::size_t;
    operator[] of std::bitset does not check it *)
Definition index_of (x : list bool) (i : Z) : res nat :=
  let k := i mod 2 ^ 64 in if k <? Z.of_nat (length x) then Ok (Z.to_nat k) else UB.

(** VectorReadWrite.h:82-88 *)
Fixpoint pack_byte (fuel : nat) (x : list bool) (n mask i aggr : Z) : res (Z * Z) :=
  match fuel with
  | O => UB
  | S f =>
    if (0 <? mask) && (i <? n) then
      let* k := index_of x i in
      let* i' := incr t i in
      pack_byte f x n ((mask * 2) mod 256) i' (if nth k x false then Z.lor aggr mask else aggr)
    else Ok (aggr, i)
  end.
(** VectorReadWrite.h:74-92 *)
Fixpoint write_loop (fuel : nat) (x : list bool) (n i : Z) : res bytes :=
  match fuel with
  | O => UB
  | S f =>
    if i <? n then
      let* (aggr, i') := pack_byte 9 x n 1 i 0 in
      let* r := write_loop f x n i' in Ok (aggr :: r)
    else Ok []
  end.
Definition write_bools (fuel : nat) (x : list bool) : res bytes := write_loop fuel x (size_of x) 0.

(** VectorReadWrite.h:65-68 *)
Fixpoint unpack_byte (fuel : nat) (aggr : Z) (x : list bool) (n mask i : Z) : res (list bool * Z) :=
  match fuel with
  | O => UB
  | S f =>
    if (0 <? mask) && (i <? n) then
      let* k := index_of x i in
      let* i' := incr t i in
      unpack_byte f aggr (set_nth x k (negb (Z.land aggr mask =? 0))) n ((mask * 2) mod 256) i'
    else Ok (x, i)
  end.
(** VectorReadWrite.h:55-70: what is in the container afterwards, what is left of the stream, and whether EndOfFileException is thrown *)
Fixpoint read_loop (fuel : nat) (x : list bool) (n i : Z) (s : bytes) : res (list bool * bytes * bool) :=
  match fuel with
  | O => UB
  | S f =>
    if i <? n then
      match s with
      | [] => Ok (x, [], true)
      | aggr :: s' =>
        let* (x', i') := unpack_byte 9 aggr x n 1 i in
        read_loop f x' n i' s'
      end
    else Ok (x, s, false)
  end.
Definition read_bools (fuel : nat) (x : list bool) (s : bytes) : res (list bool * bytes * bool) := read_loop fuel x (size_of x) 0 s.
End Pack.
