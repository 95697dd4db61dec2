(** Model of bitmap, Awl/BitMap.h.  std::bitset<N> is a list of N bits.  An enumerator is
    its value in the underlying type; the standard operations on std::bitset are taken
    from the standard: set and test throw out_of_range, operator[] does not check. *)
From Verif Require Import Common.
Local Open Scope Z_scope.

(** BitMap.h:178-181; converted to std::size_t, a negative value is out of range too *)
Definition in_bits (N : nat) (e : Z) : bool := (0 <=? e) && (e <? Z.of_nat N).
(** std::bitset::set(pos, b), test(pos) *)
Definition bs_set (bits : list bool) (e : Z) (b : bool) : res (list bool) :=
  if in_bits (length bits) e then Ok (set_nth bits (Z.to_nat e) b) else Throw OutOfRange.
Definition bs_test (bits : list bool) (e : Z) : res bool :=
  if in_bits (length bits) e then Ok (nth (Z.to_nat e) bits false) else Throw OutOfRange.
Definition bs_zip (f : bool -> bool -> bool) (a b : list bool) : list bool := map (fun p => f (fst p) (snd p)) (combine a b).
(** BitMap.h:183-188 *)
Definition enum2bits (N : nat) (e : Z) : res (list bool) := bs_set (repeat false N) e true.
(** MakeLong, BitMap.h:190-200; shifting by 64 or more, or by a negative number, is undefined *)
Fixpoint make_long (es : list Z) (val : Z) : res Z :=
  match es with
  | [] => Ok val
  | e :: r => if (0 <=? e) && (e <? 64) then make_long r (Z.lor val (Z.shiftl 1 e)) else UB
  end.
(** std::bitset(unsigned long long): the low bits *)
Definition of_long (N : nat) (v : Z) : list bool := map (fun i => (i <? 64)%nat && Z.testbit v (Z.of_nat i)) (seq 0 N).

(** ** Programs over bitmap variables *)
Inductive bitop := BOr | BAnd | BXor.
Definition bool_op (o : bitop) : bool -> bool -> bool := match o with BOr => orb | BAnd => andb | BXor => xorb end.
Inductive bop :=
| Init (d : nat) (es : list Z)               (* :31-39 *)
| OpEnum (d s : nat) (o : bitop) (e : Z)     (* :41-60; with d = s also :69-85 *)
| OpMap (d a b : nat) (o : bitop)            (* :87-106; with d = a also :108-124 *)
| Flip (d s : nat)                           (* :62-67 *)
| SetBit (d : nat) (e : Z) (b : bool)        (* :137-142 *)
| RefSet (d : nat) (e : Z) (b : bool)        (* :149-152, assignment to the reference *)
| Test (s : nat) (e : Z)                     (* :126-129 *)
| Index (s : nat) (e : Z)                    (* :144-147 *)
| Any (s : nat) | All (s : nat) | None_ (s : nat)   (* :131-135, operator bool :174 *)
| Count (s : nat)                            (* :154-157; at most N, which is of the same type *)
| Size (s : nat)                             (* :159-162 *)
| Equal (a b : nat).                         (* :164-172 *)
Inductive bobs := ODone | OBool (b : bool) | ONum (n : nat) | OThrow.
Notation bstate := (nat -> list bool).

Section Model.
Context (N : nat).
Definition assign (st : bstate) (d : nat) (r : res (list bool)) : res (bstate * bobs) :=
  match r with Ok bits => Ok (upd st d bits, ODone) | Throw OutOfRange => Ok (st, OThrow) | Throw x => Throw x | UB => UB end.
Definition answer (st : bstate) (r : res bool) : res (bstate * bobs) :=
  match r with Ok b => Ok (st, OBool b) | Throw OutOfRange => Ok (st, OThrow) | Throw x => Throw x | UB => UB end.
Definition unchecked {A} (e : Z) (r : res A) : res A := if in_bits N e then r else UB.
(** An exception is caught by the program, which goes on. *)
Definition bstep (st : bstate) (o : bop) : res (bstate * bobs) :=
  match o with
  | Init d es => assign st d (let* v := make_long es 0 in Ok (of_long N v))
  | OpEnum d s o e => assign st d (let* x := enum2bits N e in Ok (bs_zip (bool_op o) (st s) x))
  | OpMap d a b o => assign st d (Ok (bs_zip (bool_op o) (st a) (st b)))
  | Flip d s => assign st d (Ok (map negb (st s)))
  | SetBit d e b => assign st d (bs_set (st d) e b)
  | RefSet d e b => assign st d (unchecked e (bs_set (st d) e b))
  | Test s e => answer st (bs_test (st s) e)
  | Index s e => answer st (unchecked e (bs_test (st s) e))
  | Any s => Ok (st, OBool (existsb (fun b => b) (st s)))
  | All s => Ok (st, OBool (forallb (fun b => b) (st s)))
  | None_ s => Ok (st, OBool (negb (existsb (fun b => b) (st s))))
  | Count s => Ok (st, ONum (count_occ Bool.bool_dec (st s) true))
  | Size s => Ok (st, ONum (length (st s)))
  | Equal a b => Ok (st, OBool (if list_eq_dec Bool.bool_dec (st a) (st b) then true else false))
  end.
Fixpoint brun (st : bstate) (os : list bop) : res (list bobs) :=
  match os with [] => Ok [] | o :: r => let* (st1, v) := bstep st o in let* vs := brun st1 r in Ok (v :: vs) end.
Definition binit : bstate := fun _ => repeat false N.
End Model.
