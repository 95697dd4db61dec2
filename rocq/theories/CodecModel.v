(** Model of the serialization functions of Awl/Io/Rw/*.h over byte sequences.

    [ty] is the universe of supported types and [val] of their values.  A reader takes the
    object that is being read into, because the code does.  size_t has 8 bytes and memory
    is little-endian (reinterpret_cast in ArithmeticReadWrite.h:14-35).  Floating point
    numbers and decimals (DecimalReadWrite.h) are their bits, an atomic is its value
    (AtomicReadWrite.h), smart pointers are optionals (PointerReadWrite.h has the same text
    as OptionalReadWrite.h).  Unordered containers are in UnorderedModel. *)
From Verif Require Import Common Int2ArrayModel.
Local Open Scope Z_scope.

Notation bytes := (list Z).
Notation fname := (list Z).

Inductive ty :=
| TInt (sg : bool) (w : nat)                 (* arithmetic types *)
| TBool
| TEnum (sg : bool) (w : nat) (count : option Z)  (* with its EnumTraits, if any *)
| TStr (cw : nat)                            (* basic_string of characters of cw bytes *)
| TTime (k : Z)                              (* time_point whose Duration is k nanoseconds *)
| TOpt (t : ty)                              (* optional, shared_ptr, unique_ptr *)
| TArr (n : nat) (t : ty)                    (* array; bitset and bitmap with t = TBool *)
| TVec (t : ty)
| TDeque (cap : option nat) (t : ty)         (* deque, or a ring of the capacity *)
| TSet (c : nat) (t : ty)                    (* set, vector_set, observable_set; c names the comparator *)
| TMap (c : nat) (k v : ty)
| TVar (ts : list ty)
| TTuple (ts : list ty)                      (* tuplizable structure *)
| TStruct (sid : nat) (fs : list (fname * ty)).   (* reflectable structure *)

Inductive val :=
| VInt (z : Z) | VBool (b : bool) | VStr (l : list Z) | VNone | VSome (v : val)
| VList (l : list val) | VPair (k v : val) | VVar (i : nat) (v : val) | VTup (l : list val).

(** Comparators, default member initializers of the reflectable structures, what resize()
    can allocate (otherwise std::length_error or bad_alloc, both shown as LogicError), and
    the limit of a LimitedContext (SerializationContext.h:35-49). *)
Record env := {
  cmp : nat -> val -> val -> bool;
  init : nat -> list val;
  alloc_ok : Z -> bool;
  limit : option Z }.

(** ** Elementary parts *)
(** ArithmeticReadWrite.h:26-35 *)
Definition put_int (w : nat) (z : Z) : bytes := rev (to_array w z).
Definition put_size (n : nat) : bytes := put_int 8 (Z.of_nat n).
(** ReadRaw.h:19-31 *)
Definition get_raw (n : nat) (s : bytes) : res (bytes * bytes) :=
  if (length s <? n)%nat then Throw EndOfFile else Ok (firstn n s, skipn n s).
(** VectorReadWrite.h:72-92: eight bools to a byte, the first is the lowest bit *)
Fixpoint pack (l : list bool) : Z :=
  match l with [] => 0 | b :: r => Z.b2z b + 2 * pack r end.
Fixpoint put_bits (fuel : nat) (l : list bool) : bytes :=
  match fuel, l with
  | S f, _ :: _ => pack (firstn 8 l) :: put_bits f (skipn 8 l)
  | _, _ => []
  end.
(** Loops over elements *)
Definition writer := val -> res bytes.
Fixpoint put_list (w : writer) (l : list val) : res bytes :=
  match l with
  | [] => Ok []
  | v :: r => let* a := w v in let* b := put_list w r in Ok (a ++ b)
  end.
Fixpoint put_each (ws : list writer) (l : list val) : res bytes :=
  match ws, l with
  | [], [] => Ok []
  | w :: ws, v :: r => let* a := w v in let* b := put_each ws r in Ok (a ++ b)
  | _, _ => UB
  end.
(** The stream: bytes, or bytes and the state of a Reader; [raw] is ReadRaw. *)
Section Stream.
Context {stm : Type} (raw : nat -> stm -> res (bytes * stm)).
(** ArithmeticReadWrite.h:14-23 *)
Definition get_int (sg : bool) (w : nat) (s : stm) : res (Z * stm) :=
  let* (b, r) := raw w s in Ok (from_array sg w (rev b), r).
Definition get_size (s : stm) : res (Z * stm) := get_int false 8 s.

(** VectorReadWrite.h:53-70 *)
Fixpoint get_bits (fuel n : nat) (s : stm) : res (list bool * stm) :=
  match fuel, n with
  | S f, S _ =>
    let* (a, s1) := get_int false 1 s in
    let* (l, s2) := get_bits f (n - 8) s1 in
    Ok (map (fun i => Z.testbit a (Z.of_nat i)) (seq 0 (Nat.min 8 n)) ++ l, s2)
  | _, _ => Ok ([], s)
  end.

(** Loops over elements *)
Definition reader := val -> stm -> res (val * stm).
(** Reads into each of the objects. *)
Fixpoint get_list (r : reader) (olds : list val) (s : stm) : res (list val * stm) :=
  match olds with
  | [] => Ok ([], s)
  | o :: olds => let* (v, s1) := r o s in let* (l, s2) := get_list r olds s1 in Ok (v :: l, s2)
  end.
(** Reads into fresh objects, each of which is then added to the container. *)
Fixpoint get_add (r : stm -> res (val * stm)) (add : list val -> val -> list val) (n : nat) (acc : list val) (s : stm)
  : res (list val * stm) :=
  match n with
  | O => Ok (acc, s)
  | S n => let* (v, s1) := r s in get_add r add n (add acc v) s1
  end.
Fixpoint get_each (rs : list reader) (olds : list val) (s : stm) : res (list val * stm) :=
  match rs with
  | [] => Ok ([], s)
  | r :: rs => let* (v, s1) := r (hd VNone olds) s in let* (l, s2) := get_each rs (tl olds) s1 in Ok (v :: l, s2)
  end.

End Stream.
Arguments reader : clear implicits.

Definition as_list (v : val) : list val := match v with VList l | VTup l => l | _ => [] end.
Definition as_bool (v : val) : bool := match v with VBool b => b | _ => false end.
(** vector::resize *)
Definition resize (n : nat) (d : val) (l : list val) : list val := firstn n l ++ repeat d (n - length l).
(** set::insert of a value, and map::insert of a pair: equivalent elements are kept *)
Fixpoint set_insert (lt : val -> val -> bool) (key : val -> val) (l : list val) (x : val) : list val :=
  match l with
  | [] => [x]
  | y :: r => if lt (key x) (key y) then x :: l else if lt (key y) (key x) then y :: set_insert lt key r x else l
  end.
Definition pair_key (v : val) : val := match v with VPair k _ => k | v => v end.
(** deque::push_back; ring::push_back (Ring.h:301-304) drops the front when it is full *)
Definition deque_push (cap : option nat) (l : list val) (x : val) : list val :=
  match cap with
  | None => l ++ [x]
  | Some c => if (length l <? c)%nat then l ++ [x] else tl l ++ [x]
  end.

Section Codec.
Context (E : env).

(** CheckStringLimit, StringReadWrite.h:16-32; the product is a size_t *)
Definition over_limit (n : Z) : bool := match limit E with Some m => m <? n mod 2 ^ 64 | None => false end.
(** ValidateEnum, EnumReadWrite.h:55-64 *)
Definition bad_enum (count : option Z) (z : Z) : bool := match count with Some c => c <=? z | None => false end.

Fixpoint default (t : ty) : val :=
  match t with
  | TInt _ _ | TEnum _ _ _ | TTime _ => VInt 0
  | TBool => VBool false
  | TStr _ => VStr []
  | TOpt _ => VNone
  | TArr n t => VList (repeat (default t) n)
  | TVec _ | TDeque _ _ | TSet _ _ | TMap _ _ _ => VList []
  | TVar ts => match ts with t :: _ => VVar 0 (default t) | [] => VNone end
  | TTuple ts => VTup (map default ts)
  | TStruct sid _ => VTup (init E sid)
  end.

(** ** Write.  [pre] is what is written before a reflectable structure: nothing, or its
    index with a Writer as the context (TuplizableReadWrite.h:69-81, Writer.h:55-76).
    Values of another shape do not occur. *)
Section Write.
Context (pre : nat -> bytes).
Definition put_elems (t : ty) (w : writer) (l : list val) : res bytes :=
  match t with
  | TBool => Ok (put_bits (length l) (map as_bool l))   (* VectorReadWrite.h:72-92 *)
  | _ => put_list w l                                   (* :24-30, 43-51 *)
  end.
Fixpoint write (t : ty) (v : val) {struct t} : res bytes :=
  match t, v with
  | TInt _ w, VInt z => Ok (put_int w z)
  | TBool, VBool b => Ok [Z.b2z b]                      (* ArithmeticReadWrite.h:50-57 *)
  | TEnum _ w c, VInt z => if bad_enum c z then Throw IoError else Ok (put_int w z)   (* EnumReadWrite.h:29-38, 74-81 *)
  | TStr cw, VStr l =>                                  (* StringReadWrite.h:60-79 *)
    if over_limit (Z.of_nat (length l) * Z.of_nat cw) then Throw IoError
    else Ok (put_size (length l) ++ concat (map (put_int cw) l))
  | TTime k, VInt z => guard ((- 2 ^ 63 <=? z * k) && (z * k <? 2 ^ 63)) (Ok (put_int 8 (z * k)))   (* ChronoReadWrite.h:31-42 *)
  | TOpt t, VNone => Ok [0]                             (* OptionalReadWrite.h:33-45 *)
  | TOpt t, VSome v => let* b := write t v in Ok (1 :: b)
  | TArr n t, VList l => put_elems t (write t) l        (* VectorReadWrite.h:126-131 *)
  | TVec t, VList l => let* b := put_elems t (write t) l in Ok (put_size (length l) ++ b)   (* :107-116 *)
  | TDeque _ t, VList l => let* b := put_list (write t) l in Ok (put_size (length l) ++ b)  (* CollectionReadWrite.h:87-101 *)
  | TSet _ t, VList l => let* b := put_list (write t) l in Ok (put_size (length l) ++ b)
  | TMap _ k t, VList l =>                              (* and the pairs :22-28 *)
    let* b := put_list (fun p => match p with VPair x y => let* a := write k x in let* c := write t y in Ok (a ++ c) | _ => UB end) l in
    Ok (put_size (length l) ++ b)
  | TVar ts, VVar i v =>                                (* VariantReadWrite.h:94-103, 75-81 *)
    match nth_error (map write ts) i with
    | Some w => let* b := w v in Ok (put_size i ++ b)
    | None => UB
    end
  | TTuple ts, VTup l => put_each (map write ts) l      (* TuplizableReadWrite.h:26-31, 69-81 *)
  | TStruct sid fs, VTup l => let* b := put_each (map (fun f => write (snd f)) fs) l in Ok (pre sid ++ b)
  | _, _ => UB
  end.
End Write.

(** ** Read.  [rs] reads a reflectable structure, given the readers of its fields and the
    values in them (TuplizableReadWrite.h:55-67). *)
Section Read.
Context {stm : Type} (raw : nat -> stm -> res (bytes * stm)) (rs : nat -> list (reader stm) -> list val -> stm -> res (list val * stm)).
Notation get_int := (get_int raw). Notation get_size := (get_size raw). Notation get_bits := (get_bits raw).
Definition get_elems (t : ty) (r : reader stm) (olds : list val) (s : stm) : res (list val * stm) :=
  match t with
  | TBool => let* (l, s1) := get_bits (length olds) (length olds) s in Ok (map VBool l, s1)   (* VectorReadWrite.h:53-70 *)
  | _ => get_list r olds s                              (* :16-22, 33-41 *)
  end.
Fixpoint read (t : ty) (old : val) (s : stm) {struct t} : res (val * stm) :=
  match t with
  | TInt sg w => let* (z, r) := get_int sg w s in Ok (VInt z, r)
  | TBool => let* (z, r) := get_int false 1 s in Ok (VBool (negb (z =? 0)), r)    (* ArithmeticReadWrite.h:39-48 *)
  | TEnum sg w c => let* (z, r) := get_int sg w s in if bad_enum c z then Throw IoError else Ok (VInt z, r)   (* EnumReadWrite.h:16-27, 65-72 *)
  | TStr cw =>                                          (* StringReadWrite.h:34-58 *)
    let* (n, r) := get_size s in
    if over_limit (n * Z.of_nat cw) then Throw IoError
    else if negb (alloc_ok E n) then Throw LogicError
    else let* (l, r1) := get_list (fun _ s => let* (z, r) := get_int false cw s in Ok (VInt z, r)) (repeat VNone (Z.to_nat n)) r in
         Ok (VStr (map (fun v => match v with VInt z => z | _ => 0 end) l), r1)
  | TTime k => let* (z, r) := get_int true 8 s in Ok (VInt (Z.quot z k), r)       (* ChronoReadWrite.h:18-29 *)
  | TOpt t =>                                           (* OptionalReadWrite.h:15-31 *)
    let* (z, r) := get_int false 1 s in
    if z =? 0 then Ok (old, r) else let* (v, r1) := read t (default t) r in Ok (VSome v, r1)
  | TArr n t => let* (l, r) := get_elems t (read t) (as_list old) s in Ok (VList l, r)    (* VectorReadWrite.h:119-124 *)
  | TVec t =>                                           (* VectorReadWrite.h:94-105 *)
    let* (n, r) := get_size s in
    if negb (alloc_ok E n) then Throw LogicError
    else let* (l, r1) := get_elems t (read t) (resize (Z.to_nat n) (default t) (as_list old)) r in Ok (VList l, r1)
  | TDeque cap t =>                                     (* CollectionReadWrite.h:48-64 *)
    let* (n, r) := get_size s in
    let* (l, r1) := get_add (read t (default t)) (deque_push cap) (Z.to_nat n) (as_list old) r in Ok (VList l, r1)
  | TSet c t =>                                         (* CollectionReadWrite.h:30-46 *)
    let* (n, r) := get_size s in
    let* (l, r1) := get_add (read t (default t)) (set_insert (cmp E c) (fun v => v)) (Z.to_nat n) (as_list old) r in Ok (VList l, r1)
  | TMap c k t =>                                       (* CollectionReadWrite.h:67-85 *)
    let* (n, r) := get_size s in
    let* (l, r1) := get_add (fun s => let* (x, s1) := read k (default k) s in let* (y, s2) := read t (default t) s1 in Ok (VPair x y, s2))
                            (set_insert (cmp E c) pair_key) (Z.to_nat n) (as_list old) r in Ok (VList l, r1)
  | TVar ts =>                                          (* VariantReadWrite.h:50-61, 30-37; the index is only asserted *)
    let* (n, r) := get_size s in
    if Z.of_nat (length ts) <=? n then UB
    else match nth_error (map (fun t => read t (default t)) ts) (Z.to_nat n) with
         | Some rd => let* (v, r1) := rd r in Ok (VVar (Z.to_nat n) v, r1)
         | None => UB
         end
  | TTuple ts => let* (l, r) := get_each (map read ts) (as_list old) s in Ok (VTup l, r)   (* TuplizableReadWrite.h:19-24, 55-67 *)
  | TStruct sid fs => let* (l, r) := rs sid (map (fun f => read (snd f)) fs) (as_list old) s in Ok (VTup l, r)
  end.
End Read.

(** Without a context a reflectable structure is read as a tuple. *)
Definition plain_struct {stm} (_ : nat) (rds : list (reader stm)) (olds : list val) (s : stm) := get_each rds olds s.
Definition pread := read get_raw plain_struct.
Definition pwrite := write (fun _ => []).
End Codec.
