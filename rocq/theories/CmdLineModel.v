(** Model of Awl/Testing/CommandLineProvider.{h,cpp}, AttributeProvider.h, LocalAttribute.h,
    Formatter.h and ScalarFormatter.h.

    Characters are their codes, the locale is the classic one, int has 32 bits, long and
    long long have 64.  Floating point types and conversions between char and wchar_t are
    left out. *)
From Verif Require Import Common.
Local Open Scope Z_scope.

Definition text := list Z.
Fixpoint text_eqb (a b : text) : bool :=
  match a, b with [], [] => true | x :: a, y :: b => (x =? y) && text_eqb a b | _, _ => false end.

(** ** CommandLineProvider *)
(** The classes of the regular expression, CommandLineProvider.cpp:19 *)
Definition alpha (c : Z) : bool := ((65 <=? c) && (c <=? 90)) || ((97 <=? c) && (c <=? 122)).
Definition digit (c : Z) : bool := (48 <=? c) && (c <=? 57).
Definition word (c : Z) : bool := (c =? 95) || alpha c || digit c.
(** CommandLineProvider.cpp:19, 31-33: the name if the argument is an option *)
Definition option_name (a : text) : option text :=
  match a with
  | x :: y :: c :: r => if (x =? 45) && (y =? 45) && alpha c && negb (match r with [] => true | _ => false end) && forallb word r then Some (c :: r) else None
  | _ => None
  end.
(** CommandLineProvider.h:28-48 *)
Record opt := { oname : text; oval : option text; usage : nat }.
Definition has_option (m : list opt) (n : text) : bool := existsb (fun o => text_eqb (oname o) n) m.
Definition set_val (m : list opt) (n v : text) : list opt :=
  map (fun o => if text_eqb (oname o) n then {| oname := oname o; oval := Some v; usage := 0 |} else o) m.
(** CommandLineProvider.cpp:27-57, the arguments after the first one.  [cur] is the name of
    the option that current_option points to; its iterator is always set after the last
    insertion.  RuntimeError stands for TestException. *)
Fixpoint parse_from (args : list text) (m : list opt) (cur : option text) : res (list opt) :=
  match args with
  | [] => Ok m
  | a :: rest =>
    match option_name a with
    | Some n => if has_option m n then Throw RuntimeError else parse_from rest (m ++ [{| oname := n; oval := None; usage := 0 |}]) (Some n)
    | None => match cur with Some n => parse_from rest (set_val m n a) None | None => Throw RuntimeError end
    end
  end.
Definition parse (args : list text) : res (list opt) := parse_from args [] None.
(** CommandLineProvider.cpp:70-95 TryFind: the value, and the counted use *)
Fixpoint try_find (m : list opt) (n : text) : option text * list opt :=
  match m with
  | [] => (None, [])
  | o :: m' =>
    if text_eqb (oname o) n then (Some (match oval o with Some v => v | None => [] end), {| oname := oname o; oval := oval o; usage := S (usage o) |} :: m')
    else let (r, m1) := try_find m' n in (r, o :: m1)
  end.
(** CommandLineProvider.cpp:59-68 the destructor: the options that it prints *)
Definition unused (m : list opt) : list text := map oname (filter (fun o => Nat.eqb (usage o) 0) m).

(** ** Numbers *)
(** isspace *)
Definition space (c : Z) : bool := (c =? 32) || ((9 <=? c) && (c <=? 13)).
Fixpoint skip_space (s : text) : text := match s with c :: r => if space c then skip_space r else s | [] => [] end.
Fixpoint take_digits (s : text) (n : Z) : Z * text :=
  match s with c :: r => if digit c then take_digits r (10 * n + (c - 48)) else (n, s) | [] => (n, []) end.
(** strtol, strtoul with base 10: the sign, the magnitude and what follows *)
Definition strto (s : text) : option (bool * Z * text) :=
  let s1 := skip_space s in
  let (neg, s2) := match s1 with c :: r => if c =? 45 then (true, r) else if c =? 43 then (false, r) else (false, s1) | [] => (false, []) end in
  match s2 with c :: _ => if digit c then let (n, r) := take_digits s2 0 in Some (neg, n, r) else None | [] => None end.
(** std::stoi (k = 31), std::stol and std::stoll (k = 63): LogicError is invalid_argument *)
Definition sto (k : Z) (s : text) : res Z :=
  match strto s with
  | Some (neg, n, _) => let v := if neg then - n else n in if (- 2 ^ k <=? v) && (v <? 2 ^ k) then Ok v else Throw OutOfRange
  | None => Throw LogicError
  end.
(** std::stoul, std::stoull: a minus sign negates modulo 2^64 *)
Definition stou (s : text) : res Z :=
  match strto s with
  | Some (neg, n, _) => if n <? 2 ^ 64 then Ok ((if neg then - n else n) mod 2 ^ 64) else Throw OutOfRange
  | None => Throw LogicError
  end.
(** std::to_string of integers, and out << of them; [put_uint] needs at most 20 digits *)
Fixpoint put_uint (fuel : nat) (n : Z) (acc : text) : text :=
  match fuel with O => acc | S f => let a := (48 + n mod 10) :: acc in if n <? 10 then a else put_uint f (n / 10) a end.
Definition put_int (n : Z) : text := if n <? 0 then 45 :: put_uint 20 (- n) [] else put_uint 20 n [].

(** ** Formatter *)
(** The types; a value is an integer, a text or a list of these. *)
Inductive scalar := FBool | FInt | FUInt | FLong | FULong.
Inductive elem := EBool | ESigned (bits : Z) | EUnsigned (bits : Z) | EChar | EText.
Inductive attr := AScalar (k : scalar) | AText | AVector (e : elem) | ASet (e : elem).
Inductive atom := Num (z : Z) | Txt (t : text).
Inductive aval := One (a : atom) | Many (l : list atom).

(** ScalarFormatter.h:16-43, 56-99 *)
Definition scalar_to_string (k : scalar) (z : Z) : text := match k with FBool => [] | _ => put_int z end.
Definition scalar_from_string (k : scalar) (s : text) : res Z :=
  match k with
  | FBool => Ok 1
  | FInt => sto 31 s
  | FUInt => let* v := sto 31 s in Ok (v mod 2 ^ 32)
  | FLong => sto 63 s
  | FULong => stou s
  end.

(** out << e, Formatter.h:84-128 *)
Definition elem_to_string (a : atom) (e : elem) : text :=
  match e, a with
  | EChar, Num z => [z]
  | EText, Txt t => t
  | _, Num z => put_int z
  | _, Txt t => t
  end.
Fixpoint join (l : list text) : text := match l with [] => [] | [a] => a | a :: r => a ++ 32 :: join r end.
Fixpoint take_word (s : text) : text * text :=
  match s with c :: r => if space c then ([], s) else let (w, r') := take_word r in (c :: w, r') | [] => ([], []) end.
(** in >> e: num_get::get and the extraction of characters and strings; None sets failbit *)
Definition extract (e : elem) (s : text) : option (atom * text) :=
  match e with
  | EChar => match skip_space s with c :: r => Some (Num c, r) | [] => None end
  | EText => match take_word (skip_space s) with ([], _) => None | (w, r) => Some (Txt w, r) end
  | EBool => match strto s with Some (neg, n, r) => if (negb neg && (n <=? 1)) || (n =? 0) then Some (Num n, r) else None | None => None end
  | ESigned b => match strto s with Some (neg, n, r) => let v := if neg then - n else n in if (- 2 ^ (b - 1) <=? v) && (v <? 2 ^ (b - 1)) then Some (Num v, r) else None | None => None end
  | EUnsigned b => match strto s with Some (neg, n, r) => if n <? 2 ^ b then Some (Num ((if neg then - n else n) mod 2 ^ b), r) else None | None => None end
  end.
(** istream_iterator until it fails: every extraction consumes at least one character *)
Fixpoint extract_all (e : elem) (fuel : nat) (s : text) : list atom :=
  match fuel with
  | O => []
  | S f => match extract e s with Some (a, r) => a :: extract_all e f r | None => [] end
  end.
(** operator < of the elements; strings are compared by the codes of the characters *)
Fixpoint text_ltb (a b : text) : bool :=
  match a, b with
  | _, [] => false
  | [], _ :: _ => true
  | x :: a, y :: b => (x <? y) || ((x =? y) && text_ltb a b)
  end.
Definition atom_ltb (a b : atom) : bool :=
  match a, b with Num x, Num y => x <? y | Txt x, Txt y => text_ltb x y | Num _, Txt _ => true | Txt _, Num _ => false end.
(** std::set::insert on the sorted sequence of the elements *)
Fixpoint set_insert (a : atom) (l : list atom) : list atom :=
  match l with
  | [] => [a]
  | b :: r => if atom_ltb a b then a :: l else if atom_ltb b a then b :: set_insert a r else l
  end.

(** Formatter.h:20-128 ToString *)
Definition to_string (t : attr) (v : aval) : text :=
  match t, v with
  | AScalar k, One (Num z) => scalar_to_string k z
  | AText, One (Txt s) => s
  | (AVector e | ASet e), Many l => join (map (fun a => elem_to_string a e) l)
  | _, _ => []
  end.
(** FromString *)
Definition from_string (t : attr) (s : text) : res aval :=
  match t with
  | AScalar k => let* z := scalar_from_string k s in Ok (One (Num z))
  | AText => Ok (One (Txt s))
  | AVector e => Ok (Many (extract_all e (length s) s))
  | ASet e => Ok (Many (fold_left (fun l a => set_insert a l) (extract_all e (length s) s) []))
  end.

(** ** Attributes *)
(** AttributeProvider.h:43-53, LocalAttribute.h:20-45: AWT_ATTRIBUTE(t, n, dflt) *)
Definition attribute (m : list opt) (t : attr) (n : text) (dflt : aval) : aval * list opt :=
  let (f, m1) := try_find m n in
  match f with
  | Some s => match from_string t s with Ok v => (v, m1) | _ => (dflt, m1) end
  | None => (dflt, m1)
  end.
