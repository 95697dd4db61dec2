(** Model of Awl/Decimal.h, Awl/DecimalConstants.h and Awl/DecimalData.h
    (BuiltinDecimalData): decimal<UInt, exp_len>.

    What goes through double (cast, operator double, make_decimal/make_rounded/make_ceiled/
    make_floored, arithmetic with double) is in DecFloatModel.v. *)
From Verif Require Import Common.
Local Open Scope Z_scope.

(** The template arguments: bits of UInt (32, 64 or 128) and exp_len. *)
Record cfg := { W : nat; X : nat }.

(** DecimalConstants.h:18-33: sign_len = 1, man_len, p2 *)
Definition p2 (n : nat) : Z := 2 ^ Z.of_nat n.
Definition man_len (c : cfg) : nat := W c - (X c + 1).
(** DecimalConstants.h:35-43 *)
Definition max_exp (c : cfg) : nat := Z.to_nat (p2 (X c) - 1).
Definition max_man (c : cfg) : Z := p2 (man_len c) - 1.
(** arithmetic of UInt *)
Definition uw (c : cfg) (z : Z) : Z := z mod p2 (W c).
(** the values of Int *)
Definition is_int (c : cfg) (z : Z) : bool := (- p2 (W c - 1) <=? z) && (z <? p2 (W c - 1)).

(** DecimalConstants.h:58-72 make_denoms: denom *= 10 in UInt. *)
Fixpoint denom (c : cfg) (e : nat) : Z :=
  match e with
  | O => 1
  | S e' => uw c (denom c e' * 10)
  end.

(** DecimalData.h:25-31 Pack; the setters of 60-92 truncate to the field. *)
Record dec := { neg : bool; ex : nat; man : Z }.
Definition set_man (c : cfg) (d : dec) (m : Z) : dec := {| neg := neg d; ex := ex d; man := m mod p2 (man_len c) |}.
Definition set_exp (c : cfg) (d : dec) (e : nat) : dec := {| neg := neg d; ex := (e mod 2 ^ X c)%nat; man := man d |}.
(** the constructor DecimalData.h:46 / Decimal.h:48 with a zero mantissa *)
Definition blank (c : cfg) (digits : nat) : dec := {| neg := false; ex := (digits mod 2 ^ X c)%nat; man := 0 |}.

(** DecimalData.h:94-104: GCC and MSVC allocate bit fields from the lowest bit
    (sign, exponent, mantissa). *)
Definition to_bits (c : cfg) (d : dec) : Z :=
  (if neg d then 1 else 0) + 2 * Z.of_nat (ex d) + p2 (X c + 1) * man d.
Definition from_bits (c : cfg) (r : Z) : dec :=
  {| neg := r mod 2 =? 1; ex := Z.to_nat ((r / 2) mod p2 (X c)); man := (r / p2 (X c + 1)) mod p2 (man_len c) |}.

(** Decimal.h:115-118 negate and 213-220 unary minus *)
Definition negate (d : dec) : dec := {| neg := negb (neg d); ex := ex d; man := man d |}.
(** Decimal.h:121-126 *)
Definition mantissa (d : dec) : Z := if neg d then - man d else man d.
(** Decimal.h:128-140; negating the smallest Int is undefined. *)
Definition set_mantissa (c : cfg) (d : dec) (v : Z) : res dec :=
  if 0 <=? v then Ok {| neg := false; ex := ex d; man := v mod p2 (man_len c) |}
  else guard (is_int c (- v)) (Ok {| neg := true; ex := ex d; man := (- v) mod p2 (man_len c) |}).
(** Decimal.h:53-56 *)
Definition make (c : cfg) (m : Z) (digits : nat) : res dec := set_mantissa c (blank c digits) m.

(** Decimal.h:650-656 *)
Definition check_exp (c : cfg) (digits : nat) {A} (k : res A) : res A :=
  if (max_exp c <? digits)%nat then Throw LogicError else k.

(** Decimal.h:474-500 *)
Definition extend (c : cfg) (d : dec) (digits : nat) : res dec :=
  if (ex d <? digits)%nat then
    check_exp c digits
      (if man d =? 0 then Ok (set_exp c d digits)
       else
         let diff := (digits - ex d)%nat in
         let dn := denom c diff in
         let max_diff := max_man c / man d in
         if max_diff <? dn then Throw LogicError
         else Ok (set_exp c (set_man c d (uw c (man d * dn))) digits))
  else Ok d.

(** Decimal.h:502-519; a zero denominator would be a division by zero. *)
Definition trim (c : cfg) (d : dec) (digits : nat) (check : bool) : res dec :=
  if (digits <? ex d)%nat then
    let diff := (ex d - digits)%nat in
    let dn := denom c diff in
    guard (negb (dn =? 0))
      (if check && negb (man d mod dn =? 0) then Throw LogicError
       else Ok (set_exp c (set_man c d (man d / dn)) digits))
  else Ok d.

(** Decimal.h:462-472 rescale_self (342-347 rescale), 356-361 truncate, 370-373 floor *)
Definition rescale (c : cfg) (d : dec) (digits : nat) (check : bool) : res dec :=
  if (ex d <? digits)%nat then extend c d digits
  else if (digits <? ex d)%nat then trim c d digits check
  else Ok d.
Definition truncate (c : cfg) (d : dec) (digits : nat) : res dec := trim c d digits false.
Definition floor (c : cfg) (d : dec) (digits : nat) : res dec := truncate c d digits.

(** Decimal.h:521-540 (375-380 ceil) *)
Definition ceil (c : cfg) (d : dec) (digits : nat) : res dec :=
  if (digits <? ex d)%nat then
    let diff := (ex d - digits)%nat in
    let dn := denom c diff in
    guard (negb (dn =? 0))
      (let new_man := man d / dn in
       let new_man := if negb (man d mod dn =? 0) then uw c (new_man + 1) else new_man in
       Ok (set_exp c (set_man c d new_man) digits))
  else Ok d.

(** Decimal.h:543-562 *)
Fixpoint normalize_loop (e : nat) (m : Z) : nat * Z :=
  match e with
  | O => (O, m)
  | S e' => if m =? 0 then (e, m)
            else if m mod 10 =? 0 then normalize_loop e' (m / 10) else (e, m)
  end.
Definition normalize (d : dec) : dec :=
  let (e, m) := normalize_loop (ex d) (man d) in
  {| neg := neg d; ex := if m =? 0 then O else e; man := m |}.

(** Decimal.h:181-192 *)
Definition equal (a b : dec) : bool :=
  if eqb (neg a) (neg b) then
    let a' := normalize a in let b' := normalize b in
    (ex a' =? ex b')%nat && (man a' =? man b')
  else false.

(** Decimal.h:585-623 *)
Definition compare_positive (c : cfg) (a b : dec) (comp : Z -> Z -> bool) : res bool :=
  let ad := denom c (ex a) in
  let bd := denom c (ex b) in
  guard (negb (ad =? 0) && negb (bd =? 0))
    (let ai := man a / ad in
     let bi := man b / bd in
     if negb (ai =? bi) then Ok (comp ai bi)
     else
       let af := man a mod ad in
       let bf := man b mod bd in
       if (ex b <? ex a)%nat then Ok (comp af (uw c (bf * denom c (ex a - ex b))))
       else if (ex a <? ex b)%nat then Ok (comp (uw c (af * denom c (ex b - ex a))) bf)
       else Ok (comp af bf)).
(** Decimal.h:565-582 *)
Definition compare (c : cfg) (a b : dec) (comp : Z -> Z -> bool) : res bool :=
  if neg a && neg b then compare_positive c b a comp
  else if negb (neg a) && negb (neg b) then compare_positive c a b comp
  else let sign d := if neg d then 1 else 0 in Ok (comp (sign b) (sign a)).
(** Decimal.h:194-212 *)
Definition lt (c : cfg) (a b : dec) : res bool := compare c a b Z.ltb.
Definition gt (c : cfg) (a b : dec) : res bool := compare c a b (fun x y => y <? x).
Definition le (c : cfg) (a b : dec) : res bool := compare c a b Z.leb.
Definition ge (c : cfg) (a b : dec) : res bool := compare c a b (fun x y => y <=? x).

(** Decimal.h:658-668 *)
Definition align (c : cfg) (a b : dec) : res (dec * dec) :=
  if (ex b <? ex a)%nat then let* b' := rescale c b (ex a) true in Ok (a, b')
  else if (ex a <? ex b)%nat then let* a' := rescale c a (ex b) true in Ok (a', b)
  else Ok (a, b).
(** Decimal.h:222-240; the sum is computed in Int. *)
Definition add (c : cfg) (a b : dec) : res dec :=
  let* (a', b') := align c a b in
  let m := mantissa a' + mantissa b' in
  guard (is_int c m) (make c m (ex a')).
Definition sub (c : cfg) (a b : dec) : res dec :=
  let* (a', b') := align c a b in
  let m := mantissa a' - mantissa b' in
  guard (is_int c m) (make c m (ex a')).

(** Decimal.h:842-850; the exponents are added in int and converted to uint8_t,
    the product is computed in Int. *)
Definition multiply (c : cfg) (a b : dec) : res dec :=
  let d := blank c ((ex a + ex b) mod 256)%nat in
  let m := mantissa a * mantissa b in
  guard (is_int c m) (set_mantissa c d m).

(** *** Text.  Characters are their codes: '+' 43, '-' 45, '.' 46, '0' 48. *)
Definition text := list Z.

(** out << val for an unsigned integer on a stream with default flags: the
    decimal digits; [fuel] bounds their number. *)
Fixpoint digits_of (fuel : nat) (n : Z) (acc : text) : text :=
  match fuel with
  | O => acc
  | S f => let acc' := (48 + n mod 10) :: acc in
           if n <? 10 then acc' else digits_of f (n / 10) acc'
  end.
Definition put_uint (c : cfg) (n : Z) : text := digits_of (W c) n [].
(** with setfill('0') and setw(w) *)
Definition pad (w : nat) (s : text) : text := repeat 48 (w - length s)%nat ++ s.
Definition put_std (c : cfg) (w : nat) (n : Z) : text := pad w (put_uint c n).
(** String.h:397-445: the library's own operator<< for __uint128_t.  The first
    fill character is itself padded to the width, which is thereby reset. *)
Definition put_u128 (c : cfg) (w : nat) (n : Z) : text :=
  let s := put_uint c n in
  let len := length s in
  if (1 <? w)%nat && (w <? len)%nat then repeat 48 w ++ repeat 48 (len - w - 1) ++ s
  else pad w s.
Definition put_width (c : cfg) (w : nat) (n : Z) : text :=
  if (W c =? 128)%nat then put_u128 c w n else put_std c w n.

(** Decimal.h:738-762 operator<< (317-340 to_string) *)
Definition print (c : cfg) (d : dec) : res text :=
  let dn := denom c (ex d) in
  guard (negb (dn =? 0))
    (Ok ((if neg d then [45] else []) ++
         put_width c 0 (man d / dn) ++
         if (ex d =? 0)%nat then [] else 46 :: put_width c (ex d) (man d mod dn))).

(** Decimal.h:637-648 *)
Definition symbol_to_digit (s : Z) : res Z :=
  if (48 <=? s) && (s <=? 57) then Ok (s - 48) else Throw LogicError.

(** Decimal.h:767-839 parse_int.  [digit_count] and [zero_count] are uint8_t. *)
Record pstate := { dc : nat; zc : nat; pv : Z }.
Definition u8 (n : nat) : nat := (n mod 256)%nat.
(** 777-788 do_append *)
Definition do_append (c : cfg) (s : pstate) (digit : Z) : res pstate :=
  let v := uw c (uw c (pv s * 10) + digit) in
  if max_man c <? v then Throw LogicError
  else Ok {| dc := u8 (S (dc s)); zc := zc s; pv := v |}.
(** 808-811: for (uint8_t i = 0; i < zero_count; ++i) do_append(0) *)
Fixpoint append_zeros (c : cfg) (n : nat) (s : pstate) : res pstate :=
  match n with
  | O => Ok s
  | S n' => let* s1 := do_append c s 0 in append_zeros c n' s1
  end.
(** 790-819 append *)
Definition append (c : cfg) (point : bool) (s : pstate) (digit : Z) : res pstate :=
  if point then
    if negb (digit =? 0) || negb (pv s =? 0) then do_append c s digit else Ok s
  else
    if digit =? 0 then Ok {| dc := dc s; zc := u8 (S (zc s)); pv := pv s |}
    else let* s1 := append_zeros c (zc s) s in
         do_append c {| dc := dc s1; zc := 0; pv := pv s1 |} digit.
(** 821-838; the result carries the unread rest of the text. *)
Fixpoint parse_loop (c : cfg) (point : bool) (s : pstate) (t : text) : res (text * pstate) :=
  match t with
  | [] => Ok ([], s)
  | x :: t' =>
      if point && (x =? 46) then Ok (t', s)
      else let* d := symbol_to_digit x in
           let* s1 := append c point s d in
           parse_loop c point s1 t'
  end.
Definition parse_int (c : cfg) (t : text) (point : bool) : res (text * nat * Z) :=
  let* (rest, s) := parse_loop c point {| dc := 0; zc := 0; pv := 0 |} t in
  Ok (rest, dc s, pv s).

(** Decimal.h:676-736 from_string; the first character of an empty view is read. *)
Definition from_string (c : cfg) (t : text) : res dec :=
  match t with
  | [] => UB
  | x :: t' =>
      let sgn := (x =? 43) || (x =? 45) in
      let negative := sgn && negb (x =? 43) in
      let body := if sgn then t' else t in
      let* (frac_text, _, int_part) := parse_int c body true in
      let* (rest, digits, frac) := parse_int c frac_text false in
      if negb (match rest with [] => true | _ => false end) then Throw LogicError else
      check_exp c digits
        (let dn := denom c digits in
         guard (negb (dn =? 0))
         (if max_man c / dn <? int_part then Throw LogicError else
          let ip := uw c (int_part * dn) in
          if max_man c - ip <? frac then Throw LogicError else
          let r := set_exp c (set_man c (blank c 0) (uw c (ip + frac))) digits in
          Ok (if negative then negate r else r)))
  end.

(** DecimalTime.h:14-24: the count of nanoseconds; the conversion to the 64-bit
    rep wraps when UInt is wider. *)
Definition to_nanoseconds (c : cfg) (d : dec) : res Z :=
  let* e := extend c d 9 in
  Ok ((mantissa e + p2 63) mod p2 64 - p2 63).
