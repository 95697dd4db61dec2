(** Model of Awl/FixedString.h, text() and the operator << of Awl/String.h:53-67, Awl/Separator.h,
    Awl/Crypto/FixedHash.h and Awl/IntRange.h (C86).  A character is a number. *)
From Verif Require Import Common.

(** ** FixedString.h:11-110: the array state[N + 1] *)
Definition fs := list Z.
(** :30 N of the type *)
Definition fs_size (s : fs) : nat := length s - 1.
Definition ld (a : list Z) (i : nat) : res Z := match nth_error a i with Some c => Ok c | None => UB end.
Definition sto (a : list Z) (i : nat) (c : Z) : res (list Z) := guard (i <? length a) (Ok (set_nth a i c)).
(** for (i = 0; i < k; ++i) dst[off + i] = f(src[i]) *)
Fixpoint copy_loop (f : Z -> Z) (k i off : nat) (src dst : list Z) : res (list Z) :=
  match k with
  | O => Ok dst
  | S k => let* c := ld src i in
           let* dst := sto dst (off + i) (f c) in
           copy_loop f k (S i) off src dst
  end.
(** :109 the initializer of state *)
Definition fs_zero (n : nat) : fs := repeat 0%Z (S n).
(** :18-23 and the deduction guide :112-113: N is one less than the length of the array *)
Definition fs_of (arr : list Z) : res fs := copy_loop (fun c => c) (length arr - 1) 0 0 arr (fs_zero (length arr - 1)).
(** The value of a char, signed with 8 bits, from the byte in the literal *)
Definition char_of_byte (b : Z) : Z := if (b <? 128)%Z then b else (b - 256)%Z.
(** :95-105 from_ascii of a literal given by its bytes, where CharT is a signed wchar_t of 32 bits:
    the static_cast keeps the value *)
Definition from_ascii (bytes : list Z) : res fs :=
  copy_loop char_of_byte (length bytes - 1) 0 0 bytes (fs_zero (length bytes - 1)).
(** :25-26 *)
Definition fs_get (s : fs) (i : nat) : res Z := ld s i.
Definition fs_set (s : fs) (i : nat) (c : Z) : res fs := sto s i c.
(** :38-47 *)
Definition fs_concat (a b : fs) : res fs :=
  let* r := copy_loop (fun c => c) (fs_size a) 0 0 a (fs_zero (fs_size a + fs_size b)) in
  copy_loop (fun c => c) (fs_size b) 0 (fs_size a) b r.
(** :49-54, 69-73 and :56-67 *)
Fixpoint eq_loop (k i : nat) (a b : fs) : res bool :=
  match k with
  | O => Ok true
  | S k => let* x := ld a i in let* y := ld b i in
           if (x =? y)%Z then eq_loop k (S i) a b else Ok false
  end.
Definition fs_eq (a b : fs) : res bool :=
  if fs_size a =? fs_size b then eq_loop (fs_size a) 0 a b else Ok false.
Fixpoint ne_loop (k i : nat) (a b : fs) : res bool :=
  match k with
  | O => Ok false
  | S k => let* x := ld a i in let* y := ld b i in
           if (x =? y)%Z then ne_loop k (S i) a b else Ok true
  end.
Definition fs_ne (a b : fs) : res bool :=
  if fs_size a =? fs_size b then ne_loop (fs_size a) 0 a b else Ok true.
(** :31-32, 80-93 the conversions, begin and end: the first N characters *)
Definition fs_string (s : fs) : list Z := firstn (fs_size s) s.
(** :75-78 what a function that takes the pointer reads: up to a zero, past the array if there is
    none *)
Fixpoint scan (a : list Z) : res (list Z) :=
  match a with
  | [] => UB
  | c :: a => if (c =? 0)%Z then Ok [] else let* r := scan a in Ok (c :: r)
  end.
Definition fs_c_str (s : fs) : res (list Z) := scan s.
(** String.h:59-67 *)
Definition fs_print (out : list Z) (s : fs) : list Z := out ++ fs_string s.

(** ** Separator.h:13-62 *)
Record separator := { sep_content : list Z; sep_first : bool }.
Definition sep_char (c : Z) : separator := {| sep_content := [c] ++ [32%Z]; sep_first := true |}.
Definition sep_string (s : list Z) : separator := {| sep_content := s; sep_first := true |}.
Definition sep_out (out : list Z) (p : separator) : list Z * separator :=
  if sep_first p then (out, {| sep_content := sep_content p; sep_first := false |})
  else (out ++ sep_content p, p).
(** The use of it: out << sep << item for each item *)
Fixpoint sep_loop (out : list Z) (p : separator) (items : list (list Z)) : list Z :=
  match items with
  | [] => out
  | x :: items => let '(out, p) := sep_out out p in sep_loop (out ++ x) p items
  end.

(** ** Crypto/FixedHash.h:13-61 over any hash of a range *)
Section Hash.
Context {V : Type} (hash : list Z -> V).
Definition hash_string (s : list Z) : V := hash s.                             (* :27-37 *)
Definition hash_fixed (s : fs) : V := hash (fs_string s).                      (* :39-43 *)
Definition hash_array (s : list Z) : V := hash (firstn (length s - 1) s).      (* :45-53 *)
End Hash.

(** ** IntRange.h:13-24.  The preconditions of std::views::iota: the bound is reachable. *)
Fixpoint iota (n : nat) (b : Z) : list Z := match n with O => [] | S n => b :: iota n (b + 1) end.
Definition make_int_range (b e : Z) : res (list Z) := guard (b <=? e)%Z (Ok (iota (Z.to_nat (e - b)) b)).
Definition make_count (e : Z) : res (list Z) := make_int_range 0 e.

(** ** Programs over variables with fixed strings *)
Inductive fop :=
| FLit (x : nat) (arr : list Z)   (* fixed_string x(arr) *)
| FConcat (x y z : nat)           (* x = y + z *)
| FCopy (x y : nat)
| FSet (x i : nat) (c : Z) | FGet (x i : nat)
| FEq (x y : nat) | FNe (x y : nat) | FSize (x : nat) | FString (x : nat) | FCStr (x : nat) | FPrint (x : nat).
Inductive fobs := GUnit | GChar (c : Z) | GBool (b : bool) | GNat (n : nat) | GStr (s : list Z).
Definition fenv := nat -> option fs.
Definition fget (e : fenv) (x : nat) : res fs := match e x with Some s => Ok s | None => UB end.
Definition fstep (e : fenv) (o : fop) : res (fenv * fobs) :=
  match o with
  | FLit x arr => let* s := fs_of arr in Ok (upd e x (Some s), GUnit)
  | FConcat x y z => let* a := fget e y in let* b := fget e z in let* s := fs_concat a b in Ok (upd e x (Some s), GUnit)
  | FCopy x y => let* a := fget e y in Ok (upd e x (Some a), GUnit)
  | FSet x i c => let* a := fget e x in let* s := fs_set a i c in Ok (upd e x (Some s), GUnit)
  | FGet x i => let* a := fget e x in let* c := fs_get a i in Ok (e, GChar c)
  | FEq x y => let* a := fget e x in let* b := fget e y in let* r := fs_eq a b in Ok (e, GBool r)
  | FNe x y => let* a := fget e x in let* b := fget e y in let* r := fs_ne a b in Ok (e, GBool r)
  | FSize x => let* a := fget e x in Ok (e, GNat (fs_size a))
  | FString x => let* a := fget e x in Ok (e, GStr (fs_string a))
  | FCStr x => let* a := fget e x in let* s := fs_c_str a in Ok (e, GStr s)
  | FPrint x => let* a := fget e x in Ok (e, GStr (fs_print [] a))
  end.
Fixpoint frun (e : fenv) (os : list fop) : res (list fobs) :=
  match os with
  | [] => Ok []
  | o :: os => let* (e, v) := fstep e o in let* vs := frun e os in Ok (v :: vs)
  end.
