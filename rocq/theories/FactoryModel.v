(** Model of Awl/StaticChain.h and Awl/StaticFactory.h (C62), and of Assert::Throws,
    Awl/Testing/TestAssert.h (C63).  The list is that of C20. *)
From Verif Require Import Common.

Definition name := list Z.
Fixpoint name_eqb (a b : name) : bool := match a, b with [], [] => true | x :: a, y :: b => Z.eqb x y && name_eqb a b | _, _ => false end.

(** ** Types *)
Inductive refkind := NoRef | LRef | RRef.
(** A type of a parameter: a class or a scalar type, const or not, a reference or not *)
Record ptype := { base : nat; cst : bool; ref : refkind }.
Definition ref_eqb (a b : refkind) : bool := match a, b with NoRef, NoRef | LRef, LRef | RRef, RRef => true | _, _ => false end.
Definition ptype_eqb (a b : ptype) : bool := Nat.eqb (base a) (base b) && Bool.eqb (cst a) (cst b) && ref_eqb (ref a) (ref b).
(** A function type: the types of the result and of the parameters *)
Record ftype := { result : nat; params : list ptype }.
Fixpoint params_eqb (a b : list ptype) : bool := match a, b with [], [] => true | x :: a, y :: b => ptype_eqb x y && params_eqb a b | _, _ => false end.
Definition ftype_eqb (a b : ftype) : bool := Nat.eqb (result a) (result b) && params_eqb (params a) (params b).
(** The const of a parameter that is passed by value does not belong to the type of the function *)
Definition adjust (p : ptype) : ptype := match ref p with NoRef => {| base := base p; cst := false; ref := NoRef |} | _ => p end.
Definition fun_type (r : nat) (ps : list ptype) : ftype := {| result := r; params := map adjust ps |}.
(** An argument: its type, and whether it is an lvalue *)
Record argument := { abase : nat; aconst : bool; lvalue : bool }.
(** The deduction of Args from Args&&: T& for an lvalue, T for an rvalue *)
Definition deduce (a : argument) : ptype := {| base := abase a; cst := aconst a; ref := if lvalue a then LRef else NoRef |}.

(** ** StaticChain.h:18-90: one list for each type T (StaticSingleton.h:10-15); the last
    registered object is the first one.  A function is a number. *)
Record link := { lname : name; lvalue_ : nat }.
Definition chains := list (ftype * list link).
Fixpoint chain (c : chains) (t : ftype) : list link :=
  match c with [] => [] | (u, l) :: r => if ftype_eqb u t then l else chain r t end.
(** StaticChain.h:81-89, StaticFactory.h:52-53 AWL_REGISTER_FACTORY *)
Fixpoint push_front (c : chains) (t : ftype) (k : link) : chains :=
  match c with
  | [] => [(t, [k])]
  | (u, l) :: r => if ftype_eqb u t then (u, k :: l) :: r else (u, l) :: push_front r t k
  end.
Definition register (c : chains) (r : nat) (ps : list ptype) (n : name) (f : nat) : chains :=
  push_front c (fun_type r ps) {| lname := n; lvalue_ := f |}.
(** StaticChain.h:56-63 *)
Fixpoint find (l : list link) (n : name) : option link :=
  match l with [] => None | k :: r => if name_eqb (lname k) n then Some k else find r n end.
(** StaticFactory.h:21-38: the function that is called; RuntimeError is FactoryException *)
Definition create (c : chains) (r : nat) (n : name) (args : list argument) : res nat :=
  match find (chain c (fun_type r (map deduce args))) n with
  | Some k => Ok (lvalue_ k)
  | None => Throw RuntimeError
  end.

(** ** Assert::Throws, TestAssert.h:51-62 *)
(** A function returns or throws an exception of some class; [test_exception] is the class
    of the exception that Fail throws. *)
Section Throws.
Context {cls : Type} (derives : cls -> cls -> bool) (test_exception : cls).
(** None: nothing is thrown *)
Definition throws (e : cls) (func : option cls) : option cls :=
  let thrown := match func with None => Some test_exception | Some x => Some x end in
  match thrown with Some x => if derives x e then None else Some x | None => None end.
End Throws.
