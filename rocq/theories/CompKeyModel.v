(** Model of TransparentCompositeCompare (Awl/TransparentCompositeCompare.h) with keys of different types, and of the keys that
    make_key builds (TransparentCompositeCompare.h:36-48, TupleHelpers.h:272-286).

    key_type is a tuple of const references (line 28), so a key does not own its values: a reference is alive or its object
    has been destroyed.  Reading through the latter is undefined behaviour. *)
From Verif Require Import Common CompareModel.
Local Open Scope Z_scope.

(** The comparers of a composite, std::tuple<Cs...>, and the types of their keys *)
Inductive comps (T : Type) : list Type -> Type :=
| CsNil : comps T []
| CsCons (K : Type) (Ks : list Type) : tcmp T K -> comps T Ks -> comps T (K :: Ks).
Arguments CsNil {T}. Arguments CsCons {T K Ks} _ _.

(** const K& *)
Inductive kref (K : Type) := Live (k : K) | Dangling.
Arguments Live {K} _. Arguments Dangling {K}.
Definition deref {K} (r : kref K) : res K := match r with Live k => Ok k | Dangling => UB end.

(** key_type, TransparentCompositeCompare.h:28 *)
Fixpoint krefs (Ks : list Type) : Type := match Ks with [] => unit | K :: r => (kref K * krefs r)%type end.

(** CompositeCompare.h:27-61, the comparison of two elements *)
Fixpoint hc_tt {T Ks} (cs : comps T Ks) (left right : T) : bool :=
  match cs with
  | CsNil => false
  | CsCons comp rest => if tt comp left right then true else if tt comp right left then false else hc_tt rest left right
  end.

(** TransparentCompositeCompare.h:72-98; std::get<Index> binds a reference and reads nothing *)
Fixpoint hc_tk {T Ks} (cs : comps T Ks) (left : T) : krefs Ks -> res bool :=
  match cs in comps _ Ks return krefs Ks -> res bool with
  | CsNil => fun _ => Ok false
  | CsCons comp rest => fun right_key =>
    let* rk := deref (fst right_key) in
    if tk comp left rk then Ok true else if kt comp rk left then Ok false else hc_tk rest left (snd right_key)
  end.

(** TransparentCompositeCompare.h:100-126 *)
Fixpoint hc_kt {T Ks} (cs : comps T Ks) (right : T) : krefs Ks -> res bool :=
  match cs in comps _ Ks return krefs Ks -> res bool with
  | CsNil => fun _ => Ok false
  | CsCons comp rest => fun left_key =>
    let* lk := deref (fst left_key) in
    if kt comp lk right then Ok true else if tk comp right lk then Ok false else hc_kt rest right (snd left_key)
  end.

(** ** make_key with integer members *)

(** An integer type: its signedness and the number of its bits *)
Record ity := IT { isg : bool; ibits : nat }.
Definition ity_eqb (a b : ity) : bool := Bool.eqb (isg a) (isg b) && Nat.eqb (ibits a) (ibits b).
(** Conversion of a value to a type *)
Definition icast (t : ity) (z : Z) : Z :=
  let m := z mod 2 ^ Z.of_nat (ibits t) in
  if isg t && (2 ^ (Z.of_nat (ibits t) - 1) <=? m) then m - 2 ^ Z.of_nat (ibits t) else m.
(** Integral promotion: what is narrower than int (32 bits) becomes int *)
Definition promote (t : ity) : ity := if (ibits t <? 32)%nat then IT true 32 else t.
(** The usual arithmetic conversions *)
Definition arith (a b : ity) : ity :=
  let p := promote a in let q := promote b in
  if (ibits p <? ibits q)%nat then q
  else if (ibits q <? ibits p)%nat then p
  else IT (isg p && isg q) (ibits p).
(** std::common_reference_t<K &, A> of integer types K and A: of the same type it is K, or a reference if A is an lvalue; of
    different types the type of the conditional expression *)
Definition common (k a : ity) : ity := if ity_eqb k a then k else arith k a.

(** An argument of make_key: its type, whether it is an lvalue, and its value *)
Record karg := KArg { aty : ity; alv : bool; aval : Z }.
(** An element of the tuple that make_key returns, TupleHelpers.h:280: a reference to the argument, which is alive, or a value
    that the tuple owns *)
Inductive kelem := ERef (z : Z) | EOwn (t : ity) (z : Z).
Definition make_elem (k : ity) (a : karg) : kelem :=
  if ity_eqb k (aty a) && alv a then ERef (aval a) else EOwn (common k (aty a)) (icast (common k (aty a)) (aval a)).
(** The conversion of this tuple to key_type for the call of the comparer (TransparentCompositeCompare.h:55-63): a const K & is
    bound to an element of the type K directly.  To an element of another type it is bound by way of a temporary, which is
    destroyed when the constructor of the tuple has initialized the reference.  (C++20; the constructor is deleted in
    C++23, [tuple.cnstr].) *)
Definition bind_elem (k : ity) (e : kelem) : kref Z :=
  match e with
  | ERef z => Live z
  | EOwn t z => if ity_eqb t k then Live z else Dangling
  end.

(** A key with the members of the types [ks] from the arguments [l] *)
Fixpoint zkeys (ks : list ity) : list Type := match ks with [] => [] | _ :: r => @cons Type Z (zkeys r) end.
Fixpoint make_key (ks : list ity) (l : list karg) : krefs (zkeys ks) :=
  match ks, l with
  | k :: ks', a :: l' => (bind_elem k (make_elem k a), make_key ks' l')
  | k :: ks', [] => (Dangling, make_key ks' [])      (* another number of arguments is rejected, TupleHelpers.h:276 *)
  | [], _ => Datatypes.tt
  end.
