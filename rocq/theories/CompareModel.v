(** Model of the comparers: Awl/KeyCompare.h, CompositeCompare.h,
    TransparentCompositeCompare.h, ReverseCompare.h and those of Awl/String.h. *)
From Verif Require Import Common.
Local Open Scope Z_scope.

(** A transparent comparer: elements, an element and a key, a key and an element. *)
Record tcmp (T K : Type) := { tt : T -> T -> bool; tk : T -> K -> bool; kt : K -> T -> bool }.
Arguments tt {T K} _ _ _. Arguments tk {T K} _ _ _. Arguments kt {T K} _ _ _.
Arguments Build_tcmp {T K} _ _ _.

(** KeyCompare.h:44-57.  The specializations for pointers (:89-102, 132-145, 170-183) do
    the same with the object, which must not be null: [deref] stands for it (the identity
    in the primary template). *)
Definition key_compare {P T K} (deref : P -> T) (get_key : T -> K) (comp : K -> K -> bool) : tcmp P K :=
  {| tt := fun left right => comp (get_key (deref left)) (get_key (deref right));
     tk := fun val id => comp (get_key (deref val)) id;
     kt := fun id val => comp id (get_key (deref val)) |}.

(** CompositeCompare.h:27-61; the tuple of comparers is a list *)
Fixpoint composite {T} (comps : list (T -> T -> bool)) (left right : T) : bool :=
  match comps with
  | [] => false
  | comp :: rest => if comp left right then true else if comp right left then false else composite rest left right
  end.

(** TransparentCompositeCompare.h:51-128; the tuple of keys is a list, and the keys of all
    comparers are in one type; CompKeyModel.v has keys of different types *)
Fixpoint composite_tk {T K} (comps : list (tcmp T K)) (left : T) (right_key : list K) : bool :=
  match comps, right_key with
  | comp :: rest, key :: rk => if tk comp left key then true else if kt comp key left then false else composite_tk rest left rk
  | _, _ => false
  end.
Fixpoint composite_kt {T K} (comps : list (tcmp T K)) (left_key : list K) (right : T) : bool :=
  match comps, left_key with
  | comp :: rest, key :: lk => if kt comp key right then true else if tk comp right key then false else composite_kt rest lk right
  | _, _ => false
  end.
Definition transparent_composite {T K} (comps : list (tcmp T K)) : tcmp T (list K) :=
  {| tt := composite (map tt comps); tk := composite_tk comps; kt := composite_kt comps |}.

(** ReverseCompare.h:22-25 *)
Definition reverse {T} (comp : T -> T -> bool) (left right : T) : bool := comp right left.
(** ReverseCompare.h:47-60 *)
Definition transparent_reverse {T K} (comp : tcmp T K) : tcmp T K :=
  {| tt := fun left right => tt comp right left; tk := fun val id => kt comp id val; kt := fun id val => tk comp val id |}.

(** ** Strings without regard to case, String.h:113-160.  A C string is the list of its
    characters before the terminating zero.  [lower] is std::tolower, whose argument must
    be an unsigned char or EOF: with another character (a negative char) the behaviour is
    undefined. *)
Section Strings.
Context (lower : Z -> Z).
Definition tolower (c : Z) : res Z := if (-1 <=? c) && (c <? 256) then Ok (lower c) else UB.
(** CStringInsensitiveLess, :116-132 *)
Fixpoint insensitive_less (ls rs : list Z) : res bool :=
  match ls, rs with
  | l :: ls, r :: rs =>
    let* a := tolower l in let* b := tolower r in
    if a - b =? 0 then insensitive_less ls rs else Ok (a - b <? 0)
  | _, [] => Ok false
  | [], _ :: _ => Ok true
  end.
(** StringInsensitiveEqual, :154-161; std::equal stops at the first difference *)
Fixpoint equal_chars (a b : list Z) : res bool :=
  match a, b with
  | x :: a, y :: b => let* p := tolower x in let* q := tolower y in if p =? q then equal_chars a b else Ok false
  | _, _ => Ok true
  end.
Definition insensitive_equal (a b : list Z) : res bool := if Nat.eqb (length a) (length b) then equal_chars a b else Ok false.
End Strings.
