(** Model of Awl/Mp/TypeCollector.h, TupleToVariant.h, VariantFromStructs.h, of the types in
    Awl/Io/PrototypeContainer.h and find_variant_type_v (C68), and of Awl/Io/TypeIndex.h (C69).

    A structure is identified by the number in TStruct; references and const are not modelled.
    Structures that contain themselves through a container have no tree, and the compiler does
    not terminate with them. *)
From Verif Require Import Common CodecModel VtsModel VtsSpec.

(** std::is_arithmetic_v *)
Definition arithmetic (t : ty) : bool := match t with TInt _ _ | TBool => true | _ => false end.

Section Types.
(** type_converter<T>::extra_tuple of a structure, TypeConverter.h *)
Context (extra : nat -> list ty).
(** type_collector, TypeCollector.h:22-78, with inner_tuple of TypeDescriptor.h:92-294 *)
Fixpoint collect (t : ty) : list ty :=
  match t with
  | TInt _ _ | TBool | TEnum _ _ _ => [t]
  | TStr _ => [t]                                                 (* :58-63 *)
  | TTime _ => [t; TInt true 8]
  | TOpt u | TDeque _ u | TSet _ u => t :: collect u
  | TVec u | TArr _ u => if arithmetic u then [t] else t :: collect u   (* :65-78 *)
  | TMap _ k v => t :: collect k ++ collect v                     (* :49-56 *)
  | TVar ts => t :: concat (map collect ts)
  | TTuple ts => concat (map collect ts)                          (* :41-47 *)
  | TStruct sid fs => t :: concat (map (fun f => collect (snd f)) fs) ++ extra sid    (* :30-39 *)
  end.
(** variant_contains, TupleToVariant.h:14-21 *)
Definition contains (v : list ty) (t : ty) : bool := existsb (fun u => ty_eqb u t) v.
(** tuple_to_variant, TupleToVariant.h:87-108 *)
Fixpoint convert (v : list ty) (l : list ty) : list ty :=
  match l with
  | [] => v
  | h :: r => if negb (contains v h) then convert (v ++ [h]) r else convert v r
  end.
(** VariantFromStructs.h:13-14 *)
Definition variant_from_struct (t : ty) : list ty := convert [] (collect t).
(** split_variant, TupleToVariant.h:45-66; the variants that remain empty contain a
    monostate instead, which is not modelled *)
Fixpoint split (p : ty -> bool) (v1 v2 l : list ty) : list ty * list ty :=
  match l with
  | [] => (v1, v2)
  | h :: r => if p h then split p (v1 ++ [h]) v2 r else split p v1 (v2 ++ [h]) r
  end.
Definition structs_and_fields (t : ty) : list ty * list ty := split is_struct [] [] (variant_from_struct t).
(** find_variant_type_v, TupleHelpers.h:221-230: None is the failed static_assert *)
Definition matches (t : ty) (v : list ty) : list nat := filter (fun k => match nth_error v k with Some u => ty_eqb t u | None => false end) (seq 0 (length v)).
Definition find_variant_type (t : ty) (v : list ty) : option nat :=
  if Nat.eqb (length (matches t v)) 1 then Some (fold_left Nat.max (matches t v) O) else None.
(** StructIndex, PrototypeContainer.h:37-38: the numbers of the structures in the model of the
    reader and the writer are these indices *)
Definition struct_number (t : ty) (sid : nat) (fs : list (fname * ty)) : nat :=
  match find_variant_type (TStruct sid fs) (fst (structs_and_fields t)) with Some k => k | None => O end.
Fixpoint numbered (num : nat -> list (fname * ty) -> nat) (t : ty) : ty :=
  match t with
  | TOpt u => TOpt (numbered num u)
  | TArr n u => TArr n (numbered num u)
  | TVec u => TVec (numbered num u)
  | TDeque c u => TDeque c (numbered num u)
  | TSet c u => TSet c (numbered num u)
  | TMap c k v => TMap c (numbered num k) (numbered num v)
  | TVar ts => TVar (map (numbered num) ts)
  | TTuple ts => TTuple (map (numbered num) ts)
  | TStruct sid fs => TStruct (num sid fs) (map (fun f => (fst f, numbered num (snd f))) fs)
  | t => t
  end.
Definition fields_of (t : ty) : list (fname * ty) := match t with TStruct _ fs => fs | _ => [] end.
Definition schema_of (t : ty) : schema :=
  {| structs := map (fun s => fields_of (numbered (struct_number t) s)) (fst (structs_and_fields t));
     ftypes := map (numbered (struct_number t)) (snd (structs_and_fields t)) |}.
End Types.

(** ** TypeIndex.h:12-79 *)
(** countof_fields, :12-31.  A structure without fields does not compile. *)
Fixpoint countof_fields (t : ty) : nat :=
  match t with TStruct _ fs => fold_right (fun f n => (countof_fields (snd f) + n)%nat) O fs | _ => 1%nat end.
(** indexof_type, :33-79; None is no_type_index.  [i] is the index of the first of these
    fields, [pred] the number of the fields in those before. *)
Fixpoint indexof_type (field : ty) (t : ty) : option nat :=
  match t with
  | TStruct _ fs =>
    (fix go (l : list (fname * ty)) (pred : nat) : option nat :=
       match l with
       | [] => None
       | f :: r => match indexof_type field (snd f) with Some local => Some (pred + local)%nat | None => go r (pred + countof_fields (snd f))%nat end
       end) fs O
  | t => if ty_eqb field t then Some O else None
  end.
