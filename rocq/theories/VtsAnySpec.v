(** Specification for reading the data of any version by any other version: how the bytes
    of a type are laid out, and which structures of the data meet which structures of the
    program that reads them. *)
From Verif Require Import Common CodecModel CodecSpec VtsModel VtsSpec.
Local Open Scope Z_scope.

(** The layout of the bytes of a type.  Unlike its name, it tells packed bools
    (vector<bool>, array<bool, n>, bitset) from bytes. *)
Inductive layout :=
| LInt (w : nat)
| LOpt (l : layout)
| LArr (n : nat) (l : layout)
| LBits (n : nat)
| LSeq (l : layout)
| LBitSeq
| LVar (l : list layout)
| LTup (l : list layout)
| LStruct.
Fixpoint layout_of (t : ty) : layout :=
  match t with
  | TInt _ w | TEnum _ w _ => LInt w
  | TBool => LInt 1
  | TTime _ => LInt 8
  | TStr w => LSeq (LInt w)
  | TOpt t => LOpt (layout_of t)
  | TArr n TBool => LBits n
  | TArr n t => LArr n (layout_of t)
  | TVec TBool => LBitSeq
  | TVec t | TDeque _ t | TSet _ t => LSeq (layout_of t)
  | TMap _ k v => LSeq (LTup [layout_of k; layout_of v])
  | TVar ts => LVar (map layout_of ts)
  | TTuple ts => LTup (map layout_of ts)
  | TStruct _ _ => LStruct
  end.
(** Types with one name have one layout. *)
Definition faithful (O N : schema) (type_map : fname -> fname) : Prop :=
  forall t u, In t (ftypes O) -> In u (ftypes N) -> type_map (type_name t) = type_name u -> layout_of t = layout_of u.
(** Objects that can be read into: arrays and structures have as many elements as their types say. *)
Fixpoint sized (t : ty) (v : val) : Prop :=
  match t with
  | TArr n t => length (as_list v) = n /\ Forall (sized t) (as_list v)
  | TVec t => Forall (sized t) (as_list v)
  | TTuple ts => each (map sized ts) (as_list v)
  | TStruct _ fs => each (map (fun f => sized (snd f)) fs) (as_list v)
  | _ => True
  end.
(** A program that can read: default member initializers fit, the types of the fields are its types. *)
Definition readable (E : env) (N : schema) : Prop :=
  (forall sid fs, nth_error (structs N) sid = Some fs -> each (map (fun f => sized (snd f)) fs) (init E sid)) /\ (forall t, In t (ftypes N) -> in_schema N t).

(** The elements of a sequence *)
Definition elem (t : ty) : option ty := match t with TVec t | TDeque _ t | TSet _ t => Some t | _ => None end.
Section Meets.
Context (rename : nat -> fname -> fname).
(** [meets t v u p q]: in the value [v] of the old type [t] there is an old structure [p]
    that has to be read into the new structure [q] when [v] is read into the new type [u]. *)
Inductive meets : ty -> val -> ty -> nat -> nat -> Prop :=
| meets_here p fs l q gs : meets (TStruct p fs) (VTup l) (TStruct q gs) p q
| meets_field s fs l s' gs i n a x j n' b p q :
    nth_error fs i = Some (n, a) -> nth_error l i = Some x -> index_of (rename s' n) gs = Some j -> nth_error gs j = Some (n', b) ->
    meets a x b p q -> meets (TStruct s fs) (VTup l) (TStruct s' gs) p q
| meets_optional a x b p q : meets a x b p q -> meets (TOpt a) (VSome x) (TOpt b) p q
| meets_array n a l m b x p q : In x l -> meets a x b p q -> meets (TArr n a) (VList l) (TArr m b) p q
| meets_element t a l u b x p q : elem t = Some a -> elem u = Some b -> In x l -> meets a x b p q -> meets t (VList l) u p q
| meets_key c a a' l d b b' x y p q : In (VPair x y) l -> meets a x b p q -> meets (TMap c a a') (VList l) (TMap d b b') p q
| meets_value c a a' l d b b' x y p q : In (VPair x y) l -> meets a' y b' p q -> meets (TMap c a a') (VList l) (TMap d b b') p q
| meets_variant ts i x us a b p q : nth_error ts i = Some a -> nth_error us i = Some b -> meets a x b p q -> meets (TVar ts) (VVar i x) (TVar us) p q.
End Meets.
