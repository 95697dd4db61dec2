(** Specification: which values a type has. *)
From Verif Require Import Common Int2ArrayModel CodecModel.
Local Open Scope Z_scope.

(** Induction over types. *)
Section TyInd.
Context (P : ty -> Prop).
Context (HInt : forall sg w, P (TInt sg w)) (HBool : P TBool) (HEnum : forall sg w c, P (TEnum sg w c))
  (HStr : forall w, P (TStr w)) (HTime : forall k, P (TTime k)) (HOpt : forall t, P t -> P (TOpt t))
  (HArr : forall n t, P t -> P (TArr n t)) (HVec : forall t, P t -> P (TVec t)) (HDeque : forall c t, P t -> P (TDeque c t))
  (HSet : forall c t, P t -> P (TSet c t)) (HMap : forall c k t, P k -> P t -> P (TMap c k t))
  (HVar : forall ts, Forall P ts -> P (TVar ts)) (HTuple : forall ts, Forall P ts -> P (TTuple ts))
  (HStruct : forall sid fs, Forall (fun f => P (snd f)) fs -> P (TStruct sid fs)).
Fixpoint ty_ind' (t : ty) : P t :=
  match t with
  | TInt sg w => HInt sg w
  | TBool => HBool
  | TEnum sg w c => HEnum sg w c
  | TStr w => HStr w
  | TTime k => HTime k
  | TOpt t => HOpt t (ty_ind' t)
  | TArr n t => HArr n t (ty_ind' t)
  | TVec t => HVec t (ty_ind' t)
  | TDeque c t => HDeque c t (ty_ind' t)
  | TSet c t => HSet c t (ty_ind' t)
  | TMap c k t => HMap c k t (ty_ind' k) (ty_ind' t)
  | TVar ts => HVar ts ((fix go l := match l return Forall P l with [] => Forall_nil _ | t :: l => Forall_cons _ (ty_ind' t) (go l) end) ts)
  | TTuple ts => HTuple ts ((fix go l := match l return Forall P l with [] => Forall_nil _ | t :: l => Forall_cons _ (ty_ind' t) (go l) end) ts)
  | TStruct sid fs => HStruct sid fs ((fix go l := match l return Forall (fun f => P (snd f)) l with [] => Forall_nil _ | f :: l => Forall_cons _ (ty_ind' (snd f)) (go l) end) fs)
  end.
End TyInd.

Section Spec.
Context (E : env).
(** A count of elements is a size_t; vectors and strings are allocated at once. *)
Definition small (n : nat) : Prop := Z.of_nat n < 2 ^ 64.
Definition fits (n : nat) : Prop := small n /\ alloc_ok E (Z.of_nat n) = true.

(** Each element comes strictly before those after it. *)
Fixpoint ordered (lt : val -> val -> bool) (key : val -> val) (l : list val) : Prop :=
  match l with
  | [] => True
  | x :: r => (forall y, In y r -> lt (key x) (key y) = true /\ lt (key y) (key x) = false) /\ ordered lt key r
  end.
Fixpoint each (ps : list (val -> Prop)) (l : list val) : Prop :=
  match ps, l with [], [] => True | p :: ps, v :: l => p v /\ each ps l | _, _ => False end.
Definition all : list Prop -> Prop := fold_right and True.

(** The values of a type. *)
Fixpoint has_ty (t : ty) (v : val) : Prop :=
  match t, v with
  | TInt sg w, VInt z => range sg w z
  | TEnum sg w c, VInt z => range sg w z /\ match c with Some c => z < c | None => True end
  | TBool, VBool _ => True
  | TStr w, VStr l => Forall (range false w) l /\ fits (length l) /\
                      match limit E with Some m => (Z.of_nat (length l) * Z.of_nat w) mod 2 ^ 64 <= m | None => True end
  | TTime k, VInt z => - 2 ^ 63 <= z * k < 2 ^ 63
  | TOpt t, VNone => True
  | TOpt t, VSome v => has_ty t v
  | TArr n t, VList l => length l = n /\ Forall (has_ty t) l
  | TVec t, VList l => Forall (has_ty t) l /\ fits (length l)
  | TDeque c t, VList l => Forall (has_ty t) l /\ small (length l) /\ match c with Some c => (length l <= c)%nat | None => True end
  | TSet c t, VList l => Forall (has_ty t) l /\ small (length l) /\ ordered (cmp E c) (fun v => v) l
  | TMap c k t, VList l => Forall (fun p => match p with VPair x y => has_ty k x /\ has_ty t y | _ => False end) l /\ small (length l) /\
                           ordered (cmp E c) pair_key l
  | TVar ts, VVar i v => match nth_error (map has_ty ts) i with Some p => p v | None => False end
  | TTuple ts, VTup l => each (map has_ty ts) l
  | TStruct _ fs, VTup l => each (map (fun f => has_ty (snd f)) fs) l
  | _, _ => False
  end.

(** Objects into which a value can be read without a trace of what they held: optionals
    are empty, and so are the containers that are inserted into. *)
Fixpoint fresh (t : ty) (v : val) : Prop :=
  match t with
  | TInt _ _ | TBool | TEnum _ _ _ | TStr _ | TTime _ | TVar _ => True
  | TOpt _ => v = VNone
  | TArr n t => length (as_list v) = n /\ Forall (fresh t) (as_list v)
  | TVec t => Forall (fresh t) (as_list v)
  | TDeque _ _ | TSet _ _ | TMap _ _ _ => as_list v = []
  | TTuple ts => each (map fresh ts) (as_list v)
  | TStruct _ fs => each (map (fun f => fresh (snd f)) fs) (as_list v)
  end.
(** Types of C++: sizes and capacities are positive, and the default member initializers
    leave optionals and containers empty. *)
Fixpoint wf_ty (t : ty) : Prop :=
  match t with
  | TInt _ w | TEnum _ w _ | TStr w => (0 < w)%nat
  | TBool => True
  | TTime k => 0 < k
  | TOpt t | TArr _ t | TVec t | TSet _ t => wf_ty t
  | TDeque c t => wf_ty t /\ match c with Some c => (0 < c)%nat | None => True end
  | TMap _ k t => wf_ty k /\ wf_ty t
  | TVar ts => all (map wf_ty ts) /\ small (length ts)
  | TTuple ts => all (map wf_ty ts)
  | TStruct sid fs => all (map (fun f => wf_ty (snd f)) fs) /\ each (map (fun f => fresh (snd f)) fs) (init E sid)
  end.

(** Types in which nothing is left over from the object that is read into. *)
Fixpoint replaced (t : ty) : Prop :=
  match t with
  | TInt _ _ | TBool | TEnum _ _ _ | TStr _ | TTime _ | TVar _ => True
  | TArr _ t | TVec t => replaced t
  | TTuple ts => all (map replaced ts)
  | TStruct _ fs => all (map (fun f => replaced (snd f)) fs)
  | _ => False
  end.
(** Types without variants. *)
Fixpoint no_variant (t : ty) : Prop :=
  match t with
  | TInt _ _ | TBool | TEnum _ _ _ | TStr _ | TTime _ => True
  | TOpt t | TArr _ t | TVec t | TDeque _ t | TSet _ t => no_variant t
  | TMap _ k t => no_variant k /\ no_variant t
  | TVar _ => False
  | TTuple ts => all (map no_variant ts)
  | TStruct _ fs => all (map (fun f => no_variant (snd f)) fs)
  end.
End Spec.
