(** Specification of the version tolerant reading: how a value of an old version of a type
    becomes a value of the new version. *)
From Verif Require Import Common Int2ArrayModel CodecModel CodecSpec VtsModel.
Local Open Scope Z_scope.

Fixpoint all2 {A B} (p : A -> B -> Prop) (l : list A) (m : list B) : Prop :=
  match l, m with [], [] => True | x :: l, y :: m => p x y /\ all2 p l m | _, _ => False end.
Fixpoint all3 {A B C} (p : A -> B -> C -> Prop) (l : list A) (m : list B) (n : list C) : Prop :=
  match l, m, n with [], [], [] => True | x :: l, y :: m, z :: n => p x y z /\ all3 p l m n | _, _, _ => False end.
Definition is_struct (t : ty) : bool := match t with TStruct _ _ => true | _ => false end.
(** The position of a field with the name. *)
Definition index_of (n : fname) (fs : list (fname * ty)) : option nat := find_first (fun f => fname_eqb (fst f) n) fs.

(** A structure in which nothing is set: optionals and containers are empty. *)
Fixpoint blank (t : ty) (v : val) : Prop :=
  match t with
  | TInt _ _ | TBool | TEnum _ _ _ | TStr _ | TTime _ | TVar _ => True
  | TOpt _ => v = VNone
  | TArr n t => length (as_list v) = n /\ Forall (blank t) (as_list v)
  | TVec _ | TDeque _ _ | TSet _ _ | TMap _ _ _ => as_list v = []
  | TTuple ts => each (map blank ts) (as_list v)
  | TStruct _ fs => each (map (fun f => blank (snd f)) fs) (as_list v)
  end.

Section Spec.
Context (E : env) (N : schema) (rename : nat -> fname -> fname) (type_map : fname -> fname).
(** [rho] tells which new structure an old one has become. *)
Context (rho : nat -> nat).

(** Types with one name; any structure can become any other. *)
Definition same_name (t1 t2 : ty) : Prop := is_struct t1 = is_struct t2 /\ type_map (type_name t1) = type_name t2.
(** The first of the new types with the name of an old one. *)
Definition known_type (t1 : ty) : option nat := find_first (fun t => fname_eqb (type_name t) (type_map (type_name t1))) (ftypes N).

(** [mig t1 v1 (Some (t2, d, v2))]: the value [v1] of the old type [t1] becomes [v2] of the
    new type [t2] when it is read into [d].  Fields go to the fields with the (mapped)
    name, the other new fields are left as they were, and the rest is the same.
    [mig t1 v1 None]: the value can be skipped, because the first new type that has the
    name of its type can read it; a structure can be skipped if its fields can. *)
Fixpoint mig (t1 : ty) (v1 : val) (tgt : option (ty * val * val)) {struct t1} : Prop :=
  let go (t2 : ty) (d v2 : val) : Prop :=
    match t1, t2 with
    | TOpt a, TOpt b =>
      d = VNone /\ match v1, v2 with VNone, VNone => True | VSome x, VSome y => mig a x (Some (b, default E b, y)) | _, _ => False end
    | TArr n a, TArr m b =>
      match v1, v2 with VList l1, VList l2 => n = m /\ all3 (fun x d y => mig a x (Some (b, d, y))) l1 (as_list d) l2 | _, _ => False end
    | TVec a, TVec b =>
      match v1, v2 with
      | VList l1, VList l2 => as_list d = [] /\ fits E (length l1) /\ all2 (fun x y => mig a x (Some (b, default E b, y))) l1 l2
      | _, _ => False
      end
    | TDeque _ a, TDeque c b =>
      match v1, v2 with
      | VList l1, VList l2 => as_list d = [] /\ small (length l1) /\ match c with Some c => (length l1 <= c)%nat | None => True end /\
                              all2 (fun x y => mig a x (Some (b, default E b, y))) l1 l2
      | _, _ => False
      end
    | TSet _ a, TSet c b =>
      match v1, v2 with
      | VList l1, VList l2 => as_list d = [] /\ small (length l1) /\ ordered (cmp E c) (fun v => v) l2 /\
                              all2 (fun x y => mig a x (Some (b, default E b, y))) l1 l2
      | _, _ => False
      end
    | TMap _ a a', TMap c b b' =>
      match v1, v2 with
      | VList l1, VList l2 => as_list d = [] /\ small (length l1) /\ ordered (cmp E c) pair_key l2 /\
                              all2 (fun x y => match x, y with VPair k v, VPair k' v' => mig a k (Some (b, default E b, k')) /\ mig a' v (Some (b', default E b', v'))
                                               | _, _ => False end) l1 l2
      | _, _ => False
      end
    | TVar ts, TVar us =>
      match v1, v2 with
      | VVar i x, VVar j y => i = j /\ small (length us) /\
        match nth_error us i with
        | Some u => match nth_error (map mig ts) i with Some m => m x (Some (u, default E u, y)) | None => False end
        | None => False
        end
      | _, _ => False
      end
    | TStruct s1 fs1, TStruct s2 fs2 =>
      match v1, v2 with
      | VTup l1, VTup l2 =>
        rho s1 = s2 /\ nth_error (structs N) s2 = Some fs2 /\ (fs1 = [] -> fs2 = []) /\
        NoDup (map (fun f => rename s2 (fst f)) fs1) /\
        length l2 = length fs2 /\ length (as_list d) = length fs2 /\
        (* every old field goes to the new field with its name, or is skipped *)
        (fix fields (fs : list (fname * ty)) (l : list val) : Prop :=
           match fs, l with
           | [], [] => True
           | f :: fs, x :: l =>
             match index_of (rename s2 (fst f)) fs2 with
             | Some j => exists t e y, nth_error (map snd fs2) j = Some t /\ nth_error (as_list d) j = Some e /\ nth_error l2 j = Some y /\
                                       same_name (snd f) t /\ mig (snd f) x (Some (t, e, y))
             | None => mig (snd f) x None
             end /\ fields fs l
           | _, _ => False
           end) fs1 l1 /\
        (* the new fields without an old one stay as they were *)
        (forall j, (forall f, In f fs1 -> index_of (rename s2 (fst f)) fs2 <> Some j) -> nth_error l2 j = nth_error (as_list d) j)
      | _, _ => False
      end
    | TInt _ _, _ | TBool, _ | TEnum _ _ _, _ | TStr _, _ | TTime _, _ => t2 = t1 /\ has_ty E t1 v1 /\ v2 = v1
    | _, _ => False
    end in
  match tgt with
  | Some (t2, d, v2) => go t2 d v2
  | None =>
    match t1, v1 with
    | TStruct _ fs, VTup l =>
      (fix fields (fs : list (fname * ty)) (l : list val) : Prop :=
         match fs, l with [], [] => True | f :: fs, x :: l => mig (snd f) x None /\ fields fs l | _, _ => False end) fs l
    | TStruct _ _, _ => False
    | _, _ => exists k t2 v2, known_type t1 = Some k /\ nth_error (ftypes N) k = Some t2 /\ go t2 (default E t2) v2
    end
  end.

(** Types that are the same in both programs. *)
Fixpoint unchanged (t : ty) : Prop :=
  match t with
  | TInt _ _ | TBool | TEnum _ _ _ | TStr _ | TTime _ => True
  | TOpt t | TArr _ t | TVec t | TDeque _ t | TSet _ t => unchanged t
  | TMap _ k t => unchanged k /\ unchanged t
  | TVar ts => all (map unchanged ts)
  | TTuple _ => False
  | TStruct sid fs =>
    rho sid = sid /\ nth_error (structs N) sid = Some fs /\ NoDup (map fst fs) /\
    (forall f, In f fs -> rename sid (fst f) = fst f /\ type_map (type_name (snd f)) = type_name (snd f)) /\ all (map (fun f => unchanged (snd f)) fs)
  end.

(** [evolves t1 (Some t2)]: the new type [t2] can take the values of the old [t1];
    [evolves t1 None]: they can be skipped. *)
Fixpoint evolves (t1 : ty) (tgt : option ty) {struct t1} : Prop :=
  let go (t2 : ty) : Prop :=
    match t1, t2 with
    | TOpt a, TOpt b | TVec a, TVec b => evolves a (Some b)
    | TArr n a, TArr m b => n = m /\ evolves a (Some b)
    | TDeque c a, TDeque c' b => match c', c with None, _ => True | Some y, Some x => (x <= y)%nat | Some _, None => False end /\ evolves a (Some b)
    | TSet c a, TSet c' b => c = c' /\ a = b /\ unchanged a
    | TMap c k a, TMap c' k' b => c = c' /\ k = k' /\ unchanged k /\ evolves a (Some b)
    | TVar ts, TVar us =>
      (fix alts (ts us : list ty) : Prop := match ts, us with [], _ => True | t :: ts, u :: us => evolves t (Some u) /\ alts ts us | _, [] => False end) ts us
    | TStruct s1 fs1, TStruct s2 fs2 =>
      rho s1 = s2 /\ nth_error (structs N) s2 = Some fs2 /\ (fs1 = [] -> fs2 = []) /\ NoDup (map (fun f => rename s2 (fst f)) fs1) /\
      (fix fields (fs : list (fname * ty)) : Prop :=
         match fs with
         | [] => True
         | f :: fs => match index_of (rename s2 (fst f)) fs2 with
                      | Some j => exists t, nth_error (map snd fs2) j = Some t /\ same_name (snd f) t /\ evolves (snd f) (Some t)
                      | None => evolves (snd f) None
                      end /\ fields fs
         end) fs1
    | TInt _ _, _ | TBool, _ | TEnum _ _ _, _ | TStr _, _ | TTime _, _ => t2 = t1
    | _, _ => False
    end in
  match tgt with
  | Some t2 => go t2
  | None =>
    match t1 with
    | TStruct _ fs => (fix fields (fs : list (fname * ty)) : Prop := match fs with [] => True | f :: fs => evolves (snd f) None /\ fields fs end) fs
    | _ => exists k t2, known_type t1 = Some k /\ nth_error (ftypes N) k = Some t2 /\ go t2
    end
  end.
End Spec.

(** The types of a program are those of C++, and its structures are in its schema. *)
Section InSchema.
Context (O : schema).
Fixpoint in_schema (t : ty) : Prop :=
  match t with
  | TInt _ w | TEnum _ w _ | TStr w => (0 < w)%nat
  | TBool => True
  | TTime k => 0 < k
  | TOpt t | TArr _ t | TVec t | TDeque _ t | TSet _ t => in_schema t
  | TMap _ k t => in_schema k /\ in_schema t
  | TVar ts => all (map in_schema ts) /\ small (length ts)
  | TTuple ts => all (map in_schema ts)
  | TStruct sid fs => nth_error (structs O) sid = Some fs /\ all (map (fun f => in_schema (snd f)) fs)
  end.
(** The types of the fields are in the schema, too. *)
Definition closed : Prop := forall fs f, In fs (structs O) -> In f fs -> is_struct (snd f) = false -> In (snd f) (ftypes O).
(** Everything has an index. *)
Definition indexable : Prop := Z.of_nat (length (structs O)) < 2 ^ 16 /\ Z.of_nat (length (ftypes O)) < 2 ^ 64 - 1.
End InSchema.
(** Every type of a field of an old structure has a namesake among the new types. *)
Definition known_types (O N : schema) (type_map : fname -> fname) : Prop :=
  forall fs f, In fs (structs O) -> In f fs -> is_struct (snd f) = false -> known_type N type_map (snd f) <> None.

(** The contents of Metadata: the names of the types, and the names and type indices of the fields of the structures. *)
Definition meta_val (O : schema) : val :=
  VTup [VList (map (fun t => VStr (type_name t)) (ftypes O));
        VList (map (fun fs => VTup [VList (map (fun f => VTup [VStr (fst f); VInt (type_code (field_type O (snd f)))]) fs)]) (structs O))].
(** A program whose types can be described by Metadata *)
Definition program (E : env) (P : schema) : Prop := closed P /\ indexable P /\ has_ty E meta_ty (meta_val P).
(** Default member initializers of the new structures leave optionals and containers empty; the field types are types of the program. *)
Definition initialized (E : env) (N : schema) : Prop :=
  (forall sid fs, nth_error (structs N) sid = Some fs -> each (map (fun f => blank (snd f)) fs) (init E sid)) /\ (forall t, In t (ftypes N) -> in_schema N t).
