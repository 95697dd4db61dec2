(** Which source a foreign_set follows, and the elements of the sources, without observers and groups. *)
From Verif Require Import Common ObsThrowModel GroupObsModel GroupObsSpec GroupMoveModel.

Section Spec.
Context {T : Type} (pk fk : T -> Z).
(** The elements of each source and the source that each foreign_set follows *)
Record ast := Ast { els : nat -> list T; from : nat -> option nat }.
Definition ainit : ast := Ast (fun _ => []) (fun _ => None).
Definition has_pk (k : Z) (zs : list T) : bool := existsb (fun y => Z.eqb (pk y) k) zs.
(** The sources of the foreign_sets, when the sources are renamed *)
Definition renamed (h : nat -> option nat) (o : option nat) : option nat := match o with Some a => h a | None => None end.

Definition astep (o : wop (T := T)) (s : ast) : ast :=
  match o with
  | WInsert a v => if has_pk (pk v) (els s a) then s else Ast (upd (els s) a (v :: els s a)) (from s)
  | WErase a k => Ast (upd (els s) a (filter (fun y => negb (Z.eqb (pk y) k)) (els s a))) (from s)
  | WClear a => Ast (upd (els s) a []) (from s)
  | WMove a b => Ast (upd (upd (els s) b (els s a)) a []) (fun f => renamed (fun x => Some (if x =? a then b else x)) (from s f))
  | WAssign a b =>
      if a =? b then Ast (upd (els s) a []) (fun f => renamed (fun x => if x =? a then None else Some x) (from s f))
      else Ast (upd (upd (els s) a (els s b)) b []) (fun f => renamed (fun x => if x =? a then None else Some (if x =? b then a else x)) (from s f))
  | WDestroy a => Ast (upd (els s) a []) (fun f => renamed (fun x => if x =? a then None else Some x) (from s f))
  | GFrom f a => Ast (els s) (upd (from s) f (Some a))
  | GMove f g => Ast (els s) (upd (upd (from s) g (from s f)) f None)
  | GAssign f g => Ast (els s) (if f =? g then upd (from s) f None else upd (upd (from s) f (from s g)) g None)
  | GDestroy f => Ast (els s) (upd (from s) f None)
  | WNew _ | GNew _ | GObserve _ _ _ | GWatch _ _ | GLeave _ => s
  end.
Definition arun (os : list (wop (T := T))) : ast := fold_left (fun s o => astep o s) os ainit.
(** The elements that a foreign_set has to show *)
Definition shown (s : ast) (f : nat) : list T := match from s f with Some a => els s a | None => [] end.

(** The foreign_sets whose observers an operation may call *)
Definition concerns (s : ast) (o : wop (T := T)) (f : nat) : Prop :=
  match o with
  | WInsert a _ | WErase a _ | WClear a | WAssign a _ | WDestroy a => from s f = Some a
  | GAssign g _ | GDestroy g => f = g
  | _ => False
  end.

(** The observer that an operation is about *)
Definition own_observer (o : wop (T := T)) (i : nat) : Prop := match o with GObserve j _ _ | GWatch j _ | GLeave j => i = j | _ => False end.

(** The objects are there, or their places are free; an observer that begins to observe does not observe anything, and a group that it
    observes exists. *)
Definition observed_by (s : wst (T := T)) (i : nat) : Prop :=
  exists f gs w, fss s f = Some (gs, w) /\ ((exists g os, In (g, os) gs /\ In i os) \/ In i w).
Definition valid (s : wst (T := T)) (a : ast) (o : wop (T := T)) : Prop :=
  match o with
  | WNew x => srcs s x = None
  | WInsert x _ | WErase x _ | WClear x | WDestroy x => srcs s x <> None
  | WMove x y => srcs s x <> None /\ srcs s y = None
  | WAssign x y => srcs s x <> None /\ srcs s y <> None
  | GNew f => fss s f = None
  | GFrom f x => srcs s x <> None /\ fss s f = None
  | GMove f g => fss s f <> None /\ fss s g = None
  | GAssign f g => fss s f <> None /\ fss s g <> None
  | GDestroy f => fss s f <> None
  | GObserve i f k => fss s f <> None /\ ~ observed_by s i /\ exists z, In z (shown a f) /\ fk z = k
  | GWatch i f => fss s f <> None /\ ~ observed_by s i
  | GLeave _ => True
  end.
End Spec.
