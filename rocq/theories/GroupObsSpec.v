(** What an observer knows from the calls it has received, and the elements of the source. *)
From Verif Require Import Common ObsThrowModel GroupObsModel.
From Coq Require Import Sorting.Permutation.

Section Spec.
Context {T : Type} (fk : T -> Z).

(** The element z has been added and not removed; the latest call is the first one. *)
Fixpoint shows (l : list (call (T := T))) (z : T) : Prop :=
  match l with
  | [] => False
  | KAdded v :: r => z = v \/ shows r z
  | KRemoving v :: r => z <> v /\ shows r z
  | KClearing :: r => False
  end.
(** A group of elements with the foreign key k has been added and not removed. *)
Definition has_key (g : list T) (k : Z) : Prop := exists x, In x g /\ fk x = k.
Fixpoint wshows (l : list (gcall (T := T))) (k : Z) : Prop :=
  match l with
  | [] => False
  | GAdded g :: r => has_key g k \/ wshows r k
  | GRemoving g :: r => ~ has_key g k /\ wshows r k
  | GClearing :: r => False
  end.

(** The elements of the source after the notifications *)
Inductive elements : list T -> list (fop (T := T)) -> list T -> Prop :=
| El_nil zs : elements zs [] zs
| El_add zs v os zs' : elements (v :: zs) os zs' -> elements zs (FAdd v :: os) zs'
| El_remove zs v zs1 os zs' : Permutation zs (v :: zs1) -> elements zs1 os zs' -> elements zs (FRemove v :: os) zs'
| El_clear zs os zs' : elements [] os zs' -> elements zs (FClear :: os) zs'
| El_observe zs i k os zs' : elements zs os zs' -> elements zs (FObserve i k :: os) zs'
| El_watch zs i os zs' : elements zs os zs' -> elements zs (FWatch i :: os) zs'
| El_leave zs i os zs' : elements zs os zs' -> elements zs (FLeave i :: os) zs'.
End Spec.
