(** The set of the elements of a list, in terms of the order only. *)
From Verif Require Import Common.
From Coq Require Import Sorted.

Section Spec.
Context {T : Type} (lt : T -> T -> bool).
Definition same (x y : T) : Prop := lt x y = false /\ lt y x = false.
(** x is the first of its equals *)
Definition leader (vs : list T) (x : T) : Prop := exists p q, vs = p ++ x :: q /\ forall y, In y p -> ~ same x y.
Definition set_of (vs l : list T) : Prop := StronglySorted (fun x y => lt x y = true) l /\ forall x, In x l <-> leader vs x.
End Spec.
