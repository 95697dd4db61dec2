(** Specification of the update queue: two plain queues of updates. *)
From Verif Require Import Common UQueueModel.

Section Spec.
Context {U : Type}.

Inductive sphase := SOutside | SLoop (todo : list U) | SInCall (todo : list U).
Record sq := { waiting : list U; phase_ : sphase }.
Definition sq0 : sq := {| waiting := []; phase_ := SOutside |}.

(** [None]: not a schedule of a program with one applying thread that does not call
    ApplyUpdates from an update. *)
Definition sqstep (s : sq) (o : uop (U := U)) : option (sq * uobs (U := U)) :=
  match o, phase_ s with
  | UPush u, _ => Some ({| waiting := waiting s ++ [u]; phase_ := phase_ s |}, UNone)
  | UClearPending, _ => Some ({| waiting := []; phase_ := phase_ s |}, UNone)
  | UPrepare, SOutside => Some ({| waiting := []; phase_ := SLoop (waiting s) |}, UNone)
  | UCall, SLoop (u :: l) => Some ({| waiting := waiting s; phase_ := SInCall l |}, UApplied u)
  | UNext, SInCall l => Some ({| waiting := waiting s; phase_ := SLoop l |}, UNone)
  | UThrow, SInCall _ => Some ({| waiting := waiting s; phase_ := SOutside |}, UThrown)
  | UFinish, SLoop [] => Some ({| waiting := waiting s; phase_ := SOutside |}, UNone)
  | _, _ => None
  end.
Fixpoint sqrun (s : sq) (os : list (uop (U := U))) : option (sq * list (uobs (U := U))) :=
  match os with
  | [] => Some (s, [])
  | o :: os' =>
      match sqstep s o with
      | None => None
      | Some (s1, v) => match sqrun s1 os' with Some (s2, vs) => Some (s2, v :: vs) | None => None end
      end
  end.

(** What was pushed, what was applied, what is still in flight. *)
Fixpoint pushed (os : list (uop (U := U))) : list U :=
  match os with [] => [] | UPush u :: r => u :: pushed r | _ :: r => pushed r end.
Fixpoint applied (vs : list (uobs (U := U))) : list U :=
  match vs with [] => [] | UApplied u :: r => u :: applied r | _ :: r => applied r end.
Definition in_flight (s : sq) : list U :=
  match phase_ s with SOutside => [] | SLoop l | SInCall l => l end ++ waiting s.
Definition discards (o : uop (U := U)) : bool := match o with UClearPending | UThrow => true | _ => false end.

Inductive subseq : list U -> list U -> Prop :=
| sub_nil : subseq [] []
| sub_skip x a b : subseq a b -> subseq a (x :: b)
| sub_keep x a b : subseq a b -> subseq (x :: a) (x :: b).
End Spec.
