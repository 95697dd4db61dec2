(** Model of coroutines that wait on the timer queue: Awl/Testing/TimeQueue.h:57-94 (TimeAwaitable, co_await of a duration) with the
    queue of the lines 16-55 (C41), and std::chrono::nanoseconds of 64 bits.

    A coroutine is a number and the list of the durations that it awaits one after the other.  It is eager: it runs until it waits
    (UpdateTask, C51).  One step is one co_await, one iteration of loop() or the passing of time. *)
From Verif Require Import Common.
Open Scope Z_scope.

Definition max_ns : Z := 2 ^ 63 - 1.
Record cot := Cot { ctarget : Z; chandle : nat; crest : list Z }.   (* Task, 46-50, and what the coroutine will await afterwards *)
Inductive cevent :=
| Started (h : nat) (ds : list Z) (t : Z)
| Finished (h : nat) (t : Z)
| Resumed (h : nat) (t : Z)
| Slept (until woken : Z)
| Quiet.
Record cstate := CState { cnow : Z; crun : option (nat * list Z); cqueue : list cot }.
Definition cinit (t : Z) : cstate := CState t None [].

(** 52: the top of the priority queue has the largest targetTime, see C41 *)
Definition ctop (q : list cot) (x : cot) : Prop := In x q /\ forall y, In y q -> (ctarget x <? ctarget y) = false.

(** None: undefined behaviour *)
Inductive cstep : cstate -> cevent -> option cstate -> Prop :=
| CStart s h ds : crun s = None -> cstep s (Started h ds (cnow s)) (Some (CState (cnow s) (Some (h, ds)) (cqueue s)))
| CReady s h d r : crun s = Some (h, d :: r) -> d <= 0 ->                                   (* await_ready, 67-70 *)
    cstep s Quiet (Some (CState (cnow s) (Some (h, r)) (cqueue s)))
| CWait s h d r : crun s = Some (h, d :: r) -> 0 < d -> cnow s + d <= max_ns ->             (* await_suspend, 73-77, push, 20-23 *)
    cstep s Quiet (Some (CState (cnow s) None (Cot (cnow s + d) h r :: cqueue s)))
| COverflow s h d r : crun s = Some (h, d :: r) -> 0 < d -> max_ns < cnow s + d -> cstep s Quiet None
| CEnd s h : crun s = Some (h, []) -> cstep s (Finished h (cnow s)) (Some (CState (cnow s) None (cqueue s)))
| CTick s t : cnow s <= t -> cstep s Quiet (Some (CState t (crun s) (cqueue s)))
| CResume s x l1 l2 : crun s = None -> cqueue s = l1 ++ x :: l2 -> ctop (cqueue s) x -> ctarget x < cnow s ->     (* 31-36 *)
    cstep s (Resumed (chandle x) (cnow s)) (Some (CState (cnow s) (Some (chandle x, crest x)) (l1 ++ l2)))
| CSleep s x t : crun s = None -> ctop (cqueue s) x -> cnow s <= ctarget x -> ctarget x <= t ->                   (* 37-40 *)
    cstep s (Slept (ctarget x) t) (Some (CState t None (cqueue s))).
Inductive cexec : cstate -> list cevent -> cstate -> Prop :=
| CNil s : cexec s [] s
| CSnoc s es s1 e s2 : cexec s es s1 -> cstep s1 e (Some s2) -> cexec s (es ++ [e]) s2.
