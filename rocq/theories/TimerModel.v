(** Model of the timer queue of the coroutine tests, Awl/Testing/TimeQueue.h. *)
From Verif Require Import Common.
Open Scope Z_scope.

(** TimeQueue.h:46-50 [struct Task].  Time points and durations are integers (nanoseconds);
    the overflow of [now() + timeout] is not modelled.  A coroutine handle is a number. *)
Record task := Task { target_time : Z; handle : nat }.

(** TimeQueue.h:52 [Compare = member_compare<&Task::targetTime>], which is
    KeyCompare.h:44-47 with [std::less] on the field. *)
Definition compare (x y : task) : bool := target_time x <? target_time y.

(** The queue of TimeQueue.h:54 and the clock [std::chrono::steady_clock::now()]. *)
Record tqueue := TQueue { now : Z; tasks : list task }.

(** [std::priority_queue::top] with the comparer [cmp] (TimeQueue.h:29): an element that is
    ordered before no other element.  Which one of several such elements is unspecified. *)
Definition is_top (cmp : task -> task -> bool) (ts : list task) (t : task) : Prop :=
  In t ts /\ forall u, In u ts -> cmp t u = false.

(** TimeQueue.h:20-23 [push]. *)
Definition push (s : tqueue) (h : nat) (timeout : Z) : tqueue :=
  TQueue (now s) (Task (now s + timeout) h :: tasks s).

(** What an observer can see. *)
Inductive tevent :=
| Pushed (h : nat) (at_ timeout : Z)
| Resumed (h : nat) (at_ : Z)
| Slept (until woken : Z)
| Ticked.

(** One iteration of the cycle in [loop], [cmp] is the comparer of the queue:
    - [LResume]: TimeQueue.h:31-36, [pop] removes one occurrence of the top;
    - [LSleep]: TimeQueue.h:37-40, [sleep_until] returns at the target time or later. *)
Inductive loop_iter (cmp : task -> task -> bool) : tqueue -> tevent -> tqueue -> Prop :=
| LResume s t l1 l2 :
    tasks s = l1 ++ t :: l2 -> is_top cmp (tasks s) t -> target_time t < now s ->
    loop_iter cmp s (Resumed (handle t) (now s)) (TQueue (now s) (l1 ++ l2))
| LSleep s t t' :
    is_top cmp (tasks s) t -> now s <= target_time t -> target_time t <= t' ->
    loop_iter cmp s (Slept (target_time t) t') (TQueue t' (tasks s)).

(** One step of the program.  Any code, for example a coroutine that has been resumed, can
    push a handle between the iterations; time passes, the clock is monotonic. *)
Inductive tstep (cmp : task -> task -> bool) : tqueue -> tevent -> tqueue -> Prop :=
| TPush s h timeout : tstep cmp s (Pushed h (now s) timeout) (push s h timeout)
| TTick s t' : now s <= t' -> tstep cmp s Ticked (TQueue t' (tasks s))
| TLoop s e s' : loop_iter cmp s e s' -> tstep cmp s e s'.

(** An execution and the events of it in the order in which they happened. *)
Inductive texec (cmp : task -> task -> bool) : tqueue -> list tevent -> tqueue -> Prop :=
| TNil s : texec cmp s [] s
| TCons s e s' es s'' : tstep cmp s e s' -> texec cmp s' es s'' -> texec cmp s (e :: es) s''.

(** The queue of TimeQueue.h:87 at the start of the program. *)
Definition tinit (t0 : Z) : tqueue := TQueue t0 [].
