(** What is asked of programs with tasks in variables (TaskVarModel.v): the vocabulary of the theorems in TaskVarProps.v *)
From Coq Require Import Relations.
From Verif Require Import Common CoroModel TaskVarModel.

(** What a careful program avoids: the destruction of a coroutine that has not finished, get() before it has finished,
    done() of an empty task *)
Definition freeable (m : tmachine) (x : nat) : Prop := forall c, tvars m x = Some c -> tcode (tframes m c) = TDone.
Definition care (m : tmachine) (o : top) : Prop :=
  match o with OMove x _ | OFree x | OGet x => freeable m x | ODone x => tvars m x <> None | _ => True end.
Definition careful (m : tmachine) : Prop :=
  match tstack m with
  | AMain (MDo o _) :: _ => care m o
  | AAssign x _ :: _ => freeable m x
  | ACoro h :: _ => match tcode (tframes m h) with TRun (TDo o _) => care m o | _ => True end
  | _ => True
  end.
(** The first [n] steps are careful. *)
Fixpoint careful_run (update : bool) (n : nat) (m : tmachine) : Prop :=
  match n with O => True | Datatypes.S k => careful m /\ forall m1, ttick update m = Ok m1 -> careful_run update k m1 end.
(** release() is called only before the coroutine has finished. *)
Definition early (m : tmachine) (o : top) : Prop := match o with ORelease x => forall c, tvars m x = Some c -> tcode (tframes m c) <> TDone | _ => True end.
Definition releases_early (m : tmachine) : Prop :=
  match tstack m with
  | AMain (MDo o _) :: _ => early m o
  | ACoro h :: _ => match tcode (tframes m h) with TRun (TDo o _) => early m o | _ => True end
  | _ => True
  end.
Fixpoint early_run (update : bool) (n : nat) (m : tmachine) : Prop :=
  match n with O => True | Datatypes.S k => releases_early m /\ forall m1, ttick update m = Ok m1 -> early_run update k m1 end.
(** Coroutine [c] has been started, and has not run to its end. *)
Definition unfinished (m : tmachine) (c : nat) : Prop := c < tnext m /\ tcode (tframes m c) <> TDone.
(** [p] is suspended in a co_await of [c]. *)
Definition waits_for (m : tmachine) (p c : nat) : Prop := p < tnext m /\ exists k, tcode (tframes m p) = TWait c k.
(** A function of coroutine [c] is on the stack, or the coroutine waits for an event. *)
Definition executes (m : tmachine) (c : nat) : Prop := In (ACoro c) (tstack m).
Definition expects_event (m : tmachine) (c : nat) : Prop := In c (ttimers m).
