(** Model of the owners of coroutines that wait on the timer queue: Awl/Coro/UpdateTask.h (C52) with Awl/Testing/TimeQueue.h (C113).

    A program that starts coroutines has their UpdateTasks: it destroys them, or lets them go with release(), whenever none of the
    coroutines is running (they run inside of the calls that start and resume them).  Coroutines are numbered, a number is used once.
    Awaiting of one coroutine by another is C51. *)
From Verif Require Import Common CoTimerModel.
Open Scope Z_scope.

(** The frame of a coroutine: FOwned, its task exists; FFree, m_owned is false; FGone, destroyed *)
Inductive frame := FOwned | FFree | FGone.
Inductive oevent :=
| OC (e : cevent)
| ODestroyTask (h : nat)
| ORelease (h : nat).
Record ostate := OSt { obase : cstate; oframe : nat -> option frame; ogone : list nat }.   (* and which frames were destroyed, in this order *)
Definition oinit (t : Z) : ostate := OSt (cinit t) (fun _ => None) [].
Definition ogo (s : ostate) (b : cstate) : ostate := OSt b (oframe s) (ogone s).
Definition odrop (s : ostate) (h : nat) (b : cstate) : ostate := OSt b (upd (oframe s) h (Some FGone)) (ogone s ++ [h]).

(** None: undefined behaviour *)
Inductive ostep : ostate -> oevent -> option ostate -> Prop :=
| OStart s h ds t b : oframe s h = None -> cstep (obase s) (Started h ds t) (Some b) ->                      (* get_return_object, 140-143 *)
    ostep s (OC (Started h ds t)) (Some (OSt b (upd (oframe s) h (Some FOwned)) (ogone s)))
| OResume s h t b : oframe s h <> Some FGone -> cstep (obase s) (Resumed h t) (Some b) -> ostep s (OC (Resumed h t)) (Some (ogo s b))
| OResumeGone s h t b : oframe s h = Some FGone -> cstep (obase s) (Resumed h t) (Some b) ->                 (* TimeQueue.h:35: resume of a frame that does not exist *)
    ostep s (OC (Resumed h t)) None
| OFinish s h t b : oframe s h = Some FOwned -> cstep (obase s) (Finished h t) (Some b) ->                   (* suspended at its end, 93-135 *)
    ostep s (OC (Finished h t)) (Some (ogo s b))
| OFinishFree s h t b : oframe s h = Some FFree -> cstep (obase s) (Finished h t) (Some b) ->                (* 120-123 *)
    ostep s (OC (Finished h t)) (Some (odrop s h b))
| OSleep s u w b : cstep (obase s) (Slept u w) (Some b) -> ostep s (OC (Slept u w)) (Some (ogo s b))
| OQuiet s b : cstep (obase s) Quiet (Some b) -> ostep s (OC Quiet) (Some (ogo s b))
| OOverflow s : cstep (obase s) Quiet None -> ostep s (OC Quiet) None
| ODestroyIt s h : crun (obase s) = None -> oframe s h = Some FOwned ->                                      (* ~UpdateTask, 31-46 *)
    ostep s (ODestroyTask h) (Some (odrop s h (obase s)))
| OReleaseIt s h : crun (obase s) = None -> oframe s h = Some FOwned ->                                      (* release, 145-153 *)
    ostep s (ORelease h) (Some (OSt (obase s) (upd (oframe s) h (Some FFree)) (ogone s))).
Inductive oexec : ostate -> list oevent -> ostate -> Prop :=
| ONil s : oexec s [] s
| OSnoc s es s1 e s2 : oexec s es s1 -> ostep s1 e (Some s2) -> oexec s (es ++ [e]) s2.
