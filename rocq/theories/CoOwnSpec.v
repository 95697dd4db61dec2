(** Which programs are careful, and what they are promised, in terms of what the program does and of the frames that were destroyed. *)
From Verif Require Import Common CoTimerModel CoOwnModel.
Open Scope Z_scope.

(** What happens to the timer queue and the coroutines *)
Definition timer_events (es : list oevent) : list cevent := flat_map (fun e => match e with OC c => [c] | _ => [] end) es.
Definition waits_for_timer (s : ostate) (h : nat) : Prop := exists x, In x (cqueue (obase s)) /\ chandle x = h.
(** No task is destroyed while its coroutine waits *)
Definition careful (s : ostate) (e : oevent) : Prop := match e with ODestroyTask h => ~ waits_for_timer s h | _ => True end.
Inductive cared : ostate -> list oevent -> ostate -> Prop :=
| KNil s : cared s [] s
| KSnoc s es s1 e s2 : cared s es s1 -> careful s1 e -> ostep s1 e (Some s2) -> cared s (es ++ [e]) s2.
Definition started (es : list oevent) (h : nat) : Prop := exists ds t, In (OC (Started h ds t)) es.
(** released when the coroutine had already ended *)
Definition released_late (es : list oevent) (h : nat) : Prop := exists a t b c, es = a ++ OC (Finished h t) :: b ++ ORelease h :: c.
