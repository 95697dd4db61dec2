(** What a coroutine that waits is for, in terms of what can be seen: when it starts and ends, and the clock. *)
From Verif Require Import Common CoTimerModel.
Open Scope Z_scope.

Definition total (ds : list Z) : Z := fold_right (fun d n => Z.max 0 d + n) 0 ds.
Definition waits (ds : list Z) : nat := length (filter (fun d => 0 <? d) ds).
Definition starts (h : nat) (es : list cevent) : nat := length (filter (fun e => match e with Started k _ _ => Nat.eqb k h | _ => false end) es).
Definition ends (h : nat) (es : list cevent) : nat := length (filter (fun e => match e with Finished k _ => Nat.eqb k h | _ => false end) es).
(** Iterations of loop(), and how many there can be *)
Definition iterations (es : list cevent) : nat := length (filter (fun e => match e with Resumed _ _ | Slept _ _ => true | _ => false end) es).
Definition all_waits (es : list cevent) : nat := fold_right (fun e n => (match e with Started _ ds _ => waits ds | _ => 0 end + n)%nat) 0%nat es.
(** sleep_until has returned after the time it was given *)
Definition sleeps_enough (es : list cevent) : Prop := forall u w, In (Slept u w) es -> u < w.
