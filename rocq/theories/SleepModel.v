(** Model of the interruptible sleep, Awl/Sleep.h, as a transition system of two threads: the
    sleeper that calls [sleep_for] and the stopper that calls [request_stop] on the source of the
    token.  std::mutex, std::condition_variable and std::stop_callback behave as the standard
    says; their own implementation is not modelled. *)
From Verif Require Import Common.

(** Where the sleeper is.  The mutex is local to the call, the sleeper holds it everywhere but in
    [PWait]; nobody else locks it. *)
Inductive spc :=
| PReg     (* Sleep.h:31, before the construction of stop_wait *)
| PEnter   (* Sleep.h:40, before wait_for computes the deadline *)
| PCheck   (* Sleep.h:42, before the predicate is evaluated by wait_for *)
| PBlock   (* the predicate was false, before the thread unlocks the mutex and blocks on cv *)
| PWait    (* blocked on cv *)
| PLast    (* woken at the deadline or later, before wait_for evaluates the predicate once more *)
| PDereg   (* Sleep.h:44, before the destruction of stop_wait; then lock, mutex and cv go *)
| PDone.   (* sleep_for has returned *)

(** Where the stopper is. *)
Inductive tpc :=
| TIdle    (* request_stop has not been called *)
| TRun     (* stop_requested() is true now, the callback Sleep.h:34-37 is being called *)
| TDone.   (* request_stop has returned *)

Record sstate := SState {
  pc : spc;
  st : tpc;
  stop : bool;         (* token.stop_requested() *)
  registered : bool;   (* stop_wait is in the list of the token *)
  signalled : bool;    (* the waiting sleeper has been notified *)
  clock : nat;
  deadline : nat
}.

(** Who makes a step.  [Timer] is a wake-up at the deadline, [Spurious] a wake-up without reason,
    [Time] is the clock alone.  [Bad] is an access to a destroyed object. *)
Inductive who := Sleeper | Stopper | Timer | Spurious | Time | Bad.

Definition goto (s : sstate) (p : spc) : sstate := SState p (st s) (stop s) (registered s) (signalled s) (clock s) (deadline s).

(** One step of the system with the duration [d]. *)
Inductive sstep (d : nat) : sstate -> who -> sstate -> Prop :=
(** Sleep.h:31-38: the constructor registers the callback, or, if stop has been requested, calls it
    at once; nobody is waiting then, so [notify_one] has no effect *)
| StReg s : pc s = PReg ->
    sstep d s Sleeper (SState PEnter (st s) (stop s) (negb (stop s)) (signalled s) (clock s) (deadline s))
(** Sleep.h:40: [wait_for(lock, d, pred)] is [wait_until(lock, now + d, pred)] *)
| StEnter s : pc s = PEnter ->
    sstep d s Sleeper (SState PCheck (st s) (stop s) (registered s) (signalled s) (clock s) (clock s + d))
(** [while (!pred())] *)
| StCheck s : pc s = PCheck ->
    sstep d s Sleeper (goto s (if stop s then PDereg else PBlock))
(** unlocking and blocking is atomic with respect to notifications *)
| StBlock s : pc s = PBlock ->
    sstep d s Sleeper (SState PWait (st s) (stop s) (registered s) false (clock s) (deadline s))
(** a notified sleeper wakes up; the cycle ends if it is too late *)
| StWake s : pc s = PWait -> signalled s = true ->
    sstep d s Sleeper (goto s (if deadline s <=? clock s then PLast else PCheck))
| StTimer s : pc s = PWait -> deadline s <= clock s ->
    sstep d s Timer (goto s PLast)
| StSpurious s : pc s = PWait -> clock s < deadline s ->
    sstep d s Spurious (goto s PCheck)
(** [return pred()], the result is not used *)
| StLast s : pc s = PLast ->
    sstep d s Sleeper (goto s PDereg)
(** Sleep.h:44: the destructor of stop_wait waits for a callback that is running in another thread *)
| StDereg s : pc s = PDereg -> st s <> TRun ->
    sstep d s Sleeper (SState PDone (st s) (stop s) false (signalled s) (clock s) (deadline s))
(** [request_stop] sets the flag and takes the callback out of the list in one step *)
| StStop s : st s = TIdle ->
    sstep d s Stopper (SState (pc s) (if registered s then TRun else TDone) true false (signalled s) (clock s) (deadline s))
(** Sleep.h:36 [cv.notify_one()]: wakes the sleeper if it is blocked, is lost otherwise *)
| StNotify s : st s = TRun -> pc s <> PDone ->
    sstep d s Stopper (SState (pc s) TDone (stop s) (registered s)
      (match pc s with PWait => true | _ => signalled s end) (clock s) (deadline s))
| StBad s : st s = TRun -> pc s = PDone ->
    sstep d s Bad s
| StTime s t' : clock s <= t' ->
    sstep d s Time (SState (pc s) (st s) (stop s) (registered s) (signalled s) t' (deadline s)).

(** Executions with the list of who made the steps. *)
Inductive sexec (d : nat) : sstate -> list who -> sstate -> Prop :=
| SNil s : sexec d s [] s
| SCons s w s' ws s'' : sstep d s w s' -> sexec d s' ws s'' -> sexec d s (w :: ws) s''.

(** The call of [sleep_for] at the time [t0]; stop may have been requested before. *)
Definition sinit (t0 : nat) (stopped : bool) : sstate :=
  SState PReg (if stopped then TDone else TIdle) stopped false false t0 0.
