(** Model of Awl/WatchDog.h together with the sleep_for it calls (Awl/Sleep.h): the product of WatchDogModel.v, in which the
    return of sleep_for is one step, with SleepModel.v, in which it is a protocol of two threads and a clock.  The sleeper is
    the thread of the watch_dog, the stopper is the owner inside of ~jthread.  An access of the stopper to a callback that has been destroyed
    ([Bad] in SleepModel.v) is not a step here: the theorems show that it cannot occur. *)
From Verif Require Import Common SleepModel WatchDogModel.

Record wds := WDS {
  dogst : wd;          (* the owner, the thread outside of sleep_for, the canceller; its field [elapsed] is not used *)
  slp : sstate;        (* the call of sleep_for at WatchDog.h:40 and the clock *)
  begun : nat          (* the time at which the thread has called sleep_for *)
}.

(** Before the thread is started there is no call of sleep_for, only the clock [t]. *)
Definition wds_init (t : nat) : wds := WDS wd_init (sinit t false) t.

(** The steps of WatchDogModel.v that have nothing to do with sleep_for and with the destructor of m_thread: not the start of
    the thread, not its request_stop and join, not the passage of time, not the return of sleep_for. *)
Definition aside (s s' : wd) : Prop :=
  wstep s s' /\ who s <> OSource /\ (who s = OCallbackGone -> who s' = OCallbackGone) /\ (who s' = OThreadGone -> who s = OThreadGone) /\
  (thr s = DSleep -> thr s' = DSleep) /\ elapsed s' = elapsed s \/
  wstep s s' /\ who s = OSource /\ who s' = OSource.

Definition set_thr (s : wd) (t : dog) : wd := WD (who s) t (cancel s) (elapsed s) (tstop s) (stopped s) (logs s) (bad_log s).

(** Who makes a step, as far as the theorems need it. *)
Inductive agent := ADog | AStopper | AClock | ASpurious | AOther.

Inductive dstep (d : nat) : wds -> agent -> wds -> Prop :=
(** WatchDog.h:24: m_thread is constructed, the thread calls sleep_for(m_timeout, token), WatchDog.h:40 *)
| DgThread c : who (dogst c) = OSource ->
    dstep d c AOther (WDS (WD OThread DSleep (cancel (dogst c)) false (tstop (dogst c)) (stopped (dogst c)) (logs (dogst c)) (bad_log (dogst c)))
                   (sinit (clock (slp c)) false) (clock (slp c)))
| DgAside c w' : aside (dogst c) w' ->
    dstep d c (match thr (dogst c), thr w' with DWoken, DWoken | DLog, DLog | DStop, DStop => AOther
                                              | DWoken, _ | DLog, _ | DStop, _ => ADog | _, _ => AOther end) (WDS w' (slp c) (begun c))
(** inside of sleep_for *)
| DgSleep c s' : thr (dogst c) = DSleep -> sstep d (slp c) Sleeper s' -> dstep d c ADog (WDS (dogst c) s' (begun c))
| DgTimer c s' : thr (dogst c) = DSleep -> sstep d (slp c) Timer s' -> dstep d c ADog (WDS (dogst c) s' (begun c))
| DgSpurious c s' : thr (dogst c) = DSleep -> sstep d (slp c) Spurious s' -> dstep d c ASpurious (WDS (dogst c) s' (begun c))
| DgTime c s' : sstep d (slp c) Time s' -> dstep d c AClock (WDS (dogst c) s' (begun c))
(** sleep_for has returned *)
| DgWake c : thr (dogst c) = DSleep -> pc (slp c) = PDone ->
    dstep d c ADog (WDS (set_thr (dogst c) DWoken) (slp c) (begun c))
(** ~jthread: request_stop sets the flag of the thread's token... *)
| DgRequest c s' : who (dogst c) = OCallbackGone -> sstep d (slp c) Stopper s' ->
    dstep d c AStopper (WDS (WD OStopping (thr (dogst c)) (cancel (dogst c)) (elapsed (dogst c)) true (stopped (dogst c)) (logs (dogst c)) (bad_log (dogst c))) s' (begun c))
(** ... calls the callback that sleep_for has registered, Sleep.h:31-38... *)
| DgNotify c s' : who (dogst c) = OStopping -> sstep d (slp c) Stopper s' ->
    dstep d c AStopper (WDS (dogst c) s' (begun c))
(** ... and joins when request_stop has returned and the thread has ended *)
| DgJoin c : who (dogst c) = OStopping -> st (slp c) = TDone -> thr (dogst c) = DExit ->
    dstep d c AOther (WDS (WD OThreadGone (thr (dogst c)) (cancel (dogst c)) (elapsed (dogst c)) (tstop (dogst c)) (stopped (dogst c)) (logs (dogst c)) (bad_log (dogst c))) (slp c) (begun c)).

(** Executions with the list of the agents. *)
Inductive dexec (d : nat) : wds -> list agent -> wds -> Prop :=
| DNil c : dexec d c [] c
| DCons c a c' l c'' : dstep d c a c' -> dexec d c' l c'' -> dexec d c (a :: l) c''.
