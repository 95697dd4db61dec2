(** Model of Awl/WatchDog.h: the owner of the watch_dog, its thread, the thread that stops the parent token and the clock. *)
From Verif Require Import Common.

(** The owner: the members are constructed in the order of their declaration (WatchDog.h:57-67) and destroyed in the
    opposite order. *)
Inductive owner :=
| OSource        (* m_source, m_token and m_timeout are constructed *)
| OThread        (* m_thread is constructed, WatchDog.h:24: thread_proc is running *)
| OCallback      (* m_callback is constructed, WatchDog.h:25 *)
| OReady         (* m_log is constructed, WatchDog.h:26: the constructor has returned *)
| OLogGone       (* the destructor has destroyed m_log *)
| OCallbackGone  (* ... and m_callback *)
| OStopping      (* ~jthread has requested the stop of the thread and joins *)
| OThreadGone.   (* the thread has been joined and m_thread destroyed *)

(** thread_proc, WatchDog.h:38-49 *)
Inductive dog :=
| DNone          (* not started *)
| DSleep         (* in sleep_for, line 40 *)
| DWoken         (* after it *)
| DLog           (* stop_requested() was false, about to call m_log, line 45 *)
| DStop          (* about to call m_source.request_stop(), line 48 *)
| DExit.

(** The thread that stops the parent token: request_stop sets the flag and then calls the registered callbacks. *)
Inductive canceller := XIdle | XFlag | XDone.

Record wd := WD {
  who : owner;
  thr : dog;
  cancel : canceller;
  elapsed : bool;       (* m_timeout has elapsed since the thread has begun to sleep *)
  tstop : bool;         (* the stop state of m_thread *)
  stopped : bool;       (* the stop state of m_source: what get_token() shows *)
  logs : nat;           (* how often the log function has been called *)
  bad_log : bool        (* m_log has been called before its construction or after its destruction *)
}.

Definition wd_init : wd := WD OSource DNone XIdle false false false 0 false.

Definition registered (s : wd) : bool := match who s with OCallback | OReady | OLogGone => true | _ => false end.
Definition log_alive (s : wd) : bool := match who s with OReady => true | _ => false end.
Definition parent_stopped (s : wd) : bool := match cancel s with XIdle => false | _ => true end.

Inductive wstep : wd -> wd -> Prop :=
(* the owner *)
| WThread s : who s = OSource ->
    wstep s (WD OThread DSleep (cancel s) (elapsed s) (tstop s) (stopped s) (logs s) (bad_log s))
| WCallback s : who s = OThread ->
    (* the constructor of stop_callback calls the callback if the token is already stopped *)
    wstep s (WD OCallback (thr s) (cancel s) (elapsed s) (tstop s) (stopped s || parent_stopped s) (logs s) (bad_log s))
| WReady s : who s = OCallback ->
    wstep s (WD OReady (thr s) (cancel s) (elapsed s) (tstop s) (stopped s) (logs s) (bad_log s))
| WDestroyLog s : who s = OReady ->
    wstep s (WD OLogGone (thr s) (cancel s) (elapsed s) (tstop s) (stopped s) (logs s) (bad_log s))
| WDestroyCallback s : who s = OLogGone ->
    wstep s (WD OCallbackGone (thr s) (cancel s) (elapsed s) (tstop s) (stopped s) (logs s) (bad_log s))
| WRequest s : who s = OCallbackGone ->
    wstep s (WD OStopping (thr s) (cancel s) (elapsed s) true (stopped s) (logs s) (bad_log s))
| WJoin s : who s = OStopping -> thr s = DExit ->
    wstep s (WD OThreadGone (thr s) (cancel s) (elapsed s) (tstop s) (stopped s) (logs s) (bad_log s))
(* the clock *)
| WElapse s : who s <> OSource ->
    wstep s (WD (who s) (thr s) (cancel s) true (tstop s) (stopped s) (logs s) (bad_log s))
(* thread_proc; sleep_for returns when the timeout has elapsed or when the stop of the thread has been requested *)
| WWake s : thr s = DSleep -> elapsed s = true \/ tstop s = true ->
    wstep s (WD (who s) DWoken (cancel s) (elapsed s) (tstop s) (stopped s) (logs s) (bad_log s))
| WCheck s : thr s = DWoken ->
    wstep s (WD (who s) (if tstop s then DStop else DLog) (cancel s) (elapsed s) (tstop s) (stopped s) (logs s) (bad_log s))
| WLog s : thr s = DLog ->
    wstep s (WD (who s) DStop (cancel s) (elapsed s) (tstop s) (stopped s) (S (logs s)) (bad_log s || negb (log_alive s)))
| WStop s : thr s = DStop ->
    wstep s (WD (who s) DExit (cancel s) (elapsed s) (tstop s) true (logs s) (bad_log s))
(* the thread that stops the parent *)
| WCancel s : cancel s = XIdle ->
    wstep s (WD (who s) (thr s) XFlag (elapsed s) (tstop s) (stopped s) (logs s) (bad_log s))
| WCancelled s : cancel s = XFlag ->
    wstep s (WD (who s) (thr s) XDone (elapsed s) (tstop s) (stopped s || registered s) (logs s) (bad_log s)).

Inductive wsteps : wd -> wd -> Prop :=
| WNil s : wsteps s s
| WCons s s' s'' : wsteps s s' -> wstep s' s'' -> wsteps s s''.
