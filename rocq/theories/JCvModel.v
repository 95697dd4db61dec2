(** Model of Extras/JThread/JThreadExtras/condition_variable_any2.hpp (awl::condition_variable_any
    if AWL_JTHREAD_EXTRAS is defined, Awl/CppStd/Thread.h:7-17): one condition variable, one
    user's lock and one stop state, used by any number of threads.

    Each operation on a mutex, on the std::condition_variable or on the stop state is one
    step.  The stop state is the one that C96 proves (the flag, the list of the registered
    callbacks, the thread that calls them); std::condition_variable::wait releases the mutex
    and begins to wait in one step, may wake up spuriously and locks the mutex again. *)
From Verif Require Import Common.

(** Which overload: [prd]: with a predicate, [tok]: with a stop_token, [timed]: wait_until
    or wait_for (which adds its argument to now() and calls wait_until, :136-146, 283-292) *)
Record mode := Mode { prd : bool; tok : bool; timed : bool }.
Inductive pc :=
| PUser                                        (* code that uses the library; may hold the lock *)
(* wait, wait_until, :78-131, 217-278 *)
| WCheck (m : mode)                            (* :221, 250: stoken.stop_requested() *)
| WCtor (m : mode)                             (* :225, 257: the constructor of the callback *)
| WInl (m : mode) | WInlDo (m : mode)          (* the callback in the constructor: lock_guard; cv.notify_all, :45-48 *)
| WPred (m : mode)                             (* while (!pred()) *)
| WLockM (m : mode)                            (* first_internal_lock *)
| WStop (m : mode)                             (* :228, 262 *)
| WUnlock (m : mode)                           (* unlock_guard::unlock_guard, :25-28 *)
| WWait (m : mode)                             (* cv.wait(second_internal_lock) *)
| WBlocked (m : mode)                          (* ... in it *)
| WTake (m : mode) (late : bool)               (* ... awake, locks the internal mutex *)
| WRead (m : mode) (late : bool)               (* :269: status and stoken.stop_requested() *)
| WRelease (m : mode) (ready late : bool)      (* ~second_internal_lock *)
| WRelock (m : mode) (ready late : bool)       (* ~unlock_guard, :29-31 *)
| WFinal (m : mode)                            (* return pred(), :127, 272 *)
| WDtor (m : mode) (v : bool)                  (* the destructor of the callback; then v is returned *)
(* notify_all, notify_one, :45-52, 68-73 *)
| NLock (all : bool) | NDo (all : bool)
(* request_stop, with the callbacks of :225, 257 that it calls *)
| RSet | RLoop | RLock (c : nat) | RDo (c : nat) | RFin (c : nat).

(** What is seen from outside *)
Inductive event (data : Type) :=
| ESet (d : data)                              (* the data have been changed *)
| ENotified (t : nat)                          (* notify_all() returns *)
| EReq (t : nat) (b : bool)                    (* request_stop() returns b *)
| ERet (t : nat) (m : mode) (v : bool).        (* a wait returns v; without predicate: v is false for cv_status::timeout *)
Arguments ESet {data}. Arguments ENotified {data}. Arguments EReq {data}. Arguments ERet {data}.

Section Cv.
(** The data that the lock protects, and the predicates of the threads; the number of threads *)
Context {data : Type} (pr : nat -> data -> bool) (n : nat).

(** [mtx]: who has locked the internal mutex, [lock]: the user's lock, [waiting]: who waits
    in std::condition_variable, [stop], [reg]: the flag and the callbacks of the stop state
    (a callback is named by its thread), [fin]: the callback of a thread has been called,
    [alive]: the condition_variable_any2 exists; [expired]: std::condition_variable has told
    the thread that its time is over (not a variable of the code). *)
Record state := State { mtx : option nat; lock : option nat; waiting : list nat; stop : bool; reg : list nat; fin : nat -> bool; dat : data;
                        pcs : nat -> pc; alive : bool; expired : nat -> bool; log : list (event data) }.
Definition init (d : data) : state := State None None [] false [] (fun _ => false) d (fun _ => PUser) true (fun _ => false) [].

Definition go (s : state) (t : nat) (p : pc) : state := State (mtx s) (lock s) (waiting s) (stop s) (reg s) (fin s) (dat s) (upd (pcs s) t p) (alive s) (expired s) (log s).
Definition set_mtx (s : state) (o : option nat) : state := State o (lock s) (waiting s) (stop s) (reg s) (fin s) (dat s) (pcs s) (alive s) (expired s) (log s).
Definition set_lock (s : state) (o : option nat) : state := State (mtx s) o (waiting s) (stop s) (reg s) (fin s) (dat s) (pcs s) (alive s) (expired s) (log s).
Definition set_waiting (s : state) (l : list nat) : state := State (mtx s) (lock s) l (stop s) (reg s) (fin s) (dat s) (pcs s) (alive s) (expired s) (log s).
Definition set_stop (s : state) : state := State (mtx s) (lock s) (waiting s) true (reg s) (fin s) (dat s) (pcs s) (alive s) (expired s) (log s).
Definition set_reg (s : state) (l : list nat) : state := State (mtx s) (lock s) (waiting s) (stop s) l (fin s) (dat s) (pcs s) (alive s) (expired s) (log s).
Definition set_fin (s : state) (c : nat) (b : bool) : state := State (mtx s) (lock s) (waiting s) (stop s) (reg s) (upd (fin s) c b) (dat s) (pcs s) (alive s) (expired s) (log s).
Definition set_dat (s : state) (d : data) : state := State (mtx s) (lock s) (waiting s) (stop s) (reg s) (fin s) d (pcs s) (alive s) (expired s) (log s).
Definition kill (s : state) : state := State (mtx s) (lock s) (waiting s) (stop s) (reg s) (fin s) (dat s) (pcs s) false (expired s) (log s).
Definition set_expired (s : state) (t : nat) (b : bool) : state := State (mtx s) (lock s) (waiting s) (stop s) (reg s) (fin s) (dat s) (pcs s) (alive s) (upd (expired s) t b) (log s).
Definition note (s : state) (e : event data) : state := State (mtx s) (lock s) (waiting s) (stop s) (reg s) (fin s) (dat s) (pcs s) (alive s) (expired s) (log s ++ [e]).

Definition del (t : nat) (l : list nat) : list nat := filter (fun x => negb (Nat.eqb x t)) l.
Definition mem (t : nat) (l : list nat) : bool := existsb (Nat.eqb t) l.
(** A wait function has the local variable local_internals, :79, 90, 105, 117, 224, 256. *)
Definition has_local (p : pc) : bool :=
  match p with PUser | WCheck _ | NLock _ | NDo _ | RSet | RLoop | RLock _ | RDo _ | RFin _ => false | _ => true end.
(** A function uses the member internals. *)
Definition uses_object (p : pc) : bool := match p with WCheck _ | NLock _ | NDo _ => true | _ => false end.

Inductive action :=
| AStep                                        (* a step of the library *)
| ASpurious | ATimeout                         (* a waiting thread wakes up by itself *)
| AVictim (c : nat)                            (* which thread notify_one wakes up *)
| ULock | UUnlock | USet (d : data) | UNotify (all : bool) | URequest | UWait (m : mode) | UDestroy.

(** Locks the internal mutex if it is free. *)
Definition acquire (s : state) (t : nat) (p : pc) : option (res state) :=
  match mtx s with None => Some (Ok (go (set_mtx s (Some t)) t p)) | Some _ => None end.
Definition ret (s : state) (t : nat) (m : mode) (v : bool) : state := note (go s t PUser) (ERet t m v).
(** After the wake up: shouldStop, :124, 269; a wait without predicate returns *)
Definition after_wait (s : state) (m : mode) (late : bool) : bool := negb (prd m) || timed m && (late || tok m && stop s).

Definition lib_step (t : nat) (a : action) (p : pc) (s : state) : option (res state) :=
  match p, a with
  (* :221-224: the member internals is copied *)
  | WCheck m, AStep => Some (guard (alive s) (Ok (
      if tok m && stop s then ret s t m (pr t (dat s))
      else go s t (if tok m then WCtor m else if prd m then WPred m else WLockM m))))
  | WCtor m, AStep => Some (Ok (if stop s then go s t (WInl m) else go (set_reg (set_fin s t false) (t :: reg s)) t (WPred m)))
  | WInl m, AStep => acquire s t (WInlDo m)
  | WInlDo m, AStep => Some (Ok (go (set_fin (set_mtx (set_waiting s []) None) t true) t (WPred m)))
  | WPred m, AStep => Some (Ok (go s t (if pr t (dat s) then WDtor m true else WLockM m)))
  | WLockM m, AStep => acquire s t (WStop m)
  | WStop m, AStep => Some (Ok (if tok m && stop s then go (set_mtx s None) t (WDtor m false) else go s t (WUnlock m)))
  | WUnlock m, AStep => Some (Ok (go (set_lock s None) t (WWait m)))
  | WWait m, AStep => Some (Ok (go (set_mtx (set_waiting s (t :: waiting s)) None) t (WBlocked m)))
  | WBlocked m, AStep => if mem t (waiting s) then None else Some (Ok (go s t (WTake m false)))
  | WBlocked m, ASpurious => Some (Ok (go (set_waiting s (del t (waiting s))) t (WTake m false)))
  | WBlocked m, ATimeout => if timed m then Some (Ok (go (set_expired (set_waiting s (del t (waiting s))) t true) t (WTake m true))) else None
  | WTake m late, AStep => acquire s t (WRead m late)
  | WRead m late, AStep => Some (Ok (go s t (WRelease m (after_wait s m late) late)))
  | WRelease m ready late, AStep => Some (Ok (go (set_mtx s None) t (WRelock m ready late)))
  | WRelock m ready late, AStep =>
      match lock s with
      | None => Some (Ok (go (set_lock s (Some t)) t (if ready then if prd m then WFinal m else WDtor m (negb late) else WPred m)))
      | Some _ => None
      end
  | WFinal m, AStep => Some (Ok (go s t (WDtor m (pr t (dat s)))))
  (* the destructor: the callback is removed from the list, or has been called in the
     constructor, or the destructor waits until it has been called *)
  | WDtor m v, AStep =>
      if tok m then
        if mem t (reg s) then Some (Ok (ret (set_reg s (del t (reg s))) t m v))
        else if fin s t then Some (Ok (ret s t m v)) else None
      else Some (Ok (ret s t m v))
  | NLock all, AStep => if alive s then acquire s t (NDo all) else Some UB
  | NDo true, AStep => Some (guard (alive s) (Ok (note (go (set_mtx (set_waiting s []) None) t PUser) (ENotified t))))
  | NDo false, AStep => match waiting s with [] => Some (guard (alive s) (Ok (go (set_mtx s None) t PUser))) | _ => None end
  | NDo false, AVictim c => if mem c (waiting s) then Some (guard (alive s) (Ok (go (set_mtx (set_waiting s (del c (waiting s))) None) t PUser))) else None
  | RSet, AStep => Some (Ok (if stop s then note (go s t PUser) (EReq t false) else go (set_stop s) t RLoop))
  | RLoop, AStep => Some (Ok (match reg s with [] => note (go s t PUser) (EReq t true) | c :: l => go (set_reg s l) t (RLock c) end))
  (* local_internals of the thread c is captured by reference *)
  | RLock c, AStep => if has_local (pcs s c) then acquire s t (RDo c) else Some UB
  | RDo c, AStep => Some (guard (has_local (pcs s c)) (Ok (go (set_mtx (set_waiting s []) None) t (RFin c))))
  | RFin c, AStep => Some (guard (has_local (pcs s c)) (Ok (go (set_fin s c true) t RLoop)))
  | _, _ => None
  end.

(** User code: the data are changed by who holds the lock; a wait begins with the lock; the
    condition variable is used while it exists, and it is not destroyed while a function
    that uses the object itself runs - but it may be while threads wait. *)
Definition user_step (t : nat) (a : action) (s : state) : option (res state) :=
  let mine := match lock s with Some u => Nat.eqb u t | None => false end in
  match a with
  | ULock => match lock s with None => Some (Ok (set_lock s (Some t))) | Some _ => None end
  | UUnlock => if mine then Some (Ok (set_lock s None)) else None
  | USet d => if mine then Some (Ok (note (set_dat s d) (ESet d))) else None
  | UNotify all => if alive s then Some (Ok (go s t (NLock all))) else None
  | URequest => Some (Ok (go s t RSet))
  | UWait m => if mine && alive s && (prd m || negb (tok m)) then Some (Ok (go (set_expired s t false) t (WCheck m))) else None
  | UDestroy => if alive s && forallb (fun u => negb (uses_object (pcs s u))) (seq 0 n) then Some (Ok (kill s)) else None
  | _ => None
  end.
(** None: not possible now (the thread waits); UB: undefined behaviour *)
Definition step (t : nat) (a : action) (s : state) : option (res state) :=
  if t <? n then match pcs s t with PUser => user_step t a s | p => lib_step t a p s end else None.
Fixpoint run (tr : list (nat * action)) (s : state) : option (res state) :=
  match tr with
  | [] => Some (Ok s)
  | (t, a) :: tr => match step t a s with Some (Ok s1) => run tr s1 | x => x end
  end.
End Cv.
