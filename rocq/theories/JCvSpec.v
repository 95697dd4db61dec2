(** What is said about condition_variable_any2, without the invariants *)
From Verif Require Import Common JCvModel.

(** The overload that a thread executes *)
Definition wait_of (p : pc) : option mode :=
  match p with
  | WCheck m | WCtor m | WInl m | WInlDo m | WPred m | WLockM m | WStop m | WUnlock m | WWait m | WBlocked m | WTake m _ | WRead m _ | WRelease m _ _ | WRelock m _ _
  | WFinal m | WDtor m _ => Some m
  | _ => None
  end.
(** The thread is in a wait with a stop token. *)
Definition token_wait (p : pc) : bool := match wait_of p with Some m => tok m | None => false end.
(** The thread calls the predicate. *)
Definition asks (p : pc) : bool := match p with WCheck m => tok m | WPred _ | WFinal _ => true | _ => false end.
(** The thread executes the callback of the thread c. *)
Definition calls (p : pc) (c : nat) : Prop := p = RLock c \/ p = RDo c \/ p = RFin c.
(** A predicate sees the same as before if nobody sets the data. *)
Definition sets {data} (e : event data) : bool := match e with ESet _ => true | _ => false end.
(** The thread returned from a wait in this part of the history. *)
Definition returned {data} (t : nat) (l : list (event data)) : bool := existsb (fun e => match e with ERet u _ _ => Nat.eqb u t | _ => false end) l.
(** How often a thread moves *)
Definition moves {data} (t : nat) (tr : list (nat * @action data)) : nat := length (filter (fun x => Nat.eqb (fst x) t) tr).
