(** Model of Awl/Coro/AsyncGenerator.h: a producer coroutine and the consumer coroutine that iterates over it. *)
From Verif Require Import Common.

Section AsyncGen.
Variables (S V R : Type).

(** What the body of the producer does next: co_yield, co_return, an exception that leaves it, or co_await of something
    external that suspends it until the environment resumes it. *)
Inductive pout :=
| AYield (v : V) (s : S)
| AReturn
| AThrow (e : exn)
| AWait (s : S).

(** What begin() and ++ give to the consumer: an iterator at a value, the end iterator, an exception. *)
Inductive ires := IAt | IEnd | IExn (e : exn).

(** The consumer coroutine with its one iterator: [it = co_await g.begin()], [co_await ++it], [*it],
    co_await of something external, co_return.  The continuation of an advance compares the iterator with end(). *)
Inductive client :=
| KBegin (k : ires -> client)
| KNext (k : ires -> client)
| KDeref (k : V -> client)
| KEvent (k : client)
| KRet (r : R).

Inductive pcode := PSuspended (s : S) | PDone.

(** Who is executing.  [PRun b k], [PEvent b k]: the consumer is suspended in an advance operation, begin() if [b], that
    goes on with [k], and the producer is executing or is suspended on an external event. *)
Inductive control :=
| CRun (c : client)
| CEvent (c : client)
| PRun (b : bool) (k : ires -> client)
| PEvent (b : bool) (k : ires -> client)
| CDone (r : R).

(** The promise, AsyncGenerator.h:86-92, and the consumer's iterator: [Some true] has a coroutine handle,
    [Some false] is the end iterator, [None] it does not exist.  [cur]: [None] is not initialised, [Some None] is nullptr. *)
Record amach := AMach {
  pc : pcode;
  cur : option (option V);
  aexn : option exn;
  iter : option bool;
  ctl : control
}.

(** A new generator (AsyncGenerator.h:33-47, 418-422): the body has not started. *)
Definition ainit (s : S) (c : client) : amach := AMach (PSuspended s) None None None (CRun c).

Variable step : S -> pout.

(** The consumer is resumed (AsyncGenerator.h:108-112): await_resume of begin() (323-340) or of ++ (290-300). *)
Definition await_resume (b : bool) (k : ires -> client) (m : amach) : res amach :=
  match cur m with
  | None => UB
  | Some (Some _) => Ok (AMach (pc m) (cur m) (aexn m) (if b then Some true else iter m) (CRun (k IAt)))
  | Some None =>
    match aexn m with
    | Some e => Ok (AMach (pc m) (cur m) None (if b then iter m else Some false) (CRun (k (IExn e))))
    | None => Ok (AMach (pc m) (cur m) None (Some false) (CRun (k IEnd)))
    end
  end.

(** One step of the coroutine that is executing, or the environment resumes the one that is suspended on an event. *)
Definition atick (m : amach) : res amach :=
  match ctl m with
  | CRun (KBegin k) =>
    (* AsyncGenerator.h:384-392, 314-321, 154-159: the producer is resumed *)
    match pc m with
    | PDone => UB
    | PSuspended _ => Ok (AMach (pc m) (cur m) (aexn m) (iter m) (PRun true k))
    end
  | CRun (KNext k) =>
    (* AsyncGenerator.h:261-264, 224-227, 154-159 *)
    match iter m, pc m with
    | Some true, PSuspended _ => Ok (AMach (pc m) (cur m) (aexn m) (iter m) (PRun false k))
    | _, _ => UB
    end
  | CRun (KDeref k) =>
    (* AsyncGenerator.h:190-193, 266-269 *)
    match iter m, cur m with
    | Some true, Some (Some v) => Ok (AMach (pc m) (cur m) (aexn m) (iter m) (CRun (k v)))
    | _, _ => UB
    end
  | CRun (KEvent k) => Ok (AMach (pc m) (cur m) (aexn m) (iter m) (CEvent k))
  | CRun (KRet r) => Ok (AMach (pc m) (cur m) (aexn m) (iter m) (CDone r))
  | CEvent k => Ok (AMach (pc m) (cur m) (aexn m) (iter m) (CRun k))
  | PEvent b k => Ok (AMach (pc m) (cur m) (aexn m) (iter m) (PRun b k))
  | PRun b k =>
    match pc m with
    | PDone => UB
    | PSuspended s =>
      match step s with
      | AYield v s' => await_resume b k (AMach (PSuspended s') (Some (Some v)) (aexn m) (iter m) (ctl m))  (* 179-183 *)
      | AReturn => await_resume b k (AMach PDone (Some None) (aexn m) (iter m) (ctl m))                    (* 122-126 *)
      | AThrow e => await_resume b k (AMach PDone (Some None) (Some e) (iter m) (ctl m))                   (* 51-54, 122-126 *)
      | AWait s' => Ok (AMach (PSuspended s') (cur m) (aexn m) (iter m) (PEvent b k))
      end
    end
  | CDone _ => Ok m
  end.

Fixpoint aticks (n : nat) (m : amach) : res amach :=
  match n with
  | 0 => Ok m
  | Datatypes.S n' => let* m' := atick m in aticks n' m'
  end.

End AsyncGen.
Arguments AYield {S V}. Arguments AReturn {S V}. Arguments AThrow {S V}. Arguments AWait {S V}.
Arguments KBegin {V R}. Arguments KNext {V R}. Arguments KDeref {V R}. Arguments KEvent {V R}. Arguments KRet {V R}.
Arguments PSuspended {S}. Arguments PDone {S}.
Arguments CRun {V R}. Arguments CEvent {V R}. Arguments PRun {V R}. Arguments PEvent {V R}. Arguments CDone {V R}.
Arguments AMach {S V R}. Arguments pc {S V R}. Arguments cur {S V R}. Arguments aexn {S V R}. Arguments iter {S V R}. Arguments ctl {S V R}.
Arguments ainit {S V R}. Arguments await_resume {S V R}. Arguments atick {S V R}. Arguments aticks {S V R}.
