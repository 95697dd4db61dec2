(** Specification of tasks: a coroutine computes what the same body computes sequentially, where every task is run to its
    end at the point where it is created. *)
From Verif Require Import Common CoroModel.

(** [ls] are the outcomes of the tasks created so far. *)
Fixpoint eval (ls : list outcome) (b : body) : outcome :=
  match b with
  | CRet v => OVal v
  | CThrow e => OExn e
  | CTimer k => eval ls k
  | CSpawn c k => eval (ls ++ [eval [] c]) k
  | CAwait i k => match nth_error ls i with Some o => eval ls (k o) | None => OExn 0 end
  | CDetach _ k => eval ls k
  end.

(** How many actions that takes, with the resumptions by the event loop. *)
Fixpoint cost (ls : list outcome) (b : body) : nat :=
  match b with
  | CRet _ | CThrow _ => 1
  | CTimer k => 2 + cost ls k
  | CSpawn c k => 1 + cost [] c + cost (ls ++ [eval [] c]) k
  | CAwait i k => match nth_error ls i with Some o => 1 + cost ls (k o) | None => 0 end
  | CDetach _ k => 1 + cost ls k
  end.

(** Structured bodies: every task is awaited, or released, exactly once and before the body ends.  [pend] says which of the
    tasks created so far still are to be awaited.  A body made of UpdateTasks does not throw, one made of ProcessTasks does
    not release. *)
Fixpoint structured (update : bool) (pend : list bool) (b : body) : Prop :=
  match b with
  | CRet _ => forall i, nth_error pend i <> Some true
  | CThrow _ => update = false /\ forall i, nth_error pend i <> Some true
  | CTimer k => structured update pend k
  | CSpawn c k => structured update [] c /\ structured update (pend ++ [true]) k
  | CAwait i k => nth_error pend i = Some true /\ forall o, structured update (set_nth pend i false) (k o)
  | CDetach i k => update = true /\ nth_error pend i = Some true /\ structured update (set_nth pend i false) k
  end.

(** Nothing executes and nothing is left to be resumed. *)
Definition quiescent (m : machine) : Prop := stack m = [] /\ timers m = [].

(** [mrun update n m m']: [n] steps lead from [m] to [m']. *)
Inductive mrun (update : bool) : nat -> machine -> machine -> Prop :=
| MR0 m : mrun update 0 m m
| MRS n m m' m'' : mrun update n m m' -> mstep update m' (Ok m'') -> mrun update (S n) m m''.
