(** Model of notifications inside notifications, Awl/Observable.h over the pointer-level lists of
    QListModel.v. *)
From Verif Require Import Common QListModel.

(** What an observer does when it is called: list operations (see ObserverModel.v) and Notify of an
    observable.  A call is the observable and the observer. *)
Inductive act := AOp (o : qop) | ANotify (l : nat).
Notation call := (nat * nat)%type.
(** The rest of a function body, and the loop of Notify with its iterator after i++ *)
Inductive frame := FActs (acts : list act) | FWalk (l : nat) (i : ptr).
(** The lists, the calls that have begun, the call stack with the innermost function first *)
Record config := Config { links : qstate; calls : list call; frames : list frame }.

Section Nest.
(** What the observer does depends on the calls that have begun before. *)
Context (cb : list call -> nat -> nat -> list act).

(** One statement of the innermost function; Notify is Observable.h:108-118.  The depth of the stack is not limited. *)
Definition nstep (c : config) : res config :=
  let (st, log, fs) := c in
  match fs with
  | [] => Ok c
  | FActs [] :: k => Ok (Config st log k)
  | FActs (AOp o :: r) :: k => let* (st1, _) := qstep st o in Ok (Config st1 log (FActs r :: k))
  | FActs (ANotify l :: r) :: k => let* i := fnext (fst st) (Some (Nl l)) in Ok (Config st log (FWalk l i :: FActs r :: k))
  | FWalk l i :: k =>
    if p_is i (Nl l) then Ok (Config st log k)
    else
      let* n := as_elem i in
      let* i1 := fnext (fst st) i in
      Ok (Config st (log ++ [(l, n)]) (FActs (cb log l n) :: FWalk l i1 :: k))
  end.
Fixpoint nrun (steps : nat) (c : config) : res config :=
  match steps with O => Ok c | S s => let* c1 := nstep c in nrun s c1 end.
(** observable.Notify(...) called from outside *)
Definition nstart (st : qstate) (l : nat) : config := Config st [] [FActs [ANotify l]].
End Nest.
