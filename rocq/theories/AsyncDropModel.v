(** Model of the destruction of an async_generator (Awl/Coro/AsyncGenerator.h:366-372), and of the coroutine that iterates over
    it, at any moment: AsyncGenModel.v with the frames that have been destroyed.  What happens to the variables is GenVarModel.v. *)
From Verif Require Import Common AsyncGenModel.

Section AsyncDrop.
Variables (S V R : Type).
Variable step : S -> pout S V.

Record dmach := DMach { mach : amach S V R; pdead : bool; cdead : bool }.

(** One step of the coroutine that is executing or an event that resumes the one that is suspended on it; ~async_generator; the
    destruction of the consumer's frame.  When the generator is a local variable of the consumer, the latter is both. *)
Inductive dact := DTick | DDropGen | DDropConsumer.

(** Does the next step of the machine resume or access the frame of the producer, of the consumer? *)
Definition needs_producer (c : control V R) : bool :=
  match c with
  | CRun (KBegin _) | CRun (KNext _) | CRun (KDeref _) | PRun _ _ | PEvent _ _ => true
  | _ => false
  end.
Definition needs_consumer (m : amach S V R) : bool :=
  match ctl m with
  | CRun _ | CEvent _ => true
  | PRun _ _ => match pc m with PSuspended s => match step s with AWait _ => false | _ => true end | PDone => true end  (* :108-112 *)
  | PEvent _ _ | CDone _ => false
  end.
Definition producer_executes (c : control V R) : bool := match c with PRun _ _ => true | _ => false end.
Definition consumer_executes (c : control V R) : bool := match c with CRun _ => true | _ => false end.

Definition dtick (d : dmach) (a : dact) : res dmach :=
  let m := mach d in
  match a with
  | DTick =>
    if pdead d && needs_producer (ctl m) || cdead d && needs_consumer m then UB
    else let* m' := atick step m in Ok (DMach m' (pdead d) (cdead d))
  | DDropGen =>       (* coroutine_handle::destroy needs a coroutine that is suspended *)
    if pdead d || producer_executes (ctl m) then UB else Ok (DMach m true (cdead d))
  | DDropConsumer =>
    if cdead d || consumer_executes (ctl m) then UB else Ok (DMach m (pdead d) true)
  end.

Fixpoint druns (d : dmach) (l : list dact) : res dmach :=
  match l with
  | [] => Ok d
  | a :: l' => let* d' := dtick d a in druns d' l'
  end.
End AsyncDrop.
Arguments DMach {S V R}. Arguments mach {S V R}. Arguments pdead {S V R}. Arguments cdead {S V R}.
Arguments needs_producer {V R}. Arguments needs_consumer {S V R}. Arguments producer_executes {V R}. Arguments consumer_executes {V R}.
Arguments dtick {S V R}. Arguments druns {S V R}.
