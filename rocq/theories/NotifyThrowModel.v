(** Model of notifications with observers that throw or return false: Awl/Observable.h:107-135 (Notify and NotifyWhileTrue) over the
    pointer-level lists of QListModel.v.  NotifyNestModel.v has Notify alone and no exceptions. *)
From Verif Require Import Common QListModel.

(** What an observer does when it is called: list operations (see ObserverModel.v), Notify, [if (!NotifyWhileTrue(...)) { no }],
    [try { body } catch (...) { handler }], throw and return.  A function that returns nothing, or that ends without a return, returns true. *)
Inductive act :=
| AOp (o : qop)
| ANotify (l : nat)
| AWhile (l : nat) (no : list act)
| ATry (body handler : list act)
| AThrow
| AReturn (b : bool).
(** The observable and the observer *)
Notation call := (nat * nat)%type.
(** How the statements ended: the next one follows, the function returned or it is left by an exception *)
Inductive out := Next | Returned (b : bool) | Thrown.
(** Running: not finished within the given number of steps *)
Inductive answer := Running | Undefined | Done (st : qstate) (log : list call) (o : out).
Definition abind (a : answer) (k : qstate -> list call -> out -> answer) : answer :=
  match a with Done st log o => k st log o | a => a end.
Definition of_res {A} (r : res A) (k : A -> answer) : answer := match r with Ok a => k a | _ => Undefined end.

Section Notify.
(** What the observer does depends on the calls that have begun before. *)
Context (cb : list call -> nat -> nat -> list act).

(** The statements of an observer.  The depth of the stack is not limited. *)
Fixpoint perform (fuel : nat) (st : qstate) (log : list call) (acts : list act) : answer :=
  match fuel with
  | O => Running
  | S f =>
    match acts with
    | [] => Done st log Next
    | AThrow :: _ => Done st log Thrown
    | AReturn b :: _ => Done st log (Returned b)
    | AOp o :: r => of_res (qstep st o) (fun p => perform f (fst p) log r)
    | ANotify l :: r =>                                                       (* Notify, 108-118 *)
        of_res (fnext (fst st) (Some (Nl l))) (fun i => abind (walk f false st log l i) (fun st1 log1 o =>
          match o with Thrown => Done st1 log1 Thrown | _ => perform f st1 log1 r end))
    | AWhile l no :: r =>                                                     (* NotifyWhileTrue, 120-135 *)
        of_res (fnext (fst st) (Some (Nl l))) (fun i => abind (walk f true st log l i) (fun st1 log1 o =>
          match o with
          | Thrown => Done st1 log1 Thrown
          | Returned false => perform f st1 log1 (no ++ r)
          | _ => perform f st1 log1 r
          end))
    | ATry body handler :: r =>
        abind (perform f st log body) (fun st1 log1 o =>
          match o with
          | Thrown => perform f st1 log1 (handler ++ r)
          | Next => perform f st1 log1 r
          | Returned b => Done st1 log1 (Returned b)
          end)
    end
  end
(** The loops with their iterator; [w]: that of NotifyWhileTrue.  The end of the loop is Returned true. *)
with walk (fuel : nat) (w : bool) (st : qstate) (log : list call) (l : nat) (i : ptr) : answer :=
  match fuel with
  | O => Running
  | S f =>
    if p_is i (Nl l) then Done st log (Returned true)                         (* 111, 123; 134 *)
    else
      of_res (as_elem i) (fun n => of_res (fnext (fst st) i) (fun i1 =>       (* 114, 126 *)
        abind (perform f st (log ++ [(l, n)]) (cb log l n)) (fun st1 log1 o => (* 116, 128 *)
          match o with
          | Thrown => Done st1 log1 Thrown
          | Returned false => if w then Done st1 log1 (Returned false) else walk f w st1 log1 l i1    (* 130 *)
          | _ => walk f w st1 log1 l i1
          end)))
  end.
End Notify.
