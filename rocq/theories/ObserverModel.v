(** Model of Awl/Observable.h on top of the pointer-level lists of QListModel.v.
    An observer is a list element (observer_link is a movable quick link), an
    observable is a list. *)
From Verif Require Import Common QListModel.

(** What the observers do when they are called: a list program, which may depend on
    the calls made before ([log]).  Subscribe is QPushBack, UnsubscribeSelf is
    QExclude, UnsubscribeSafe and ~Observer are QSafeExclude, moving an observer is
    QMoveElem / QAssignElem (Observable.h:15-50, 84-92).  Nested notifications are
    in NotifyNestModel.v. *)
Fixpoint qexec (st : qstate) (os : list qop) : res qstate :=
  match os with
  | [] => Ok st
  | o :: os' => let* (st1, _) := qstep st o in qexec st1 os'
  end.

(** Observable.h:109-118 Notify, the loop from iterator [i]; [log] are the observers
    called so far. *)
Fixpoint notify_loop (cb : list nat -> nat -> list qop) (fuel : nat) (st : qstate) (l : nat) (i : ptr) (log : list nat)
  : res (qstate * list nat) :=
  match fuel with
  | O => UB
  | S f =>
      if p_is i (Nl l) then Ok (st, log)
      else
        let* n := as_elem i in
        let* i1 := fnext (fst st) i in
        let* st1 := qexec st (cb log n) in
        notify_loop cb f st1 l i1 (log ++ [n])
  end.
Definition notify cb (fuel : nat) (st : qstate) (l : nat) : res (qstate * list nat) :=
  let* i := fnext (fst st) (Some (Nl l)) in notify_loop cb fuel st l i [].

(** Observable.h:121-135 NotifyWhileTrue; [ans] is what the observers return. *)
Fixpoint notify_while_loop (cb : list nat -> nat -> list qop) (ans : list nat -> nat -> bool)
  (fuel : nat) (st : qstate) (l : nat) (i : ptr) (log : list nat) : res (qstate * list nat * bool) :=
  match fuel with
  | O => UB
  | S f =>
      if p_is i (Nl l) then Ok (st, log, true)
      else
        let* n := as_elem i in
        let* i1 := fnext (fst st) i in
        let* st1 := qexec st (cb log n) in
        if ans log n then notify_while_loop cb ans f st1 l i1 (log ++ [n])
        else Ok (st1, log ++ [n], false)
  end.
Definition notify_while cb ans (fuel : nat) (st : qstate) (l : nat) : res (qstate * list nat * bool) :=
  let* i := fnext (fst st) (Some (Nl l)) in notify_while_loop cb ans fuel st l i [].

(** Observable.h:143-149 ClearObservers, called by the destructor (63-66) *)
Fixpoint clear_observers (fuel : nat) (m : mem) (l : nat) : res mem :=
  match fuel with
  | O => UB
  | S f => let* e := empty m l in
           if e then Ok m else let* (m1, _) := pop_front m l in clear_observers f m1 l
  end.
(** Observable.h:71-73 move constructor is QMoveList; 77-82 move assignment *)
Definition observable_move_assign (fuel : nat) (m : mem) (l src : nat) : res mem :=
  let* m1 := clear_observers fuel m l in list_move_assign m1 l src.
