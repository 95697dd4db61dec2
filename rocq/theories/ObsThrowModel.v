(** Model of Awl/ObservableSet.h, MirrorSet.h and ForeignSet.h as in ObsSetModel.v, with observers that throw exceptions: the
    sets and the observers are followed after an exception too.

    [res] is used for undefined behaviour only; what is thrown is a part of the result.  Besides mirrors and foreign sets there are
    observers of the user, which record the calls and throw when their plan says so. *)
From Verif Require Import Common ObsSetModel.

Section ObsThrow.
Context {T : Type} (pk fk : T -> Z).

Inductive call := KAdded (v : T) | KRemoving (v : T) | KClearing.
Inductive tnode :=
| TMirror (lt : T -> T -> bool) (xs : list T) (subs : list tnode)
| TForeign (gs : list (list T))
| TUser (log : list call) (plan : list bool).   (* the latest call is the first one; does the n-th call from now on throw? *)

(** Observable.h:107-117 Notify: the first exception leaves the loop *)
Definition each (f : tnode -> res (tnode * option exn)) : list tnode -> res (list tnode * option exn) :=
  fix go l :=
    match l with
    | [] => Ok ([], None)
    | s :: r =>
      let* (s', x) := f s in
      match x with
      | Some e => Ok (s' :: r, Some e)
      | None => let* (r', x') := go r in Ok (s' :: r', x')
      end
    end.
(** A call of an observer of the user *)
Definition u_call (c : call) (log : list call) (plan : list bool) : tnode * option exn :=
  (TUser (c :: log) (tl plan), if hd false plan then Some RuntimeError else None).

(** MirrorSet.h:183-189, ObservableSet.h:143-148: the element is in the mirror when the observers of the mirror are called *)
Fixpoint t_added (v : T) (n : tnode) : res (tnode * option exn) :=
  match n with
  | TMirror lt xs subs =>
    let (xs', is_new) := vinsert lt v xs in
    if is_new then let* (subs', x) := each (t_added v) subs in Ok (TMirror lt xs' subs', x)
    else Ok (n, Some LogicError)
  | TForeign gs => let* gs' := f_added pk fk v gs in Ok (TForeign gs', None)
  | TUser log plan => Ok (u_call (KAdded v) log plan)
  end.
(** MirrorSet.h:191-197, ObservableSet.h:244-262: the element leaves the mirror when all its observers have returned *)
Fixpoint t_removing (v : T) (n : tnode) : res (tnode * option exn) :=
  match n with
  | TMirror lt xs subs =>
    match find (eqv lt v) xs with
    | Some y =>
      let* (subs', x) := each (t_removing y) subs in
      Ok (TMirror lt (match x with None => vremove (eqv lt v) xs | Some _ => xs end) subs', x)
    | None => Ok (n, Some LogicError)
    end
  | TForeign gs => let* gs' := f_removing pk fk v gs in Ok (TForeign gs', None)
  | TUser log plan => Ok (u_call (KRemoving v) log plan)
  end.
(** MirrorSet.h:199-202, ForeignSet.h:225-228, ObservableSet.h:264-271 *)
Fixpoint t_clearing (n : tnode) : res (tnode * option exn) :=
  match n with
  | TMirror lt xs subs =>
    match xs with
    | [] => Ok (n, None)
    | _ =>
      let* (subs', x) := each t_clearing subs in
      Ok (TMirror lt (match x with None => [] | Some _ => xs end) subs', x)
    end
  | TForeign _ => Ok (TForeign [], None)
  | TUser log plan => Ok (u_call KClearing log plan)
  end.

Record tsource := TSource { tlt : T -> T -> bool; txs : list T; tsubs : list tnode }.
(** What a statement of the program does: it returns, throws, or std::terminate is called *)
Inductive outcome := Returned (n : nat) | Threw (e : exn) | Terminated.
Definition done (n : nat) (x : option exn) : outcome := match x with None => Returned n | Some e => Threw e end.
Definition bit (b : bool) : nat := if b then 1 else 0.

(** ObservableSet.h:143-155 insert *)
Definition t_insert (v : T) (s : tsource) : res (tsource * outcome) :=
  let (xs', is_new) := vinsert (tlt s) v (txs s) in
  if is_new then let* (subs', x) := each (t_added v) (tsubs s) in Ok (TSource (tlt s) xs' subs', done 1 x)
  else Ok (s, Returned 0).
(** ObservableSet.h:244-248 erase(iterator) *)
Definition t_erase_elem (y : T) (xs' : list T) (s : tsource) : res (tsource * outcome) :=
  let* (subs', x) := each (t_removing y) (tsubs s) in
  Ok (TSource (tlt s) (match x with None => xs' | Some _ => txs s end) subs', done 1 x).
(** ObservableSet.h:251-262 erase(key) *)
Definition t_erase (v : T) (s : tsource) : res (tsource * outcome) :=
  match find (eqv (tlt s) v) (txs s) with
  | Some y => t_erase_elem y (vremove (eqv (tlt s) v) (txs s)) s
  | None => Ok (s, Returned 0)
  end.
(** ObservableSet.h:264-271 clear *)
Definition t_clear (s : tsource) : res (tsource * option exn) :=
  match txs s with
  | [] => Ok (s, None)
  | _ =>
    let* (subs', x) := each t_clearing (tsubs s) in
    Ok (TSource (tlt s) (match x with None => [] | Some _ => txs s end) subs', x)
  end.
(** ObservableSet.h:101-104 *)
Fixpoint t_added_each (vs : list T) (l : list tnode) : res (list tnode * option exn) :=
  match vs with
  | [] => Ok (l, None)
  | v :: r =>
    let* (l', x) := each (t_added v) l in
    match x with Some e => Ok (l', Some e) | None => t_added_each r l' end
  end.
(** ObservableSet.h:93-105 migrate, of two sets *)
Definition t_migrate (a b : tsource) : res (tsource * tsource * outcome) :=
  let* (a1, x) := t_clear a in
  match x with
  | Some e => Ok (a1, b, Threw e)
  | None =>
    let* (bs, x) := each t_clearing (tsubs b) in
    match x with
    | Some e => Ok (a1, TSource (tlt b) (txs b) bs, Threw e)
    | None =>
      let* (as_, x) := t_added_each (txs b) (tsubs a1) in
      Ok (TSource (tlt b) (txs b) as_, TSource (tlt b) [] bs, done 0 x)
    end
  end.
(** ... and of a set to itself *)
Definition t_migrate_self (a : tsource) : res (tsource * outcome) :=
  let* (a1, x) := t_clear a in
  match x with
  | Some e => Ok (a1, Threw e)
  | None => let* (as_, x) := each t_clearing (tsubs a1) in
            Ok (TSource (tlt a) [] as_, done 0 x)
  end.
(** The destructor, ObservableSet.h:107-113, and the beginning of the move assignment, 79-84, are noexcept: does an exception of an
    observer call std::terminate? *)
Definition t_last_clearing (xs : list T) (subs : list tnode) : res bool :=
  match xs with
  | [] => Ok false
  | _ => let* (_, x) := each t_clearing subs in Ok (match x with None => false | Some _ => true end)
  end.

(** MirrorSet.h:63-85, ForeignSet.h:78-87: the observer is subscribed when all the elements have been added *)
Fixpoint t_fill (vs : list T) (n : tnode) : res (tnode * option exn) :=
  match vs with
  | [] => Ok (n, None)
  | v :: r =>
    let* (n', x) := t_added v n in
    match x with Some e => Ok (n', Some e) | None => t_fill r n' end
  end.
(** A new observer; one of the user is subscribed as it is. *)
Inductive kind := KMirror (lt : T -> T -> bool) | KForeign | KUser (plan : list bool).
Definition t_new (k : kind) (xs : list T) : res (tnode * option exn) :=
  match k with
  | KMirror lt => t_fill xs (TMirror lt [] [])
  | KForeign => t_fill xs (TForeign [])
  | KUser plan => Ok (TUser [] plan, None)
  end.
(** The set at a path as in ObsSetModel.v *)
Fixpoint t_subscribe (path : list nat) (k : kind) (xs : list T) (subs : list tnode) : res (list tnode * option exn) :=
  match path with
  | [] =>
    let* (n, x) := t_new k xs in
    match x with Some e => Ok (subs, Some e) | None => Ok (subs ++ [n], None) end
  | i :: p =>
    match nth_error subs i with
    | Some (TMirror lt ys ss) => let* (ss', x) := t_subscribe p k ys ss in Ok (set_nth subs i (TMirror lt ys ss'), x)
    | _ => UB
    end
  end.
(** The destruction of the observer at a path; true: std::terminate *)
Fixpoint t_drop (path : list nat) (subs : list tnode) : res (list tnode * bool) :=
  match path with
  | [] => UB
  | i :: p =>
    match nth_error subs i with
    | None => UB
    | Some n =>
      match p with
      | [] =>
        match n with
        | TMirror _ ys ss => let* b := t_last_clearing ys ss in Ok (remove_nth i subs, b)
        | _ => Ok (remove_nth i subs, false)
        end
      | _ =>
        match n with
        | TMirror lt ys ss => let* (ss', b) := t_drop p ss in Ok (set_nth subs i (TMirror lt ys ss'), b)
        | _ => UB
        end
      end
    end
  end.

Inductive top :=
| TNew (i : nat) (lt : T -> T -> bool)
| TInsert (i : nat) (v : T)
| TErase (i : nat) (v : T)
| TEraseAt (i : nat) (n : nat)
| TClear (i : nat)
| TMigrate (i j : nat)
| TMove (i j : nat)
| TMoveAssign (i j : nat)
| TDestroy (i : nat)
| TSubscribe (i : nat) (path : list nat) (k : kind)
| TDrop (i : nat) (path : list nat).

Definition tenv := nat -> option tsource.
Definition no_tsets : tenv := fun _ => None.

Definition tstep (e : tenv) (o : top) : res (tenv * outcome) :=
  let on i (f : tsource -> res (tenv * outcome)) := match e i with Some s => f s | None => UB end in
  let free i (k : res (tenv * outcome)) := match e i with None => k | Some _ => UB end in
  match o with
  | TNew i lt => free i (Ok (upd e i (Some (TSource lt [] [])), Returned 0))
  | TInsert i v => on i (fun s => let* (s1, r) := t_insert v s in Ok (upd e i (Some s1), r))
  | TErase i v => on i (fun s => let* (s1, r) := t_erase v s in Ok (upd e i (Some s1), r))
  | TEraseAt i n => on i (fun s =>
      match nth_error (txs s) n with
      | Some y => let* (s1, r) := t_erase_elem y (remove_nth n (txs s)) s in Ok (upd e i (Some s1), r)
      | None => UB
      end)
  | TClear i => on i (fun s => let* (s1, x) := t_clear s in Ok (upd e i (Some s1), done 0 x))
  | TMigrate i j => on i (fun a => on j (fun b =>
      if Nat.eqb i j then let* (a1, r) := t_migrate_self a in Ok (upd e i (Some a1), r)
      else let* (a1, b1, r) := t_migrate a b in Ok (upd (upd e j (Some b1)) i (Some a1), r)))
  | TMove i j => free i (on j (fun b => Ok (upd (upd e j (Some (TSource (tlt b) [] []))) i (Some b), Returned 0)))
  | TMoveAssign i j => on i (fun a => on j (fun b =>
      let* t := t_last_clearing (txs a) (tsubs a) in
      if t then Ok (e, Terminated)
      else if Nat.eqb i j then Ok (upd e i (Some (TSource (tlt a) [] [])), Returned 0)
      else Ok (upd (upd e j (Some (TSource (tlt b) [] []))) i (Some b), Returned 0)))
  | TDestroy i => on i (fun a =>
      let* t := t_last_clearing (txs a) (tsubs a) in
      if t then Ok (e, Terminated) else Ok (upd e i None, Returned 0))
  | TSubscribe i p k => on i (fun s =>
      let* (subs', x) := t_subscribe p k (txs s) (tsubs s) in Ok (upd e i (Some (TSource (tlt s) (txs s) subs')), done 0 x))
  | TDrop i p => on i (fun s =>
      let* (subs', t) := t_drop p (tsubs s) in
      if t then Ok (e, Terminated) else Ok (upd e i (Some (TSource (tlt s) (txs s) subs')), Returned 0))
  end.

(** A program that catches the exceptions *)
Fixpoint trun (e : tenv) (os : list top) : res (tenv * list outcome) :=
  match os with
  | [] => Ok (e, [])
  | o :: os' =>
    let* (e1, r) := tstep e o in
    match r with
    | Terminated => Ok (e1, [Terminated])
    | _ => let* (e2, rs) := trun e1 os' in Ok (e2, r :: rs)
    end
  end.
End ObsThrow.
