(** Model of Awl/ForeignSet.h with the source that it observes and with observers of the foreign_set and of its groups that throw.  The
    groups and the calls are those of GroupObsModel.v; here an observer may leave Notify with an exception, and what is left behind is
    followed.

    The source is an observable_set with the foreign_set as its only observer, ordered by the primary key; its elements are a list without an
    order (C01).  An exception is caught by the program, unless it comes from a destructor. *)
From Verif Require Import Common ObsSetModel ObsThrowModel GroupObsModel.

Section GroupThrow.
Context {T : Type} (pk fk : T -> Z).

Inductive fin := Returns | Throws | Terminates.
Record tst := TSt { src : list T; fs : fst_ (T := T) }.
Definition tinit : tst := TSt [] finit.

(** Observable.h:107-117 Notify: the exception of an observer leaves the loop.  [bad]: the observers that throw *)
Fixpoint notify {C : Type} (bad : nat -> bool) (c : C) (os : list nat) (l : nat -> list C) : (nat -> list C) * bool :=
  match os with
  | [] => (l, false)
  | i :: r =>
    let l' := upd l i (c :: l i) in
    if bad i then (l', true) else notify bad c r l'
  end.
Definition thrown (x : bool) : fin := if x then Throws else Returns.

(** ForeignSet.h:173-194, ObservableSet.h:143-155: the element, or the group, is there when the observers are called.  The local group
    has no observers, and is empty when it is destroyed. *)
Definition t_add (bad : nat -> bool) (v : T) (s : fst_) : res (fst_ * fin) :=
  let* o := find_pos fk (fk v) (grs s) in
  match o with
  | Some n =>
    match nth_error (grs s) n with
    | Some (g, os) =>
      let (g', is_new) := vinsert (pk_lt pk) v g in
      let (l, x) := notify bad (KAdded v) os (glog s) in
      guard is_new (Ok (FSt (set_nth (grs s) n (g', os)) (watch s) l (wlog s), thrown x))
    | None => UB
    end
  | None =>
    let* gs := insert_gr fk ([v], []) (grs s) in
    let (w, x) := notify bad (GAdded [v]) (watch s) (wlog s) in
    Ok (FSt gs (watch s) (glog s) w, thrown x)
  end.
(** ~observable_set, ObservableSet.h:107-113, of a group: its destructor is noexcept *)
Fixpoint destroy_groups (bad : nat -> bool) (gs : list (group (T := T))) (l : nat -> list (call (T := T))) : option (nat -> list (call (T := T))) :=
  match gs with
  | [] => Some l
  | (_, os) :: r => let (l', x) := notify bad KClearing os l in if x then None else destroy_groups bad r l'
  end.
(** ForeignSet.h:196-223, ObservableSet.h:244-262: nothing is removed yet when the observers are called *)
Definition t_remove (bad : nat -> bool) (v : T) (s : fst_) : res (fst_ * fin) :=
  let* o := find_pos fk (fk v) (grs s) in
  match o with
  | None => UB
  | Some n =>
    match nth_error (grs s) n with
    | Some ([x], os) =>
      guard (Z.eqb (pk x) (pk v))
        (let (w, e) := notify bad (GRemoving [x]) (watch s) (wlog s) in
         if e then Ok (FSt (grs s) (watch s) (glog s) w, Throws)
         else match destroy_groups bad [([x], os)] (glog s) with
              | Some l => Ok (FSt (remove_nth n (grs s)) (watch s) l w, Returns)
              | None => Ok (s, Terminates)
              end)
    | Some (g, os) =>
      let has y := Z.eqb (pk y) (pk v) in
      match find has g with
      | Some x =>
        let (l, e) := notify bad (KRemoving x) os (glog s) in
        Ok (FSt (if e then grs s else set_nth (grs s) n (vremove has g, os)) (watch s) l (wlog s), thrown e)
      | None => UB
      end
    | None => UB
    end
  end.
(** ForeignSet.h:225-228, ObservableSet.h:264-271 *)
Definition t_clear (bad : nat -> bool) (s : fst_) : fst_ * fin :=
  match grs s with
  | [] => (s, Returns)
  | gs =>
    let (w, e) := notify bad GClearing (watch s) (wlog s) in
    if e then (FSt gs (watch s) (glog s) w, Throws)
    else match destroy_groups bad gs (glog s) with
         | Some l => (FSt [] (watch s) l w, Returns)
         | None => (s, Terminates)
         end
  end.

Inductive top :=
| TAdd (v : T)                  (* source.insert(v) *)
| TErase (k : Z)                (* source.erase of the primary key *)
| TClear                        (* source.clear() *)
| TObserve (i : nat) (k : Z) | TWatch (i : nat) | TLeave (i : nat).   (* as in GroupObsModel.v *)

(** The source: ObservableSet.h:143-148 insert, 244-262 erase, 264-271 clear *)
Definition tstep (bad : nat -> bool) (o : top) (s : tst) : res (tst * fin) :=
  match o with
  | TAdd v =>
    if existsb (fun y => Z.eqb (pk y) (pk v)) (src s) then Ok (s, Returns)
    else let* (f, x) := t_add bad v (fs s) in Ok (TSt (v :: src s) f, x)
  | TErase k =>
    match find (fun y => Z.eqb (pk y) k) (src s) with
    | Some v =>
      let* (f, x) := t_remove bad v (fs s) in
      Ok (TSt (match x with Returns => filter (fun y => negb (Z.eqb (pk y) k)) (src s) | _ => src s end) f, x)
    | None => Ok (s, Returns)
    end
  | TClear =>
    match src s with
    | [] => Ok (s, Returns)
    | _ => let (f, x) := t_clear bad (fs s) in Ok (TSt (match x with Returns => [] | _ => src s end) f, x)
    end
  | TObserve i k => let* f := fstep pk fk (FObserve i k) (fs s) in Ok (TSt (src s) f, Returns)
  | TWatch i => let* f := fstep pk fk (FWatch i) (fs s) in Ok (TSt (src s) f, Returns)
  | TLeave i => let* f := fstep pk fk (FLeave i) (fs s) in Ok (TSt (src s) f, Returns)
  end.
End GroupThrow.
