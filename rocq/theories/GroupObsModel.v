(** Model of Awl/ForeignSet.h with observers of the foreign_set itself (Subscribe, 141-144) and of its groups, which are
    observable sets.  The groups without the observers are those of ObsSetModel.v.

    An observer is a number; it records the calls, the latest is the first one.  When it begins to observe a set it is told about
    the elements that are there, as MirrorSet.h:63-72 does; this is recorded too. *)
From Verif Require Import Common ObsSetModel ObsThrowModel.

Section GroupObs.
Context {T : Type} (pk fk : T -> Z).

Notation call := (call (T := T)).
(** INotifySetChanged<ValueSet>; the argument is the group at that moment *)
Inductive gcall := GAdded (g : list T) | GRemoving (g : list T) | GClearing.
Definition group : Type := list T * list nat.    (* the elements, the observers of the group *)
Record fst_ := FSt {
  grs : list group;
  watch : list nat;                   (* the observers of the foreign_set *)
  glog : nat -> list call;
  wlog : nat -> list gcall
}.
Definition finit : fst_ := FSt [] [] (fun _ => []) (fun _ => []).

(** Observable.h:107-117 *)
Definition tell (c : call) (os : list nat) (l : nat -> list call) : nat -> list call :=
  fold_left (fun l i => upd l i (c :: l i)) os l.
Definition tell_watch (c : gcall) (os : list nat) (l : nat -> list gcall) : nat -> list gcall :=
  fold_left (fun l i => upd l i (c :: l i)) os l.

(** m_set.find(key), ForeignSet.h:177, 200; every group is asked for its key *)
Fixpoint find_pos (k : Z) (gs : list group) : res (option nat) :=
  match gs with
  | [] => Ok None
  | (g, _) :: r =>
    let* k' := group_key fk g in
    let* o := find_pos k r in
    Ok (if Z.eqb k' k then Some 0 else option_map S o)
  end.
Fixpoint insert_gr (n : group) (gs : list group) : res (list group) :=
  let* k' := group_key fk (fst n) in
  match gs with
  | [] => Ok [n]
  | (g, os) :: r =>
    let* k := group_key fk g in
    if (k' <? k)%Z then Ok (n :: (g, os) :: r) else let* r' := insert_gr n r in Ok ((g, os) :: r')
  end.

(** ForeignSet.h:173-194 *)
Definition on_add (v : T) (s : fst_) : res fst_ :=
  let* o := find_pos (fk v) (grs s) in
  match o with
  | Some n =>
    match nth_error (grs s) n with
    | Some (g, os) =>
      let (g', is_new) := vinsert (pk_lt pk) v g in
      guard is_new (Ok (FSt (set_nth (grs s) n (g', os)) (watch s) (tell (KAdded v) os (glog s)) (wlog s)))
    | None => UB
    end
  | None =>
    let* gs := insert_gr ([v], []) (grs s) in
    Ok (FSt gs (watch s) (glog s) (tell_watch (GAdded [v]) (watch s) (wlog s)))
  end.
(** ForeignSet.h:196-223; ObservableSet.h:244-262: the observers are told before, and ~observable_set, ObservableSet.h:107-113,
    Observable.h:64-67, tells the observers of the group that is destroyed and unsubscribes them *)
Definition on_remove (v : T) (s : fst_) : res fst_ :=
  let* o := find_pos (fk v) (grs s) in
  match o with
  | None => UB
  | Some n =>
    match nth_error (grs s) n with
    | Some ([x], os) =>
      guard (Z.eqb (pk x) (pk v))
        (Ok (FSt (remove_nth n (grs s)) (watch s) (tell KClearing os (glog s)) (tell_watch (GRemoving [x]) (watch s) (wlog s))))
    | Some (g, os) =>
      let has y := Z.eqb (pk y) (pk v) in
      match find has g with
      | Some x => Ok (FSt (set_nth (grs s) n (vremove has g, os)) (watch s) (tell (KRemoving x) os (glog s)) (wlog s))
      | None => UB
      end
    | None => UB
    end
  end.
(** ForeignSet.h:225-228, ObservableSet.h:264-271: the observers of the foreign_set first, then the groups are destroyed *)
Definition on_clear (s : fst_) : fst_ :=
  match grs s with
  | [] => s
  | gs => FSt [] (watch s) (fold_left (fun l g => tell KClearing (snd g) l) gs (glog s)) (tell_watch GClearing (watch s) (wlog s))
  end.

Inductive fop :=
| FAdd (v : T) | FRemove (v : T) | FClear   (* the notifications of the source *)
| FObserve (i : nat) (k : Z)                (* i begins to observe the group with the key k *)
| FWatch (i : nat)                          (* i begins to observe the foreign_set *)
| FLeave (i : nat).                         (* i is destroyed: Observable.h:47-50 *)

Definition subscribed (i : nat) (s : fst_) : bool :=
  existsb (fun g => existsb (Nat.eqb i) (snd g)) (grs s) || existsb (Nat.eqb i) (watch s).
Definition leave (i : nat) (l : list nat) : list nat := filter (fun j => negb (Nat.eqb j i)) l.

Definition fstep (o : fop) (s : fst_) : res fst_ :=
  match o with
  | FAdd v => on_add v s
  | FRemove v => on_remove v s
  | FClear => Ok (on_clear s)
  | FObserve i k =>
    if subscribed i s then UB else
    let* p := find_pos k (grs s) in
    match p with
    | Some n =>
      match nth_error (grs s) n with
      | Some (g, os) =>
        Ok (FSt (set_nth (grs s) n (g, os ++ [i])) (watch s) (upd (glog s) i (rev (map KAdded g))) (wlog s))
      | None => UB
      end
    | None => UB
    end
  | FWatch i =>
    if subscribed i s then UB else
    Ok (FSt (grs s) (watch s ++ [i]) (glog s) (upd (wlog s) i (rev (map (fun g => GAdded (fst g)) (grs s)))))
  | FLeave i =>
    Ok (FSt (map (fun g => (fst g, leave i (snd g))) (grs s)) (leave i (watch s)) (upd (glog s) i []) (upd (wlog s) i []))
  end.
Fixpoint frun (os : list fop) (s : fst_) : res fst_ :=
  match os with
  | [] => Ok s
  | o :: os' => let* s' := fstep o s in frun os' s'
  end.
End GroupObs.
