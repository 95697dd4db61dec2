(** Model of Awl/ObservableSet.h, Awl/MirrorSet.h and Awl/ForeignSet.h.

    The contents of a vector_set are the sorted list of its elements and its
    operations those of VSetSpec.v, to which the pointer-level vector_set is proved
    equal (C01-C05); see [vinsert_spec], [verase_spec] in ObsSetProofs.v.  An observer
    has a single link, so observers form trees; a notification visits the observers of
    a set once each, in order (C21).  foreign_set keeps pointers to the elements of its
    source, which are not modified while they are in the set: they are modelled by
    the elements themselves. *)
From Verif Require Import Common.

Section ObsSet.
Context {T : Type} (pk fk : T -> Z).   (* PrimaryKeyGetter, ForeignKeyGetter *)

(** vector_set on sorted lists: find, insert (second = is new), erase of the element
    equivalent to a value *)
Definition eqv (lt : T -> T -> bool) (v x : T) : bool := negb (lt v x) && negb (lt x v).
Definition vins (lt : T -> T -> bool) (v : T) (xs : list T) : list T :=
  filter (fun x => lt x v) xs ++ v :: filter (fun x => negb (lt x v)) xs.
Definition vinsert (lt : T -> T -> bool) (v : T) (xs : list T) : list T * bool :=
  if existsb (eqv lt v) xs then (xs, false) else (vins lt v xs, true).
Fixpoint vremove (p : T -> bool) (xs : list T) : list T :=
  match xs with [] => [] | x :: r => if p x then r else x :: vremove p r end.

(** ForeignSet.h:29 ValueSet is a set ordered by the primary key, 65 MultiSet a set
    of those ordered by the foreign key of their first elements (39-60). *)
Definition pk_lt (a b : T) : bool := (pk a <? pk b)%Z.
Definition group_key (g : list T) : res Z := match g with [] => UB | x :: _ => Ok (fk x) end.
(** MultiSet::find and insert; every group is asked for its key. *)
Fixpoint find_group (key : Z) (gs : list (list T)) : res (option (list T)) :=
  match gs with
  | [] => Ok None
  | g :: r => let* k := group_key g in
              let* o := find_group key r in
              Ok (if Z.eqb k key then Some g else o)
  end.
Fixpoint set_group (key : Z) (g' : list T) (gs : list (list T)) : res (list (list T)) :=
  match gs with
  | [] => Ok []
  | g :: r => let* k := group_key g in
              let* r' := set_group key g' r in
              Ok (if Z.eqb k key then g' :: r' else g :: r')
  end.
Fixpoint erase_group (key : Z) (gs : list (list T)) : res (list (list T)) :=
  match gs with
  | [] => Ok []
  | g :: r => let* k := group_key g in
              let* r' := erase_group key r in
              Ok (if Z.eqb k key then r' else g :: r')
  end.
Fixpoint insert_group (g' : list T) (gs : list (list T)) : res (list (list T)) :=
  let* k' := group_key g' in
  match gs with
  | [] => Ok [g']
  | g :: r => let* k := group_key g in
              if (k' <? k)%Z then Ok (g' :: g :: r)
              else let* r' := insert_group g' r in Ok (g :: r')
  end.

(** ForeignSet.h:173-194 OnAdded, with its assertions *)
Definition f_added (v : T) (gs : list (list T)) : res (list (list T)) :=
  let* o := find_group (fk v) gs in
  match o with
  | Some g => let (g', is_new) := vinsert pk_lt v g in guard is_new (set_group (fk v) g' gs)
  | None => insert_group (fst (vinsert pk_lt v [])) gs
  end.
(** ForeignSet.h:196-223 OnRemoving *)
Definition f_removing (v : T) (gs : list (list T)) : res (list (list T)) :=
  let* o := find_group (fk v) gs in
  match o with
  | None => UB
  | Some g =>
      match g with
      | [] => UB
      | [x] => guard (Z.eqb (pk x) (pk v)) (erase_group (fk v) gs)
      | _ => let has y := Z.eqb (pk y) (pk v) in
             guard (existsb has g) (set_group (fk v) (vremove has g) gs)
      end
  end.

(** An observer: a mirror_set with its comparator, contents and own observers, or a
    foreign_set. *)
Inductive node :=
| Mirror (lt : T -> T -> bool) (xs : list T) (subs : list node)
| Foreign (gs : list (list T)).

(** MirrorSet.h:183-189 OnAdded: m_set is an observable_set, its insert
    (ObservableSet.h:143-148, 301-312) notifies the observers of the mirror. *)
Fixpoint on_added (v : T) (n : node) : res node :=
  match n with
  | Mirror lt xs subs =>
      let (xs', is_new) := vinsert lt v xs in
      if is_new then
        let* subs' := (fix notify (l : list node) : res (list node) :=
          match l with
          | [] => Ok []
          | s :: r => let* s' := on_added v s in let* r' := notify r in Ok (s' :: r')
          end) subs in
        Ok (Mirror lt xs' subs')
      else Throw LogicError
  | Foreign gs => let* gs' := f_added v gs in Ok (Foreign gs')
  end.
(** MirrorSet.h:191-197 OnRemoving: erase by value (ObservableSet.h:244-262) notifies
    with the element of the mirror before removing it. *)
Fixpoint on_removing (v : T) (n : node) : res node :=
  match n with
  | Mirror lt xs subs =>
      match find (eqv lt v) xs with
      | Some x =>
          let* subs' := (fix notify (l : list node) : res (list node) :=
            match l with
            | [] => Ok []
            | s :: r => let* s' := on_removing x s in let* r' := notify r in Ok (s' :: r')
            end) subs in
          Ok (Mirror lt (vremove (eqv lt v) xs) subs')
      | None => Throw LogicError
      end
  | Foreign gs => let* gs' := f_removing v gs in Ok (Foreign gs')
  end.
(** MirrorSet.h:199-202 and ForeignSet.h:225-228 OnClearing; ObservableSet.h:264-271 *)
Fixpoint on_clearing (n : node) : node :=
  match n with
  | Mirror lt xs subs => match xs with [] => Mirror lt [] subs | _ => Mirror lt [] (map on_clearing subs) end
  | Foreign _ => Foreign []
  end.

Fixpoint added_all (v : T) (l : list node) : res (list node) :=
  match l with [] => Ok [] | s :: r => let* s' := on_added v s in let* r' := added_all v r in Ok (s' :: r') end.
Fixpoint removing_all (v : T) (l : list node) : res (list node) :=
  match l with [] => Ok [] | s :: r => let* s' := on_removing v s in let* r' := removing_all v r in Ok (s' :: r') end.
Definition clearing_all (l : list node) : list node := map on_clearing l.
Fixpoint added_each (vs : list T) (l : list node) : res (list node) :=
  match vs with [] => Ok l | v :: r => let* l1 := added_all v l in added_each r l1 end.

(** A source observable_set: comparator, contents, observers. *)
Record source := { clt : T -> T -> bool; cxs : list T; csubs : list node }.

(** MirrorSet.h:63-72 (and 76-85) reflect, and the constructor ForeignSet.h:78-87:
    the new observer is told about every element and then subscribed. *)
Fixpoint fill (vs : list T) (n : node) : res node :=
  match vs with [] => Ok n | v :: r => let* n1 := on_added v n in fill r n1 end.

(** The set at a path: the source itself, or mirrors reached through subscribers. *)
Fixpoint subscribe_at (path : list nat) (n : node) (xs : list T) (subs : list node) : res (list node) :=
  match path with
  | [] => let* n1 := fill xs n in Ok (subs ++ [n1])
  | i :: p => match nth_error subs i with
              | Some (Mirror lt ys ss) =>
                  let* ss' := subscribe_at p n ys ss in Ok (set_nth subs i (Mirror lt ys ss'))
              | _ => UB
              end
  end.
(** Destruction of an observer (Observable.h:47-50 ~Observer; ObservableSet.h:107-113:
    its own observers are told that it is being cleared and are unsubscribed) *)
Fixpoint remove_nth {A} (i : nat) (l : list A) : list A :=
  match l, i with [], _ => [] | _ :: r, O => r | x :: r, S j => x :: remove_nth j r end.
Fixpoint drop_at (path : list nat) (subs : list node) : res (list node) :=
  match path with
  | [] => UB
  | [i] => if i <? length subs then Ok (remove_nth i subs) else UB
  | i :: p => match nth_error subs i with
              | Some (Mirror lt ys ss) => let* ss' := drop_at p ss in Ok (set_nth subs i (Mirror lt ys ss'))
              | _ => UB
              end
  end.

Inductive content := CMirror (xs : list T) | CForeign (gs : list (list T)).
Fixpoint look_at (path : list nat) (subs : list node) : option content :=
  match path with
  | [] => None
  | i :: p => match nth_error subs i with
              | None => None
              | Some (Mirror _ ys ss) => match p with [] => Some (CMirror ys) | _ => look_at p ss end
              | Some (Foreign gs) => match p with [] => Some (CForeign gs) | _ => None end
              end
  end.

Inductive oop :=
| ONew (i : nat) (lt : T -> T -> bool)
| OInsert (i : nat) (v : T)                     (* insert or emplace *)
| OErase (i : nat) (v : T)                      (* erase(key) with the key of v *)
| OEraseAt (i : nat) (n : nat)                  (* erase(iterator to the n-th element) *)
| OClear (i : nat)
| OMigrate (i j : nat)                          (* i.migrate(std::move(j)) *)
| OMove (i j : nat)                             (* observable_set i(std::move(j)) *)
| OMoveAssign (i j : nat)                       (* i = std::move(j) *)
| ODestroy (i : nat)
| OReflect (i : nat) (path : list nat) (lt : T -> T -> bool)  (* a new mirror of the set at path *)
| OForeign (i : nat) (path : list nat)                        (* a new foreign_set of it *)
| ODrop (i : nat) (path : list nat)                           (* destroy an observer *)
| OIter (i : nat)
| OLook (i : nat) (path : list nat).            (* iterate an observer *)

Inductive oobs := BUnit | BBool (b : bool) | BNat (n : nat) | BList (xs : list T) | BGroups (gs : list (list T)).
Definition oenv := nat -> option source.

(** ObservableSet.h:143-155 insert *)
Definition o_insert (v : T) (s : source) : res (source * bool) :=
  let (xs', is_new) := vinsert (clt s) v (cxs s) in
  if is_new then let* subs' := added_all v (csubs s) in Ok ({| clt := clt s; cxs := xs'; csubs := subs' |}, true)
  else Ok (s, false).
(** ObservableSet.h:244-248 erase(iterator) *)
Definition o_erase_elem (x : T) (xs' : list T) (s : source) : res source :=
  let* subs' := removing_all x (csubs s) in Ok {| clt := clt s; cxs := xs'; csubs := subs' |}.
(** ObservableSet.h:251-262 erase(key) *)
Definition o_erase (v : T) (s : source) : res (source * nat) :=
  match find (eqv (clt s) v) (cxs s) with
  | Some x => let* s1 := o_erase_elem x (vremove (eqv (clt s) v) (cxs s)) s in Ok (s1, 1)
  | None => Ok (s, 0)
  end.
(** ObservableSet.h:264-271 clear *)
Definition o_clear (s : source) : source :=
  match cxs s with [] => s | _ => {| clt := clt s; cxs := []; csubs := clearing_all (csubs s) |} end.
(** ObservableSet.h:93-105 migrate: observers stay where they are *)
Definition o_migrate (a b : source) : res (source * source) :=
  let a1 := o_clear a in
  let b1 := {| clt := clt b; cxs := []; csubs := clearing_all (csubs b) |} in
  let* subs' := added_each (cxs b) (csubs a1) in
  Ok ({| clt := clt b; cxs := cxs b; csubs := subs' |}, b1).

Definition ostep (e : oenv) (o : oop) : res (oenv * oobs) :=
  let on i (f : source -> res (oenv * oobs)) := match e i with Some s => f s | None => UB end in
  let free i (k : res (oenv * oobs)) := match e i with None => k | Some _ => UB end in
  let subs_ i (s : source) (r : res (list node)) :=
    let* l := r in Ok (upd e i (Some {| clt := clt s; cxs := cxs s; csubs := l |}), BUnit) in
  match o with
  | ONew i lt => free i (Ok (upd e i (Some {| clt := lt; cxs := []; csubs := [] |}), BUnit))
  | OInsert i v => on i (fun s => let* (s1, b) := o_insert v s in Ok (upd e i (Some s1), BBool b))
  | OErase i v => on i (fun s => let* (s1, n) := o_erase v s in Ok (upd e i (Some s1), BNat n))
  | OEraseAt i n => on i (fun s =>
      match nth_error (cxs s) n with
      | Some x => let* s1 := o_erase_elem x (remove_nth n (cxs s)) s in Ok (upd e i (Some s1), BUnit)
      | None => UB
      end)
  | OClear i => on i (fun s => Ok (upd e i (Some (o_clear s)), BUnit))
  | OMigrate i j => on i (fun a => on j (fun b =>
      if Nat.eqb i j then
        (* clear(), then nothing is left to move *)
        Ok (upd e i (Some {| clt := clt a; cxs := []; csubs := clearing_all (csubs (o_clear a)) |}), BUnit)
      else let* (a1, b1) := o_migrate a b in Ok (upd (upd e j (Some b1)) i (Some a1), BUnit)))
  (* ObservableSet.h:64 defaulted: contents and observers move *)
  | OMove i j => free i (on j (fun b =>
      Ok (upd (upd e j (Some {| clt := clt b; cxs := []; csubs := [] |})) i (Some b), BUnit)))
  (* ObservableSet.h:79-90: old observers are told of the clearing, then unsubscribed
     (Observable.h:77-82) *)
  | OMoveAssign i j => on i (fun a => on j (fun b =>
      if Nat.eqb i j then Ok (upd e i (Some {| clt := clt a; cxs := []; csubs := [] |}), BUnit)
      else Ok (upd (upd e j (Some {| clt := clt b; cxs := []; csubs := [] |})) i (Some b), BUnit)))
  (* ObservableSet.h:107-113; Observable.h:64-67; its observers are told and unsubscribed, and go out of view *)
  | ODestroy i => on i (fun _ => Ok (upd e i None, BUnit))
  | OReflect i p lt => on i (fun s => subs_ i s (subscribe_at p (Mirror lt [] []) (cxs s) (csubs s)))
  | OForeign i p => on i (fun s => subs_ i s (subscribe_at p (Foreign []) (cxs s) (csubs s)))
  | ODrop i p => on i (fun s => subs_ i s (drop_at p (csubs s)))
  | OIter i => on i (fun s => Ok (e, BList (cxs s)))
  | OLook i p => on i (fun s => match look_at p (csubs s) with
                                | Some (CMirror xs) => Ok (e, BList xs)
                                | Some (CForeign gs) => Ok (e, BGroups gs)
                                | None => UB
                                end)
  end.

Fixpoint orun (e : oenv) (os : list oop) : res (list oobs) :=
  match os with
  | [] => Ok []
  | o :: os' => let* (e1, v) := ostep e o in let* vs := orun e1 os' in Ok (v :: vs)
  end.
End ObsSet.
