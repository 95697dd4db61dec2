(** Model of Awl/ForeignSet.h whose objects are moved: any number of sources (Awl/ObservableSet.h), of foreign_sets that observe them, and of
    observers of the foreign_sets and of their groups.  A foreign_set has the implicit move operations: it is an Observer with a movable link
    (Awl/QuickLink.h, basic_movable_link) and has an observable_set of groups.  The groups and the calls are those of GroupObsModel.v.

    Sources and foreign_sets have numbers: their places in memory, which are free again after the destruction.  A link is in the list of one
    source or in no list (C20).  A source is ordered by the primary key; its elements are a list without an order (C01).  The key
    getters have no state. *)
From Verif Require Import Common ObsSetModel ObsThrowModel GroupObsModel.

Section GroupMove.
Context {T : Type} (pk fk : T -> Z).
Notation group := (group (T := T)).

Record wst := Wst {
  srcs : nat -> option (list T * list nat);         (* the elements, the foreign_sets that are subscribed *)
  fss : nat -> option (list group * list nat);      (* the groups with their observers, the observers of the foreign_set *)
  used : list nat;                                  (* the places where there have been foreign_sets *)
  gl : nat -> list (call (T := T));                 (* as glog and wlog in GroupObsModel.v *)
  wl : nat -> list (gcall (T := T))
}.
Definition winit : wst := Wst (fun _ => None) (fun _ => None) [] (fun _ => []) (fun _ => []).

(** A member function of the foreign_set f *)
Definition in_fs (f : nat) (k : fst_ -> res fst_) (s : wst) : res wst :=
  match fss s f with
  | None => UB
  | Some (gs, w) =>
    let* r := k (FSt gs w (gl s) (wl s)) in
    Ok (Wst (srcs s) (upd (fss s) f (Some (grs r, watch r))) (used s) (glog r) (wlog r))
  end.
(** Observable.h:108-118 *)
Fixpoint notify (k : fst_ -> res fst_) (l : list nat) (s : wst) : res wst :=
  match l with
  | [] => Ok s
  | f :: r => let* s' := in_fs f k s in notify k r s'
  end.
Definition with_src (s : wst) (a : nat) (o : option (list T * list nat)) : wst := Wst (upd (srcs s) a o) (fss s) (used s) (gl s) (wl s).
Definition with_fs (s : wst) (f : nat) (o : option (list group * list nat)) : wst := Wst (srcs s) (upd (fss s) f o) (f :: used s) (gl s) (wl s).
(** QuickLink.h:85-100 exclude and safe_exclude; 182-190 reinsert, which puts an object into the place of another one *)
Definition on_links (h : list nat -> list nat) (s : wst) : wst :=
  Wst (fun a => match srcs s a with Some (zs, l) => Some (zs, h l) | None => None end) (fss s) (used s) (gl s) (wl s).
Definition exclude (f : nat) : wst -> wst := on_links (leave f).
Definition reinsert (g f : nat) : wst -> wst := on_links (map (fun k => if Nat.eqb k g then f else k)).

Inductive wop :=
| WNew (a : nat)                (* observable_set<T> a *)
| WInsert (a : nat) (v : T) | WErase (a : nat) (k : Z) | WClear (a : nat)
| WMove (a b : nat)             (* observable_set<T> b(std::move(a)) *)
| WAssign (a b : nat)           (* a = std::move(b) *)
| WDestroy (a : nat)
| GNew (f : nat)                (* foreign_set f *)
| GFrom (f a : nat)             (* foreign_set f(a) *)
| GMove (f g : nat)             (* foreign_set g(std::move(f)) *)
| GAssign (f g : nat)           (* f = std::move(g) *)
| GDestroy (f : nat)
| GObserve (i f : nat) (k : Z)  (* i begins to observe the group with the key k *)
| GWatch (i f : nat)            (* i begins to observe the foreign_set *)
| GLeave (i : nat).             (* i is destroyed *)

Definition has (k : Z) (zs : list T) : bool := existsb (fun y => Z.eqb (pk y) k) zs.
(** observer_link::included() of the observer i; push_back of an included link is UB *)
Definition busy (i : nat) (s : wst) : bool :=
  existsb (fun f => match fss s f with Some (gs, w) => subscribed i (FSt gs w (gl s) (wl s)) | None => false end) (used s).
Definition gstep (o : wop) (s : wst) : res wst :=
  (* the place is not free; the object is not there *)
  let fresh_src a (k : res wst) := match srcs s a with None => k | Some _ => UB end in
  let fresh_fs f (k : res wst) := match fss s f with None => k | Some _ => UB end in
  let on_src a (k : list T -> list nat -> res wst) := match srcs s a with Some (zs, l) => k zs l | None => UB end in
  let on_fs f (k : list group -> list nat -> res wst) := match fss s f with Some (gs, w) => k gs w | None => UB end in
  match o with
  | WNew a => fresh_src a (Ok (with_src s a (Some ([], []))))
  | WInsert a v => on_src a (fun zs l =>                                       (* ObservableSet.h:143-155 *)
      if has (pk v) zs then Ok s
      else notify (on_add pk fk v) l (with_src s a (Some (v :: zs, l))))
  | WErase a k => on_src a (fun zs l =>                                        (* 244-262 *)
      match find (fun y => Z.eqb (pk y) k) zs with
      | Some v =>
        let* s' := notify (on_remove pk fk v) l s in
        Ok (with_src s' a (Some (filter (fun y => negb (Z.eqb (pk y) k)) zs, l)))
      | None => Ok s
      end)
  | WClear a => on_src a (fun zs l =>                                          (* 264-271 *)
      match zs with
      | [] => Ok s
      | _ => let* s' := notify (fun x => Ok (on_clear x)) l s in Ok (with_src s' a (Some ([], l)))
      end)
  | WMove a b => on_src a (fun zs l => fresh_src b                             (* 64; Observable.h:71-73 *)
      (Ok (with_src (with_src s b (Some (zs, l))) a (Some ([], [])))))
  | WAssign a b => on_src a (fun zs l => on_src b (fun _ _ =>                  (* 79-90; VectorSet.h:287-297; Observable.h:77-82 *)
      let* s1 := match zs with [] => Ok s | _ => notify (fun x => Ok (on_clear x)) l s end in
      let s2 := with_src s1 a (Some ([], [])) in
      match srcs s2 b with
      | Some (zs', l') => Ok (with_src (with_src s2 b (Some ([], []))) a (Some (zs', l')))
      | None => UB
      end))
  | WDestroy a => on_src a (fun zs l =>                                        (* 107-113; Observable.h:64-67 *)
      let* s1 := match zs with [] => Ok s | _ => notify (fun x => Ok (on_clear x)) l s end in
      Ok (with_src s1 a None))
  | GNew f => fresh_fs f (Ok (with_fs s f (Some ([], []))))                    (* ForeignSet.h:70-74 *)
  | GFrom f a => on_src a (fun zs l => fresh_fs f (                            (* 77-87 *)
      let* r := fold_left (fun r v => let* x := r in on_add pk fk v x) (rev zs) (Ok (FSt [] [] (gl s) (wl s))) in
      Ok (with_src (with_fs s f (Some (grs r, watch r))) a (Some (zs, l ++ [f])))))
  (* Observable.h:23, QuickLink.h:167-170; ObservableSet.h:64, VectorSet.h:236-240, Observable.h:71-73 *)
  | GMove f g => on_fs f (fun gs w => fresh_fs g
      (let s1 := reinsert f g s in Ok (with_fs (with_fs s1 g (Some (gs, w))) f (Some ([], [])))))
  (* Observable.h:27, QuickLink.h:172-177; ObservableSet.h:79-90, VectorSet.h:287-297, Observable.h:77-82 *)
  | GAssign f g => on_fs f (fun _ _ => on_fs g (fun _ _ =>
      let s1 := reinsert g f (exclude f s) in
      let* s2 := in_fs f (fun x => Ok (on_clear x)) s1 in
      let s3 := with_fs s2 f (Some ([], [])) in
      match fss s3 g with
      | Some (gs, w) => Ok (with_fs (with_fs s3 g (Some ([], []))) f (Some (gs, w)))
      | None => UB
      end))
  (* ~observable_set, ObservableSet.h:107-113, ~Observable, Observable.h:64-67, of the member; then ~Observer, 47-50 *)
  | GDestroy f => on_fs f (fun _ _ =>
      let* s1 := in_fs f (fun x => Ok (on_clear x)) s in Ok (exclude f (with_fs s1 f None)))
  | GObserve i f k => if busy i s then UB else in_fs f (fstep pk fk (FObserve i k)) s
  | GWatch i f => if busy i s then UB else in_fs f (fstep pk fk (FWatch i)) s
  | GLeave i =>
      Ok (Wst (srcs s) (fun f => match fss s f with Some (gs, w) => Some (map (fun g => (fst g, leave i (snd g))) gs, leave i w) | None => None end) (used s)
           (upd (gl s) i []) (upd (wl s) i []))
  end.
Fixpoint grun (os : list wop) (s : wst) : res wst :=
  match os with
  | [] => Ok s
  | o :: r => let* s' := gstep o s in grun r s'
  end.
End GroupMove.
