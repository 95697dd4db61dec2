(** Model of Awl/MirrorSet.h and Awl/ObservableSet.h whose objects are moved: mirrors are observers with a movable link
    (Awl/QuickLink.h, basic_movable_link) and sets that have observers of their own.

    The objects are numbered in the order of their construction.  A link is either in the list of one set or in no list; to exclude it is to
    remove the object from whatever list it is in (C20: the lists are sequences).  Elements are numbers and the order of the elements is
    C01; the elements of a set and of its mirrors have the same comparer.  The recursion of the notifications (a mirror notifies its own
    observers inside of OnAdded) has the depth [fuel]: the stack; more than that is UB.  All calls of observers are recorded. *)
From Verif Require Import Common ObsThrowModel.

Notation zcall := (call (T := Z)).
Record mnode := MNd { mir : bool; mxs : list Z; mobs : list nat }.     (* an observable_set, or a mirror_set *)
Record mstate := MSt { mns : list (option mnode); mcalls : list (nat * zcall) }.   (* the latest call is the first one *)

Definition mget (s : mstate) (i : nat) : option mnode := match nth_error (mns s) i with Some o => o | None => None end.
Definition mset (s : mstate) (i : nat) (o : option mnode) : mstate := MSt (set_nth (mns s) i o) (mcalls s).
Definition with_xs (s : mstate) (i : nat) (l : list Z) : mstate :=
  match mget s i with Some n => mset s i (Some (MNd (mir n) l (mobs n))) | None => s end.
Definition zin (v : Z) (l : list Z) : bool := existsb (Z.eqb v) l.
Definition zdel (v : Z) (l : list Z) : list Z := filter (fun z => negb (Z.eqb z v)) l.

(** Observable.h:108-118 *)
Fixpoint each (f : nat -> mstate -> res mstate) (l : list nat) (s : mstate) : res mstate :=
  match l with
  | [] => Ok s
  | m :: r => let* s' := f m s in each f r s'
  end.
(** One call of the observer m.  MirrorSet.h:183-202 with ObservableSet.h:143-148 insert, 244-262 erase, 264-271 clear *)
Fixpoint tell (fuel : nat) (c : zcall) (m : nat) (s : mstate) : res mstate :=
  match fuel with
  | 0 => UB
  | S f =>
    let s := MSt (mns s) ((m, c) :: mcalls s) in
    match mget s m with
    | None => UB
    | Some n =>
      match c with
      | KAdded v => if zin v (mxs n) then Throw LogicError else each (tell f c) (mobs n) (with_xs s m (v :: mxs n))
      | KRemoving v =>
        if zin v (mxs n) then let* s' := each (tell f c) (mobs n) s in Ok (with_xs s' m (zdel v (mxs n)))
        else Throw LogicError
      | KClearing => match mxs n with
                     | [] => Ok s
                     | _ => let* s' := each (tell f c) (mobs n) s in Ok (with_xs s' m [])
                     end
      end
    end
  end.

(** Links: QuickLink.h:85-100 exclude and safe_exclude; 182-190 reinsert, which puts an object into the place of another one *)
Definition on_obs (f : list nat -> list nat) (s : mstate) : mstate :=
  MSt (map (fun o => match o with Some n => Some (MNd (mir n) (mxs n) (f (mobs n))) | None => None end) (mns s)) (mcalls s).
Definition included (m : nat) (s : mstate) : bool :=
  existsb (fun o => match o with Some n => existsb (Nat.eqb m) (mobs n) | None => false end) (mns s).
Definition exclude (m : nat) : mstate -> mstate := on_obs (filter (fun k => negb (Nat.eqb k m))).
Definition reinsert (j i : nat) : mstate -> mstate := on_obs (map (fun k => if Nat.eqb k j then i else k)).

Inductive mop :=
| MNew (mirror : bool)
| MInsert (i : nat) (v : Z)
| MErase (i : nat) (v : Z)
| MClear (i : nat)
| MReflect (m t : nat)          (* m.reflect(t) *)
| MUnsub (m : nat)              (* m.UnsubscribeSafe() *)
| MMove (j : nat)               (* a new object, T k(std::move(j)) *)
| MAssign (i j : nat)           (* i = std::move(j) *)
| MDestroy (i : nat).

(** reflect, MirrorSet.h:62-72 and 75-85: the elements and then Subscribe; push_back of a link that is in a list is UB *)
Fixpoint fill (fuel : nat) (m : nat) (l : list Z) (s : mstate) : res mstate :=
  match l with
  | [] => Ok s
  | v :: r => let* s' := tell fuel (KAdded v) m s in fill fuel m r s'
  end.

Definition mstep (fuel : nat) (o : mop) (s : mstate) : res mstate :=
  (* does not compile, or the object is not alive *)
  let on i (k : mnode -> res mstate) := match mget s i with Some n => k n | None => UB end in
  match o with
  | MNew b => Ok (MSt (mns s ++ [Some (MNd b [] [])]) (mcalls s))
  | MInsert i v => on i (fun n =>
    if mir n then UB else
    if zin v (mxs n) then Ok s else each (tell fuel (KAdded v)) (mobs n) (with_xs s i (v :: mxs n)))
  | MErase i v => on i (fun n =>
    if mir n then UB else
    if zin v (mxs n) then let* s' := each (tell fuel (KRemoving v)) (mobs n) s in Ok (with_xs s' i (zdel v (mxs n))) else Ok s)
  | MClear i => on i (fun n =>
    if mir n then UB else
    match mxs n with [] => Ok s | _ => let* s' := each (tell fuel KClearing) (mobs n) s in Ok (with_xs s' i []) end)
  | MReflect m t => on m (fun n => on t (fun k =>
    if mir n then
      let* s' := fill fuel m (mxs k) s in
      if included m s' then UB
      else match mget s' t with
           | Some k' => Ok (mset s' t (Some (MNd (mir k') (mxs k') (mobs k' ++ [m]))))
           | None => UB
           end
    else UB))
  | MUnsub m => on m (fun n => if mir n then Ok (exclude m s) else UB)
  (* MirrorSet.h:46, Observable.h:23, QuickLink.h:167-170; ObservableSet.h:64, VectorSet.h:236-240, Observable.h:71-73 *)
  | MMove j => on j (fun _ =>
    let i := length (mns s) in
    let s1 := reinsert j i (MSt (mns s ++ [None]) (mcalls s)) in
    match mget s1 j with
    | Some n => Ok (mset (mset s1 i (Some (MNd (mir n) (mxs n) (mobs n)))) j (Some (MNd (mir n) [] [])))
    | None => UB
    end)
  (* MirrorSet.h:50, Observable.h:27, QuickLink.h:172-177; ObservableSet.h:79-90, VectorSet.h:287-297, Observable.h:77-82 *)
  | MAssign i j => on i (fun n => on j (fun n' =>
    if Bool.eqb (mir n) (mir n') then
      let s1 := if mir n then reinsert j i (exclude i s) else s in
      let* s2 := match mxs n, mget s1 i with
                 | _ :: _, Some n1 => each (tell fuel KClearing) (mobs n1) s1
                 | _, _ => Ok s1
                 end in
      (* the elements: clear(), then those of the other one, that is nothing if it is the same object *)
      let s3 := with_xs s2 i [] in
      match mget s3 j with
      | Some k => let s4 := with_xs (with_xs s3 i (mxs k)) j [] in
        (* the observers: those of i are excluded, then those of the other one are attached *)
        match mget s4 i with
        | Some a => let s5 := mset s4 i (Some (MNd (mir a) (mxs a) [])) in
          match mget s5 j with
          | Some b => let s6 := mset s5 j (Some (MNd (mir b) (mxs b) [])) in
            match mget s6 i with
            | Some a' => Ok (mset s6 i (Some (MNd (mir a') (mxs a') (mobs b))))
            | None => UB
            end
          | None => UB
          end
        | None => UB
        end
      | None => UB
      end
    else UB))
  (* ~observable_set, ObservableSet.h:107-113; then ~Observable, Observable.h:64-67; then ~Observer:47-50 *)
  | MDestroy i => on i (fun n =>
    let* s1 := match mxs n with [] => Ok s | _ => each (tell fuel KClearing) (mobs n) s end in
    Ok (exclude i (mset s1 i None)))
  end.

Fixpoint mrun (fuel : nat) (l : list mop) (s : mstate) : res mstate :=
  match l with
  | [] => Ok s
  | o :: r => let* s' := mstep fuel o s in mrun fuel r s'
  end.
Definition minit : mstate := MSt [] [].
