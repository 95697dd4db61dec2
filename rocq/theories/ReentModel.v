(** Model of Awl/ObservableSet.h whose observers insert, erase and clear the set while they are notified.

    One set with any number of observers: mirrors (MirrorSet.h, a copy of the elements) and observers of the user, which record the
    calls and have a plan of what they do at each call.  Elements are numbers and have the identity of their node, because the
    notifications pass references to the nodes (C99: the other nodes do not move); the order of the elements is C01.  The list of
    observers does not change here (C93), and an exception ends the program (C108 goes on after it).  One step of the machine is one
    call of an observer or one statement. *)
From Verif Require Import Common ObsThrowModel.

Notation zcall := (call (T := Z)).
Inductive action := AInsert (v : Z) | AErase (v : Z) | AClear.
Inductive rnode :=
| RMirror (ms : list Z)
| RUser (log : list zcall) (plan : list (list action)).   (* the latest call is the first one *)

(** What is to be done; the top of the stack is the first one.  The counter is the position in the list of observers. *)
Inductive frame :=
| FActs (l : list action)
| FAdd (id : nat) (v : Z) (k : nat)
| FRem (id : nat) (v : Z) (k : nat)
| FClr (k : nat).
Record rstate := RSt { rxs : list (nat * Z); rnext : nat; rsubs : list rnode; rstack : list frame }.

Definition has (v : Z) (xs : list (nat * Z)) : bool := existsb (fun p => Z.eqb (snd p) v) xs.
Definition live (id : nat) (xs : list (nat * Z)) : bool := existsb (fun p => Nat.eqb (fst p) id) xs.
Definition drop_node (id : nat) (xs : list (nat * Z)) : list (nat * Z) := filter (fun p => negb (Nat.eqb (fst p) id)) xs.

(** One call of one observer: the observer afterwards and what it does in the call.
    MirrorSet.h:183-202: OnAdded and OnRemoving throw if there is nothing to insert or to erase *)
Definition react (c : zcall) (n : rnode) : res (rnode * list action) :=
  match n with
  | RMirror ms =>
    match c with
    | KAdded v => if existsb (Z.eqb v) ms then Throw LogicError else Ok (RMirror (v :: ms), [])
    | KRemoving v => if existsb (Z.eqb v) ms then Ok (RMirror (filter (fun z => negb (Z.eqb z v)) ms), []) else Throw LogicError
    | KClearing => Ok (RMirror [], [])
    end
  | RUser log plan => Ok (RUser (c :: log) (tl plan), hd [] plan)
  end.

(** Observable.h:107-117, one observer: [f] is what remains of the notification afterwards *)
Definition deliver (c : zcall) (k : nat) (n : rnode) (f : frame) (s : rstate) (r : list frame) : res rstate :=
  let* (n', l) := react c n in
  Ok (RSt (rxs s) (rnext s) (set_nth (rsubs s) k n') (match l with [] => f :: r | _ => FActs l :: f :: r end)).

Definition rtick (s : rstate) : res rstate :=
  let goto xs st := Ok (RSt xs (rnext s) (rsubs s) st) in
  match rstack s with
  | [] => Ok s
  | FActs [] :: r => goto (rxs s) r
  | FActs (AInsert v :: l) :: r =>       (* ObservableSet.h:143-148 *)
    if has v (rxs s) then goto (rxs s) (FActs l :: r)
    else Ok (RSt ((rnext s, v) :: rxs s) (S (rnext s)) (rsubs s) (FAdd (rnext s) v 0 :: FActs l :: r))
  | FActs (AErase v :: l) :: r =>        (* ObservableSet.h:251-262 *)
    match find (fun p => Z.eqb (snd p) v) (rxs s) with
    | Some (id, _) => goto (rxs s) (FRem id v 0 :: FActs l :: r)
    | None => goto (rxs s) (FActs l :: r)
    end
  | FActs (AClear :: l) :: r =>          (* ObservableSet.h:264-271 *)
    match rxs s with
    | [] => goto [] (FActs l :: r)
    | xs => goto xs (FClr 0 :: FActs l :: r)
    end
  | FAdd id v k :: r =>
    match nth_error (rsubs s) k with
    | None => goto (rxs s) r
    | Some n => if live id (rxs s) then deliver (KAdded v) k n (FAdd id v (S k)) s r else UB   (* a dangling reference *)
    end
  | FRem id v k :: r =>
    match nth_error (rsubs s) k with
    | None => if live id (rxs s) then goto (drop_node id (rxs s)) r else UB                   (* m_set.erase(i), ObservableSet.h:247 *)
    | Some n => if live id (rxs s) then deliver (KRemoving v) k n (FRem id v (S k)) s r else UB
    end
  | FClr k :: r =>
    match nth_error (rsubs s) k with
    | None => goto [] r
    | Some n => deliver KClearing k n (FClr (S k)) s r
    end
  end.
Fixpoint rticks (n : nat) (s : rstate) : res rstate :=
  match n with
  | 0 => Ok s
  | S m => let* s' := rtick s in rticks m s'
  end.
(** The program does [l] to an empty set that has the observers [subs]. *)
Definition rstart (subs : list rnode) (l : list action) : rstate := RSt [] 0 subs [FActs l].
