(** Programs over any number of vector_set variables: one constructor per public
    operation of Awl/VectorSet.h, and the model's effect of each. *)
From Verif Require Import Common VSetModel.

(** [T] elements, [K] keys of a type the comparator can compare with elements.
    An iterator is named by the node it points to ([None] is end()). *)
Inductive vop (T K : Type) : Type :=
| VNew (i : nat) | VCopy (i j : nat) | VMove (i j : nat)
| VAssign (i j : nat) | VMoveAssign (i j : nat) | VDestroy (i : nat)
| VInsert (i : nat) (v : T) | VEmplace (i : nat) (v : T)
| VEraseKey (i : nat) (k : K) | VEraseIt (i : nat) (h : nat) | VClear (i : nat)
| VSize (i : nat) | VEmpty (i : nat) | VContains (i : nat) (k : K)
| VFind (i : nat) (k : K) | VFind2 (i : nat) (k : K) | VFindByIndex (i n : nat)
| VLower (i : nat) (k : K) | VUpper (i : nat) (k : K)
| VIndex (i n : nat) | VAt (i n : nat)
| VIndexOfIt (i h : nat) | VIndexOfKey (i : nat) (k : K)
| VFront (i : nat) | VBack (i : nat) | VIter (i : nat) | VRIter (i : nat)
| VDeref (i h : nat) | VNext (i h : nat) | VPrev (i : nat) (h : option nat)
| VEq (i j : nat).
Arguments VNew {T K}. Arguments VCopy {T K}. Arguments VMove {T K}. Arguments VAssign {T K}.
Arguments VMoveAssign {T K}. Arguments VDestroy {T K}. Arguments VInsert {T K}. Arguments VEmplace {T K}.
Arguments VEraseKey {T K}. Arguments VEraseIt {T K}. Arguments VClear {T K}. Arguments VSize {T K}.
Arguments VEmpty {T K}. Arguments VContains {T K}. Arguments VFind {T K}. Arguments VFind2 {T K}.
Arguments VFindByIndex {T K}. Arguments VLower {T K}. Arguments VUpper {T K}. Arguments VIndex {T K}.
Arguments VAt {T K}. Arguments VIndexOfIt {T K}. Arguments VIndexOfKey {T K}. Arguments VFront {T K}.
Arguments VBack {T K}. Arguments VIter {T K}. Arguments VRIter {T K}. Arguments VDeref {T K}.
Arguments VNext {T K}. Arguments VPrev {T K}. Arguments VEq {T K}.

Inductive vobs (T : Type) : Type :=
| BUnit | BNat (n : nat) | BElt (v : T) | BList (l : list T) | BBool (b : bool)
| BIter (h : option nat) | BIterBool (h : option nat) (b : bool) | BIterIdx (x : option (nat * nat))
| BExn (e : exn).
Arguments BUnit {T}. Arguments BNat {T}. Arguments BElt {T}. Arguments BList {T}. Arguments BBool {T}.
Arguments BIter {T}. Arguments BIterBool {T}. Arguments BIterIdx {T}. Arguments BExn {T}.

Section VSetProgram.
Context {T K : Type} (lt : T -> T -> bool) (ltKT : K -> T -> bool) (ltTK : T -> K -> bool).

Definition venv := nat -> option (st T).
Definition vinit : venv := fun _ => None.

(** Run a method of variable [i]; an exception is caught by the caller and leaves
    the set as it was (all throwing methods are const). *)
Definition on (e : venv) (i : nat) {A} (m : @M T A) (obs : A -> vobs T) : res (venv * vobs T) :=
  match e i with
  | None => UB
  | Some s => match m s with
              | Ok (s1, x) => Ok (upd e i (Some s1), obs x)
              | Throw ex => Ok (e, BExn ex)
              | UB => UB
              end
  end.

Definition vstep (e : venv) (o : vop T K) : res (venv * vobs T) :=
  match o with
  | VNew i => match e i with None => Ok (upd e i (Some empty_st), BUnit) | Some _ => UB end
  | VCopy i j =>
      match e i, e j with
      | None, Some sj =>
          let* (_, vs) := to_list sj in
          let* (s1, _) := insert_all lt vs empty_st in
          Ok (upd e i (Some s1), BUnit)
      | _, _ => UB
      end
  | VMove i j =>        (* VectorSet.h:236-240 with QuickList.h:186-207 attach *)
      match e i, e j with
      | None, Some sj => Ok (upd (upd e j (Some empty_st)) i (Some sj), BUnit)
      | _, _ => UB
      end
  | VAssign i j =>      (* clear(), then the elements of other are read *)
      match e i with
      | Some si =>
          let* (s1, _) := clear si in
          match upd e i (Some s1) j with
          | Some sj =>
              let* (_, vs) := to_list sj in
              let* (s2, _) := insert_all lt vs s1 in
              Ok (upd e i (Some s2), BUnit)
          | None => UB
          end
      | None => UB
      end
  | VMoveAssign i j =>  (* VectorSet.h:287-297 *)
      match e i with
      | Some si =>
          let* (s1, _) := clear si in
          match upd e i (Some s1) j with
          | Some sj => Ok (if i =? j then upd e i (Some empty_st)
                           else upd (upd e j (Some empty_st)) i (Some sj), BUnit)
          | None => UB
          end
      | None => UB
      end
  | VDestroy i =>
      match e i with
      | Some si => let* (s1, _) := clear si in Ok (upd e i None, BUnit)
      | None => UB
      end
  | VInsert i v => on e i (insert lt v) (fun r => BIterBool (fst r) (snd r))
  | VEmplace i v => on e i (emplace lt v) (fun r => BIterBool (fst r) (snd r))
  | VEraseKey i k => on e i (erase_key (ltKT k) (fun x => ltTK x k)) BNat
  | VEraseIt i h => on e i (erase_it (Some h)) (fun _ => BUnit)
  | VClear i => on e i clear (fun _ => BUnit)
  | VSize i => on e i size BNat
  | VEmpty i => on e i empty BBool
  | VContains i k => on e i (find_node (ltKT k) (fun x => ltTK x k)) (fun r => BBool (negb (is_null r)))
  | VFind i k => on e i (find_node (ltKT k) (fun x => ltTK x k)) BIter
  | VFind2 i k => on e i (find_index (ltKT k) (fun x => ltTK x k)) BIterIdx
  | VFindByIndex i n => on e i (find_by_index_node n) BIter
  | VLower i k => on e i (lower_bound (ltKT k) (fun x => ltTK x k)) BIter
  | VUpper i k => on e i (upper_bound (ltKT k) (fun x => ltTK x k)) BIter
  | VIndex i n => on e i (index n) BElt
  | VAt i n => on e i (at_ n) BElt
  | VIndexOfIt i h => on e i (index_of_it (Some h)) BNat
  | VIndexOfKey i k => on e i (index_of_key (ltKT k) (fun x => ltTK x k)) BNat
  | VFront i => on e i front BElt
  | VBack i => on e i back BElt
  | VIter i => on e i to_list BList
  | VRIter i => on e i to_rlist BList
  | VDeref i h => on e i (it_deref (Some h)) BElt
  | VNext i h => on e i (it_next (Some h)) BIter
  | VPrev i h => on e i (it_prev h) BIter
  | VEq i j => match e j with
               | Some sj => let* (_, n) := size sj in
                            let* (_, vs) := to_list sj in
                            on e i (equal lt n vs) BBool
               | None => UB
               end
  end.

Fixpoint vrun (e : venv) (os : list (vop T K)) : res (venv * list (vobs T)) :=
  match os with
  | [] => Ok (e, [])
  | o :: os' => let* (e1, v) := vstep e o in
                let* (e2, vs) := vrun e1 os' in
                Ok (e2, v :: vs)
  end.
End VSetProgram.
