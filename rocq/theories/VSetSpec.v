(** Specification of vector_set, independent of trees and pointers: a set variable
    is a list of elements in increasing order, each with the handle (the iterator)
    it got when it was inserted. *)
From Verif Require Import Common VSetProg.

Section Spec.
Context {T K : Type} (lt : T -> T -> bool) (ltKT : K -> T -> bool) (ltTK : T -> K -> bool).

(** The number of handles used so far, and the elements in order. *)
Definition sset : Type := nat * list (nat * T).
Definition senv := nat -> option sset.
Definition sinit : senv := fun _ => None.

Definition elems (l : list (nat * T)) : list T := map snd l.

(** x is equivalent to the key / to the value *)
Definition eqvK (k : K) (x : T) : bool := negb (ltKT k x) && negb (ltTK x k).
Definition eqvT (v x : T) : bool := negb (lt v x) && negb (lt x v).

Definition lookup (p : T -> bool) (l : list (nat * T)) : option (nat * T) :=
  find (fun e => p (snd e)) l.
Definition handle (o : option (nat * T)) : option nat := option_map fst o.

(** Position of the first element that satisfies [p]. *)
Fixpoint pos {A} (p : A -> bool) (l : list A) : option nat :=
  match l with
  | [] => None
  | x :: l' => if p x then Some 0 else option_map S (pos p l')
  end.

(** Sorted insertion of a new element. *)
Definition sins (h : nat) (v : T) (l : list (nat * T)) : list (nat * T) :=
  filter (fun e => lt (snd e) v) l ++ (h, v) :: filter (fun e => negb (lt (snd e) v)) l.
(** Insertion unless an equivalent element is there; [burn] says whether a handle
    is used up by a rejected insertion (emplace creates the node first). *)
Definition sinsert (burn : bool) (v : T) (s : sset) : sset * (option nat * bool) :=
  match lookup (eqvT v) (snd s) with
  | Some (h, _) => ((if burn then S (fst s) else fst s, snd s), (Some h, false))
  | None => ((S (fst s), sins (fst s) v (snd s)), (Some (fst s), true))
  end.
Definition serase (h : nat) (s : sset) : sset :=
  (fst s, filter (fun e => negb (fst e =? h)) (snd s)).

(** A copy holds the same elements under new handles. *)
Definition renumber (from : nat) (vs : list T) : sset := (from + length vs, combine (seq from (length vs)) vs).

Fixpoint list_eqv (a b : list T) : bool :=
  match a, b with
  | [], [] => true
  | x :: a', y :: b' => eqvT x y && list_eqv a' b'
  | _, _ => false
  end.

Definition hpos (h : nat) (l : list (nat * T)) : option nat := pos (fun e => fst e =? h) l.

Definition sstep (e : senv) (o : vop T K) : option (senv * vobs T) :=
  let set i (f : sset -> option (sset * vobs T)) :=
    match e i with
    | Some s => match f s with Some (s1, v) => Some (upd e i (Some s1), v) | None => None end
    | None => None
    end in
  let get i (f : list (nat * T) -> option (vobs T)) :=
    match e i with
    | Some s => match f (snd s) with Some v => Some (e, v) | None => None end
    | None => None
    end in
  match o with
  | VNew i => match e i with None => Some (upd e i (Some (0, [])), BUnit) | Some _ => None end
  | VCopy i j => match e i, e j with
                 | None, Some s => Some (upd e i (Some (renumber 0 (elems (snd s)))), BUnit)
                 | _, _ => None end
  | VMove i j => match e i, e j with
                 | None, Some s => Some (upd (upd e j (Some (0, []))) i (Some s), BUnit)
                 | _, _ => None end
  | VAssign i j => if i =? j then match e i with Some _ => Some (e, BUnit) | None => None end
                   else match e i, e j with
                   | Some d, Some s => Some (upd e i (Some (renumber (fst d) (elems (snd s)))), BUnit)
                   | _, _ => None end
  | VMoveAssign i j => (* a self-move leaves the set valid: it becomes empty *)
                   if i =? j then match e i with Some _ => Some (upd e i (Some (0, [])), BUnit) | None => None end
                   else match e i, e j with
                   | Some _, Some s => Some (upd (upd e j (Some (0, []))) i (Some s), BUnit)
                   | _, _ => None end
  | VDestroy i => match e i with Some _ => Some (upd e i None, BUnit) | None => None end
  | VInsert i v => set i (fun s => let (s1, r) := sinsert false v s in Some (s1, BIterBool (fst r) (snd r)))
  | VEmplace i v => set i (fun s => let (s1, r) := sinsert true v s in Some (s1, BIterBool (fst r) (snd r)))
  | VEraseKey i k => set i (fun s => match lookup (eqvK k) (snd s) with
                                     | Some (h, _) => Some (serase h s, BNat 1)
                                     | None => Some (s, BNat 0) end)
  | VEraseIt i h => set i (fun s => match hpos h (snd s) with
                                    | Some _ => Some (serase h s, BUnit)
                                    | None => None end)
  | VClear i => set i (fun s => Some ((fst s, []), BUnit))
  | VSize i => get i (fun l => Some (BNat (length l)))
  | VEmpty i => get i (fun l => Some (BBool (length l =? 0)))
  | VContains i k => get i (fun l => Some (BBool (existsb (eqvK k) (elems l))))
  | VFind i k => get i (fun l => Some (BIter (handle (lookup (eqvK k) l))))
  | VFind2 i k => get i (fun l => Some (BIterIdx
                      match lookup (eqvK k) l, pos (eqvK k) (elems l) with
                      | Some (h, _), Some n => Some (h, n)
                      | _, _ => None end))
  | VFindByIndex i n => get i (fun l => Some (BIter (handle (nth_error l n))))
  | VLower i k => get i (fun l => Some (BIter (handle (lookup (fun x => negb (ltTK x k)) l))))
  | VUpper i k => get i (fun l => Some (BIter (handle (lookup (fun x => ltKT k x) l))))
  | VIndex i n => get i (fun l => option_map BElt (nth_error (elems l) n))
  | VAt i n => get i (fun l => Some match nth_error (elems l) n with
                                    | Some v => BElt v
                                    | None => BExn OutOfRange end)
  | VIndexOfIt i h => get i (fun l => option_map BNat (hpos h l))
  | VIndexOfKey i k => get i (fun l => Some match pos (eqvK k) (elems l) with
                                            | Some n => BNat n
                                            | None => BExn OutOfRange end)
  | VFront i => get i (fun l => option_map BElt (hd_error (elems l)))
  | VBack i => get i (fun l => option_map BElt (hd_error (rev (elems l))))
  | VIter i => get i (fun l => Some (BList (elems l)))
  | VRIter i => get i (fun l => Some (BList (rev (elems l))))
  | VDeref i h => get i (fun l => match hpos h l with
                                  | Some n => option_map BElt (nth_error (elems l) n)
                                  | None => None end)
  | VNext i h => get i (fun l => match hpos h l with
                                 | Some n => Some (BIter (handle (nth_error l (S n))))
                                 | None => None end)
  | VPrev i (Some h) => get i (fun l => match hpos h l with
                                 | Some 0 => Some (BIter None)       (* --begin() gives the Null link *)
                                 | Some (S n) => Some (BIter (handle (nth_error l n)))
                                 | None => None end)
  | VPrev i None => get i (fun l => Some (BIter (handle (nth_error l (length l - 1)))))
  | VEq i j => match e i, e j with
               | Some a, Some b => Some (e, BBool (list_eqv (elems (snd b)) (elems (snd a))))
               | _, _ => None end
  end.

(** The one kind of step on which the code is known to deviate: x = x. *)
Definition supported (o : vop T K) : bool :=
  match o with
  | VAssign i j => negb (i =? j)
  | _ => true
  end.

Fixpoint srun (e : senv) (os : list (vop T K)) : option (senv * list (vobs T) * bool) :=
  match os with
  | [] => Some (e, [], true)
  | o :: os' =>
      match sstep e o with
      | Some (e1, v) => match srun e1 os' with
                        | Some (e2, vs, b) => Some (e2, v :: vs, supported o && b)
                        | None => None end
      | None => None
      end
  end.

(** What the comparator must be: a strict weak order on elements, and consistent
    with it on keys; at most one element of an ordered chain may match a key. *)
Record strict_weak : Prop := {
  sw_irrefl : forall x, lt x x = false;
  sw_trans : forall x y z, lt x y = true -> lt y z = true -> lt x z = true;
  sw_incomp : forall x y z, lt x y = false -> lt y z = false -> lt x z = false
}.
Record keys_ok : Prop := {
  ko_excl : forall k x, ltKT k x = true -> ltTK x k = false;
  ko_up : forall k x y, ltKT k x = true -> lt x y = true -> ltKT k y = true;
  ko_down : forall k x y, lt x y = true -> ltTK y k = true -> ltTK x k = true;
  ko_single : forall k x y, lt x y = true -> eqvK k x = true -> eqvK k y = false
}.
(** The second half of ko_single's content: elements above/below a match. *)
End Spec.
