(** Specification of the intrusive lists: lists are sequences of element names. *)
From Verif Require Import Common QListModel.

(** Where an element is: never constructed, in no list, or abandoned by a cleared
    (or moved from) list without having been excluded.  Elements of a list are
    [Out] here and found in the sequence. *)
Inductive where_ := Unborn | Out | Lost.
Record qspec := { lists : list (nat * list nat); elems : nat -> where_ ; born : nat }.
Definition sinit : qspec := {| lists := []; elems := fun _ => Unborn; born := 0 |}.

Definition mem_of (n : nat) (s : list nat) : bool := existsb (Nat.eqb n) s.
Definition member (e : qspec) (n : nat) : bool := existsb (fun p => mem_of n (snd p)) (lists e).
Fixpoint find_list (ls : list (nat * list nat)) (l : nat) : option (list nat) :=
  match ls with [] => None | (k, s) :: r => if Nat.eqb k l then Some s else find_list r l end.
Fixpoint set_list (ls : list (nat * list nat)) (l : nat) (s : list nat) : list (nat * list nat) :=
  match ls with [] => [] | (k, t) :: r => if Nat.eqb k l then (k, s) :: r else (k, t) :: set_list r l s end.
Definition edit (f : list nat -> list nat) (ls : list (nat * list nat)) := map (fun p => (fst p, f (snd p))) ls.

Definition with_lists (e : qspec) ls : qspec := {| lists := ls; elems := elems e; born := born e |}.
Definition with_elem (e : qspec) n w : qspec := {| lists := lists e; elems := upd (elems e) n w; born := born e |}.
Fixpoint lose (e : qspec) (s : list nat) : qspec :=
  match s with [] => e | n :: r => lose (with_elem e n Lost) r end.

Definition after (p a : nat) (s : list nat) := flat_map (fun x => if Nat.eqb x p then [x; a] else [x]) s.
Definition before (p a : nat) (s : list nat) := flat_map (fun x => if Nat.eqb x p then [a; x] else [x]) s.
Definition without (n : nat) (s : list nat) := filter (fun x => negb (Nat.eqb x n)) s.
Definition replace_ (b a : nat) (s : list nat) := map (fun x => if Nat.eqb x b then a else x) s.

(** Constructed, in no list; whether it was excluded or abandoned does not matter. *)
Definition addable (e : qspec) (n : nat) : bool :=
  match elems e n with Unborn => false | _ => negb (member e n) end.
Definition lost (e : qspec) (n : nat) : bool := match elems e n with Lost => true | _ => false end.

(** [None]: a precondition is violated. *)
Definition sstep (e : qspec) (o : qop) : option (qspec * qval) :=
  let on l (f : list nat -> option (qspec * qval)) := match find_list (lists e) l with Some s => f s | None => None end in
  let fresh l := match find_list (lists e) l with Some _ => false | None => true end in
  let ret e' := Some (e', VUnit) in
  let add n ls := ret (with_elem (with_lists e ls) n Out) in
  match o with
  | QNewElem n => match elems e n with
                  | Unborn => ret {| lists := lists e; elems := upd (elems e) n Out; born := S (born e) |}
                  | _ => None
                  end
  | QNewList l => if fresh l then ret (with_lists e ((l, []) :: lists e)) else None
  | QMoveList l src =>
      on src (fun s => if fresh l then ret (with_lists e ((l, s) :: set_list (lists e) src [])) else None)
  | QMoveAssign l src =>
      on l (fun t => on src (fun s =>
        if Nat.eqb l src then ret e
        else match t with [] => ret (with_lists e (set_list (set_list (lists e) src []) l s)) | _ => None end))
  | QPushFront l n => on l (fun s => if addable e n then add n (set_list (lists e) l (n :: s)) else None)
  | QPushBack l n => on l (fun s => if addable e n then add n (set_list (lists e) l (s ++ [n])) else None)
  | QInsertAfter p n => if member e p && addable e n then add n (edit (after p n) (lists e)) else None
  | QInsertBefore p n => if member e p && addable e n then add n (edit (before p n) (lists e)) else None
  | QExclude n => if member e n then ret (with_lists e (edit (without n) (lists e))) else None
  | QSafeExclude n =>
      match elems e n with
      | Out => ret (with_lists e (edit (without n) (lists e)))
      | _ => None
      end
  | QPopFront l => on l (fun s => match s with [] => None | n :: r => Some (with_lists e (set_list (lists e) l r), VElem n) end)
  | QPopBack l => on l (fun s => match rev s with [] => None | n :: r => Some (with_lists e (set_list (lists e) l (rev r)), VElem n) end)
  | QSpliceFront l src =>
      on l (fun t => on src (fun s => if Nat.eqb l src then None
                                      else ret (with_lists e (set_list (set_list (lists e) src []) l (s ++ t)))))
  | QSpliceBack l src =>
      on l (fun t => on src (fun s => if Nat.eqb l src then None
                                      else ret (with_lists e (set_list (set_list (lists e) src []) l (t ++ s)))))
  | QClear l => on l (fun s => ret (lose (with_lists e (set_list (lists e) l [])) s))
  | QMoveElem n other =>
      match elems e n, elems e other with
      | Unborn, Out => ret {| lists := edit (replace_ other n) (lists e); elems := upd (elems e) n Out; born := S (born e) |}
      | _, _ => None
      end
  | QAssignElem n other =>
      match elems e n, elems e other with
      | Out, Out => ret (with_lists e (edit (fun s => replace_ other n (without n s)) (lists e)))
      | _, _ => None
      end
  | QFront l => on l (fun s => match s with [] => None | n :: _ => Some (e, VElem n) end)
  | QBack l => on l (fun s => match rev s with [] => None | n :: _ => Some (e, VElem n) end)
  | QEmpty l => on l (fun s => Some (e, VBool (length s =? 0)))
  | QOne l => on l (fun s => Some (e, VBool (length s =? 1)))
  | QEmptyOrOne l => on l (fun s => Some (e, VBool (length s <=? 1)))
  | QSize l => on l (fun s => Some (e, VNat (length s)))
  | QIter l => on l (fun s => Some (e, VList s))
  | QRIter l => on l (fun s => Some (e, VList (rev s)))
  | QIncluded n =>
      match elems e n with
      | Out => Some (e, VBool (member e n))
      | _ => None
      end
  end.

Fixpoint srun (e : qspec) (os : list qop) : option (qspec * list qval) :=
  match os with
  | [] => Some (e, [])
  | o :: os' =>
      match sstep e o with
      | None => None
      | Some (e1, v) => match srun e1 os' with Some (e2, vs) => Some (e2, v :: vs) | None => None end
      end
  end.
