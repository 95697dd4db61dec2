(** Iterators are names of places: an element, whichever list it is in, or the end of a list. *)
From Verif Require Import Common QListModel QListSpec QIterModel.

Inductive place := AtElem (n : nat) | AtEnd (l : nat).
Definition place_eqb (p q : place) : bool :=
  match p, q with AtElem a, AtElem b => Nat.eqb a b | AtEnd a, AtEnd b => Nat.eqb a b | _, _ => false end.
(** The first place of a sequence, and the one after the element [n] *)
Definition first_of (s : list nat) (l : nat) : place := match s with [] => AtEnd l | x :: _ => AtElem x end.
Fixpoint after_in (s : list nat) (n l : nat) : option place :=
  match s with
  | [] => None
  | x :: r => if Nat.eqb x n then Some (first_of r l) else after_in r n l
  end.
Fixpoint after_elem (ls : list (nat * list nat)) (n : nat) : option place :=
  match ls with
  | [] => None
  | (l, s) :: r => match after_in s n l with Some p => Some p | None => after_elem r n end
  end.
(** The next place.  The end is followed by the first element. *)
Definition next_place (ls : list (nat * list nat)) (p : place) : option place :=
  match p with
  | AtElem n => after_elem ls n
  | AtEnd l => match find_list ls l with Some s => Some (first_of s l) | None => None end
  end.
Definition prev_place (ls : list (nat * list nat)) (p : place) : option place := next_place (edit (@rev nat) ls) p.

Record ispec := ISpec { isp : qspec; pls : nat -> option (bool * place) }.
(** None: not allowed. *)
Definition ispec_step (e : ispec) (o : iop) : option (ispec * qval) :=
  let ls := lists (isp e) in
  let set i x := Some (ISpec (isp e) (upd (pls e) i (Some x)), VUnit) in
  let go i r (p : option place) := match p with Some q => set i (r, q) | None => None end in
  let lst o := match sstep (isp e) o with Some (t, v) => Some (ISpec t (pls e), v) | None => None end in
  match o with
  | ILst o => lst o
  | IBegin i l r => go i r (if r then prev_place ls (AtEnd l) else next_place ls (AtEnd l))
  | IEnd i l r => match find_list ls l with Some _ => set i (r, AtEnd l) | None => None end
  | INull _ _ => None
  | ICopy i j => match pls e j with Some x => set i x | None => None end
  | IInc i => match pls e i with Some (r, p) => go i r (if r then prev_place ls p else next_place ls p) | None => None end
  | IDec i => match pls e i with Some (r, p) => go i r (if r then next_place ls p else prev_place ls p) | None => None end
  | IDeref i => match pls e i with Some (_, AtElem n) => Some (e, VElem n) | _ => None end
  | IEq i j => match pls e i, pls e j with
               | Some (r, p), Some (r', q) => if Bool.eqb r r' then Some (e, VBool (place_eqb p q)) else None
               | _, _ => None
               end
  | IInsert i n => match pls e i with Some (r, AtElem p) => lst (if r then QInsertBefore p n else QInsertAfter p n) | _ => None end
  | IErase i => match pls e i with Some (_, AtElem p) => lst (QExclude p) | _ => None end
  end.
Fixpoint ispec_run (e : ispec) (os : list iop) : option (ispec * list qval) :=
  match os with
  | [] => Some (e, [])
  | o :: r => match ispec_step e o with Some (e1, v) => match ispec_run e1 r with Some (e2, vs) => Some (e2, v :: vs) | None => None end | None => None end
  end.
Definition ispec_init : ispec := ISpec sinit (fun _ => None).

Definition is_keep (f : fate) : bool := match f with Keep => true | _ => false end.
Definition is_transfer (f : fate) : bool := match f with Transfer => true | _ => false end.
