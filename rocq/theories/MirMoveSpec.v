(** Who observes whom, and which programs are proper. *)
From Verif Require Import Common ObsThrowModel MirMoveModel.

Definition obs (s : mstate) (t : nat) : list nat := match mget s t with Some n => mobs n | None => [] end.
Definition elems (s : mstate) (i : nat) : list Z := match mget s i with Some n => mxs n | None => [] end.
Definition kind (s : mstate) (i : nat) : option bool := match mget s i with Some n => Some (mir n) | None => None end.
Definition alive (s : mstate) (i : nat) : Prop := kind s i <> None.

(** m observes t *)
Definition edge (s : mstate) (t m : nat) : Prop := In m (obs s t).
(** y observes x, or an observer of x, and so on *)
Inductive below (E : nat -> nat -> Prop) : nat -> nat -> Prop :=
| B1 x y : E x y -> below E x y
| B2 x y z : E x y -> below E y z -> below E x z.

(** Every mirror has the elements of what it observes. *)
Definition in_step (s : mstate) : Prop := forall t m, edge s t m -> forall z, In z (elems s m) <-> In z (elems s t).

(** The operation compiles and its objects are alive. *)
Definition valid (s : mstate) (o : mop) : Prop :=
  match o with
  | MNew _ => True
  | MInsert i _ | MErase i _ | MClear i => kind s i = Some false
  | MReflect m t => kind s m = Some true /\ alive s t
  | MUnsub m => kind s m = Some true
  | MMove i | MDestroy i => alive s i
  | MAssign i j => alive s i /\ kind s i = kind s j
  end.
(** A mirror that reflects something is empty and observes nothing yet; an object is not assigned from itself, and, unless it is empty, not
    from a mirror of its own. *)
Definition proper (s : mstate) (o : mop) : Prop :=
  match o with
  | MReflect m t => elems s m = [] /\ forall t', ~ edge s t' m
  | MAssign i j => i <> j /\ (below (edge s) i j -> elems s i = [])
  | _ => True
  end.
(** The stack has room for as many calls as there are objects. *)
Inductive reach : mstate -> Prop :=
| R0 : reach minit
| RS fuel s o s' : reach s -> valid s o -> proper s o -> length (mns s) <= fuel -> mstep fuel o s = Ok s' -> reach s'.

(** The calls of s' that were not yet in s are one call c of each object in the list. *)
Definition told (s s' : mstate) (c : zcall) (l : list nat) : Prop := NoDup l /\ mcalls s' = map (fun m => (m, c)) l ++ mcalls s.
(** j replaced by k *)
Definition ren (j k x : nat) : nat := if Nat.eqb x j then k else x.

(** The operations that change a set, with what the observers are told; the others have no effect *)
Definition news (s : mstate) (o : mop) : option (nat * zcall) :=
  match o with
  | MInsert i v => if in_dec Z.eq_dec v (elems s i) then None else Some (i, KAdded v)
  | MErase i v => if in_dec Z.eq_dec v (elems s i) then Some (i, KRemoving v) else None
  | MClear i => match elems s i with [] => None | _ => Some (i, KClearing) end
  | _ => None
  end.
Definition after (c : zcall) (l : list Z) (z : Z) : Prop :=
  match c with KAdded v => z = v \/ In z l | KRemoving v => z <> v /\ In z l | KClearing => False end.

(** The new object k is in the place of j: it has the elements and the observers, and observes what j observed, at the same position.  Nobody
    is told anything. *)
Definition moved (s s' : mstate) (j k : nat) : Prop :=
  mcalls s' = mcalls s /\ (forall x, x <> k -> kind s' x = kind s x) /\ kind s' k = kind s j /\
  (forall x, obs s' x = if Nat.eqb x j then [] else map (ren j k) (obs s (if Nat.eqb x k then j else x))) /\
  (forall x, elems s' x = if Nat.eqb x j then [] else elems s (if Nat.eqb x k then j else x)).
(** All below i are told that i clears, unless it is empty. *)
Definition cleared (s s' : mstate) (i : nat) (l : list nat) : Prop :=
  told s s' KClearing l /\ (elems s i = [] /\ l = [] \/ elems s i <> [] /\ forall x, In x l <-> below (edge s) i x).
(** i is in the place of j, after this. *)
Definition assigned (s s' : mstate) (i j : nat) (l : list nat) : Prop :=
  cleared s s' i l /\ (forall x, kind s' x = kind s x) /\
  (forall x, elems s' x = if Nat.eqb x j then [] else if Nat.eqb x i then elems s j else if in_dec Nat.eq_dec x l then [] else elems s x) /\
  (forall x, obs s' x = if Nat.eqb x j then [] else map (ren j i) (filter (fun k => negb (Nat.eqb k i)) (obs s (if Nat.eqb x i then j else x)))).
