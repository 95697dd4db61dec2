(** Specification of observable sets with mirrors and foreign sets: a source is a
    bag of elements; everything its observers show is computed from it. *)
From Verif Require Import Common ObsSetModel.

Section Spec.
Context {T : Type} (pk fk : T -> Z).

(** Insertion sort. *)
Fixpoint ins (lt : T -> T -> bool) (v : T) (l : list T) : list T :=
  match l with [] => [v] | x :: r => if lt x v then x :: ins lt v r else v :: x :: r end.
Definition isort (lt : T -> T -> bool) (xs : list T) : list T := fold_right (ins lt) [] xs.

(** The foreign keys in use, increasing, and the elements of each, by primary key. *)
Fixpoint insk (k : Z) (l : list Z) : list Z :=
  match l with
  | [] => [k]
  | x :: r => if (x <? k)%Z then x :: insk k r else if (x =? k)%Z then x :: r else k :: x :: r
  end.
Definition keys (xs : list T) : list Z := fold_right insk [] (map fk xs).
Definition grouping (xs : list T) : list (list T) :=
  map (fun k => isort (fun a b => (pk a <? pk b)%Z) (filter (fun x => Z.eqb (fk x) k) xs)) (keys xs).

(** The observers of a set: mirrors with their comparators and observers, and foreign
    sets. *)
Inductive shape := SMirror (lt : T -> T -> bool) (subs : list shape) | SForeign.
Record ssource := { slt : T -> T -> bool; sxs : list T; ssubs : list shape }.
Definition senv := nat -> option ssource.

(** The observer can tell the new element [v] from all of [xs]. *)
Fixpoint tells (v : T) (xs : list T) (s : shape) : bool :=
  match s with
  | SMirror lt subs => negb (existsb (eqv lt v) xs) && forallb (tells v xs) subs
  | SForeign => negb (existsb (fun x => Z.eqb (fk x) (fk v) && Z.eqb (pk x) (pk v)) xs)
  end.
Fixpoint tells_all (xs : list T) (s : shape) : bool :=
  match xs with [] => true | v :: r => tells v r s && tells_all r s end.

Fixpoint sh_subscribe (path : list nat) (n : shape) (subs : list shape) : option (list shape) :=
  match path with
  | [] => Some (subs ++ [n])
  | i :: p => match nth_error subs i with
              | Some (SMirror lt ss) =>
                  match sh_subscribe p n ss with Some ss' => Some (set_nth subs i (SMirror lt ss')) | None => None end
              | _ => None
              end
  end.
Fixpoint sh_drop (path : list nat) (subs : list shape) : option (list shape) :=
  match path with
  | [] => None
  | [i] => if i <? length subs then Some (remove_nth i subs) else None
  | i :: p => match nth_error subs i with
              | Some (SMirror lt ss) =>
                  match sh_drop p ss with Some ss' => Some (set_nth subs i (SMirror lt ss')) | None => None end
              | _ => None
              end
  end.
Fixpoint sh_at (path : list nat) (subs : list shape) : option shape :=
  match path with
  | [] => None
  | i :: p => match nth_error subs i, p with
              | Some s, [] => Some s
              | Some (SMirror _ ss), _ => sh_at p ss
              | _, _ => None
              end
  end.

Definition without (lt : T -> T -> bool) (v : T) (xs : list T) : list T := filter (fun x => negb (eqv lt v x)) xs.

(** [None]: a precondition is violated (in particular: an observer cannot tell a new
    element from one that is there). *)
Definition sstep (e : senv) (o : oop (T := T)) : option (senv * oobs (T := T)) :=
  let on i (f : ssource -> option (senv * oobs)) := match e i with Some s => f s | None => None end in
  let free i (k : option (senv * oobs)) := match e i with None => k | Some _ => None end in
  let put i s := upd e i (Some s) in
  let with_xs s xs := {| slt := slt s; sxs := xs; ssubs := ssubs s |} in
  let with_subs s l := {| slt := slt s; sxs := sxs s; ssubs := l |} in
  match o with
  | ONew i lt => free i (Some (put i {| slt := lt; sxs := []; ssubs := [] |}, BUnit))
  | OInsert i v => on i (fun s =>
      if existsb (eqv (slt s) v) (sxs s) then Some (e, BBool false)
      else if forallb (tells v (sxs s)) (ssubs s) then Some (put i (with_xs s (v :: sxs s)), BBool true)
      else None)
  | OErase i v => on i (fun s =>
      if existsb (eqv (slt s) v) (sxs s) then Some (put i (with_xs s (without (slt s) v (sxs s))), BNat 1)
      else Some (e, BNat 0))
  | OEraseAt i n => on i (fun s =>
      match nth_error (isort (slt s) (sxs s)) n with
      | Some x => Some (put i (with_xs s (without (slt s) x (sxs s))), BUnit)
      | None => None
      end)
  | OClear i => on i (fun s => Some (put i (with_xs s []), BUnit))
  | OMigrate i j => on i (fun a => on j (fun b =>
      if Nat.eqb i j then Some (put i (with_xs a []), BUnit)
      else if forallb (tells_all (isort (slt b) (sxs b))) (ssubs a)
           then Some (upd (upd e j (Some (with_xs b []))) i (Some {| slt := slt b; sxs := sxs b; ssubs := ssubs a |}), BUnit)
           else None))
  | OMove i j => free i (on j (fun b =>
      Some (upd (upd e j (Some {| slt := slt b; sxs := []; ssubs := [] |})) i (Some b), BUnit)))
  | OMoveAssign i j => on i (fun a => on j (fun b =>
      if Nat.eqb i j then Some (put i {| slt := slt a; sxs := []; ssubs := [] |}, BUnit)
      else Some (upd (upd e j (Some {| slt := slt b; sxs := []; ssubs := [] |})) i (Some b), BUnit)))
  | ODestroy i => on i (fun _ => Some (upd e i None, BUnit))
  | OReflect i p lt => on i (fun s =>
      match sh_subscribe p (SMirror lt []) (ssubs s) with
      | Some l => if tells_all (sxs s) (SMirror lt []) then Some (put i (with_subs s l), BUnit) else None
      | None => None
      end)
  | OForeign i p => on i (fun s =>
      match sh_subscribe p SForeign (ssubs s) with
      | Some l => if tells_all (sxs s) SForeign then Some (put i (with_subs s l), BUnit) else None
      | None => None
      end)
  | ODrop i p => on i (fun s => match sh_drop p (ssubs s) with Some l => Some (put i (with_subs s l), BUnit) | None => None end)
  | OIter i => on i (fun s => Some (e, BList (isort (slt s) (sxs s))))
  | OLook i p => on i (fun s =>
      match sh_at p (ssubs s) with
      | Some (SMirror lt _) => Some (e, BList (isort lt (sxs s)))
      | Some SForeign => Some (e, BGroups (grouping (sxs s)))
      | None => None
      end)
  end.

Fixpoint srun (e : senv) (os : list (oop (T := T))) : option (senv * list (oobs (T := T))) :=
  match os with
  | [] => Some (e, [])
  | o :: os' =>
      match sstep e o with
      | None => None
      | Some (e1, v) => match srun e1 os' with Some (e2, vs) => Some (e2, v :: vs) | None => None end
      end
  end.

(** The comparators in a program. *)
Definition op_orders (o : oop (T := T)) (P : (T -> T -> bool) -> Prop) : Prop :=
  match o with ONew _ lt | OReflect _ _ lt => P lt | _ => True end.
End Spec.
