(** What the observers show, in terms of elements only: nothing that the set does not contain, or exactly what it contains. *)
From Verif Require Import Common ObsThrowModel.

Section Spec.
Context {T : Type}.

(** The observer shows elements of [xs] only, and its own observers elements of it only: a pointer of a foreign_set does not dangle. *)
Fixpoint below (xs : list T) (n : tnode) : Prop :=
  match n with
  | TMirror _ ys subs =>
    (forall z, In z ys -> In z xs) /\ (fix all l := match l with [] => True | s :: r => below ys s /\ all r end) subs
  | TForeign gs => forall z, In z (concat gs) -> In z xs
  | TUser _ _ => True
  end.
(** The observer shows exactly [xs]. *)
Fixpoint synced (xs : list T) (n : tnode) : Prop :=
  match n with
  | TMirror _ ys subs =>
    (forall z, In z ys <-> In z xs) /\ (fix all l := match l with [] => True | s :: r => synced ys s /\ all r end) subs
  | TForeign gs => forall z, In z (concat gs) <-> In z xs
  | TUser _ _ => True
  end.
(** No observer is a foreign_set. *)
Fixpoint no_foreign (n : tnode (T := T)) : Prop :=
  match n with
  | TMirror _ _ subs => (fix all l := match l with [] => True | s :: r => no_foreign s /\ all r end) subs
  | TForeign _ => False
  | TUser _ _ => True
  end.

Definition source_below (s : tsource (T := T)) : Prop := Forall (below (txs s)) (tsubs s).
Definition source_synced (s : tsource (T := T)) : Prop := Forall (synced (txs s)) (tsubs s).

(** The sets a statement modifies *)
Definition subject (o : top (T := T)) (i : nat) : Prop :=
  match o with
  | TNew j _ | TInsert j _ | TErase j _ | TEraseAt j _ | TClear j | TDestroy j | TSubscribe j _ _ | TDrop j _ => i = j
  | TMigrate j k | TMove j k | TMoveAssign j k => i = j \/ i = k
  end.
(** The orders in a statement *)
Definition top_orders (o : top (T := T)) (P : (T -> T -> bool) -> Prop) : Prop :=
  match o with TNew _ lt => P lt | TSubscribe _ _ (KMirror lt) => P lt | _ => True end.
(** The observers of the user among [l] have got the call [c] one after the other up to the first of the observers that throws: [k] have. *)
Definition told (c : call) (k : nat) (l l' : list (tnode (T := T))) : Prop :=
  length l' = length l /\ k <= length l /\
  forall j log plan, nth_error l j = Some (TUser log plan) ->
    nth_error l' j = Some (if j <? k then TUser (c :: log) (tl plan) else TUser log plan) /\ (S j < k -> hd false plan = false).
(** ... and this is what the statement does then. *)
Definition ends_with (k : nat) (l : list (tnode (T := T))) (r : outcome) : Prop :=
  match r with
  | Returned _ => k = length l /\ forall log plan, In (TUser log plan) l -> hd false plan = false
  | Threw x => exists m n, k = S m /\ nth_error l m = Some n /\ forall log plan, n = TUser log plan -> hd false plan = true /\ x = RuntimeError
  | Terminated => False
  end.
(** The observer at a path below a list of observers *)
Fixpoint at_path (p : list nat) (l : list (tnode (T := T))) : option tnode :=
  match p with
  | [] => None
  | [i] => nth_error l i
  | i :: p' => match nth_error l i with Some (TMirror _ _ ss) => at_path p' ss | _ => None end
  end.
(** An observer of the user will throw at the next call; no observer throws when it is told to clear. *)
Definition will_throw (l : list (tnode (T := T))) : Prop := exists log plan, In (TUser log plan) l /\ hd false plan = true.
Fixpoint quiet (n : tnode (T := T)) : Prop :=
  match n with
  | TMirror _ _ subs => (fix all l := match l with [] => True | s :: r => quiet s /\ all r end) subs
  | TForeign _ => True
  | TUser _ plan => hd false plan = false
  end.
End Spec.
