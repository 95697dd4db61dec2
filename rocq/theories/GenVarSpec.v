(** Specification of generators in variables (C105), without frames: who refers to which sequence, and how far each sequence has
    been advanced.  The k-th call of a coroutine function makes the k-th sequence. *)
From Verif Require Import Common GeneratorModel GenVarModel.

Section GenVarSpec.
Context {S V : Type}.
Variable step : S -> res (gout V S).

(** Where the body that was called with [a] is after [n] values, if it has yielded so many, and what it does next. *)
Fixpoint state_at (a : S) (n : nat) : option S :=
  match n with
  | 0 => Some a
  | Datatypes.S m => match state_at a m with Some b => match step b with Ok (GYield _ b') => Some b' | _ => None end | None => None end
  end.
Definition outcome (a : S) (n : nat) : option (gout V S) :=
  match state_at a n with Some b => match step b with Ok o => Some o | _ => None end | None => None end.

Record gspec := GSpec {
  calls : list S;                       (* the calls of coroutine functions *)
  adv : nat -> nat;                     (* how many times each sequence has been advanced *)
  who : nat -> option (option nat);     (* the variables: an empty generator or the number of a sequence *)
  pos : nat -> option (option nat)      (* the iterators *)
}.
Definition gspec0 : gspec := GSpec [] (fun _ => 0) (fun _ => None) (fun _ => None).

(** A sequence exists as long as some variable has it. *)
Definition alive (p : gspec) (k : nat) : Prop := exists x, who p x = Some (Some k).
(** What the sequence [k] does when it is advanced, and what it has done last. *)
Definition next (p : gspec) (k : nat) : option (gout V S) :=
  match nth_error (calls p) k with Some a => outcome a (adv p k) | None => None end.
Definition last (p : gspec) (k : nat) : option (gout V S) :=
  match nth_error (calls p) k, adv p k with Some a, Datatypes.S n => outcome a n | _, _ => None end.

Definition own (p : gspec) (w : nat -> option (option nat)) : gspec := GSpec (calls p) (adv p) w (pos p).
Definition call (p : gspec) (a : S) (w : nat -> option (option nat)) : gspec := GSpec (calls p ++ [a]) (adv p) w (pos p).
Definition move_on (p : gspec) (k : nat) (q : nat -> option (option nat)) : gspec :=
  GSpec (calls p) (fun j => if j =? k then Datatypes.S (adv p j) else adv p j) (who p) q.
Definition put {A} (w : nat -> A) (x : nat) (m : A) : nat -> A := fun z => if z =? x then m else w z.

(** The meaning of each operation; it is undefined when there is no [p'] and [v]. *)
Definition sstep (p : gspec) (o : gop S) (p' : gspec) (v : gobs V) : Prop :=
  match o with
  | GNew x a => who p x = None /\ p' = call p a (put (who p) x (Some (Some (length (calls p))))) /\ v = ONone
  | GEmpty x => who p x = None /\ p' = own p (put (who p) x (Some None)) /\ v = ONone
  | GMove x y => who p x = None /\ exists m, who p y = Some m /\ p' = own p (put (put (who p) y (Some None)) x (Some m)) /\ v = ONone
  | GAssign x y =>        (* x = std::move(x) changes nothing *)
      who p x <> None /\ exists m, who p y = Some m /\ p' = own p (put (put (who p) y (Some None)) x (Some m)) /\ v = ONone
  | GAssignNew x a => who p x <> None /\ p' = call p a (put (who p) x (Some (Some (length (calls p))))) /\ v = ONone
  | GSwap x y => exists m n, who p x = Some m /\ who p y = Some n /\ p' = own p (put (put (who p) x (Some n)) y (Some m)) /\ v = ONone
  | GFree x => who p x <> None /\ p' = own p (put (who p) x None) /\ v = ONone
  | GBegin i x =>
      match who p x with
      | None => False
      | Some None => p' = GSpec (calls p) (adv p) (who p) (put (pos p) i (Some None)) /\ v = ONone
      | Some (Some k) =>
        match next p k with
        | None => False
        | Some (GThrow e) => p' = move_on p k (pos p) /\ v = OExn e
        | Some _ => p' = move_on p k (put (pos p) i (Some (Some k))) /\ v = ONone
        end
      end
  | GCopy i j => exists m, pos p j = Some m /\ p' = GSpec (calls p) (adv p) (who p) (put (pos p) i (Some m)) /\ v = ONone
  | GNext i => exists k, pos p i = Some (Some k) /\ alive p k /\ p' = move_on p k (pos p) /\
      match next p k with None => False | Some (GThrow e) => v = OExn e | Some _ => v = ONone end
  | GAtEnd i => exists m, pos p i = Some m /\ p' = p /\
      match m with
      | None => v = OBool true
      | Some k => alive p k /\ v = OBool (match last p k with Some (GYield _ _) | None => false | _ => true end)
      end
  | GDeref i => exists k x b, pos p i = Some (Some k) /\ alive p k /\ last p k = Some (GYield x b) /\ p' = p /\ v = OVal x
  end.

Fixpoint srun (p : gspec) (os : list (gop S)) (p' : gspec) (vs : list (gobs V)) : Prop :=
  match os, vs with
  | [], [] => p' = p
  | o :: os', v :: vs' => exists p1, sstep p o p1 v /\ srun p1 os' p' vs'
  | _, _ => False
  end.
End GenVarSpec.
