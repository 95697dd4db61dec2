(** Model of Awl/SharedSingleton.h (C74): shared_singleton<T>() and ondemand_singleton<T>().

    An instance has a number, the number of instances made before it, and the number of shared_ptrs
    that own it; it lives while it has owners.  The weak_ptr of the function is empty or observes an
    instance; it keeps the control block, so it can be told from an empty one after the instance is
    destroyed.  A call has two steps, the condition and the rest, so that calls of several threads,
    and calls from make_singleton_instance<T>(), may come between them.  The data race on the
    weak_ptr itself is not modelled: its assignment is one step. *)
From Verif Require Import Common.

Inductive kind := Shared | Ondemand.
(** What make_singleton_instance<T>() does: it makes an instance, throws or returns nullptr,
    SharedSingleton.h:21-29 *)
Inductive outcome := Makes | Throws | MakesNull.

Record state := {
  observed : option nat;        (* static std::weak_ptr<T> wp *)
  made : nat;                   (* instances constructed until now *)
  owners : nat -> nat;          (* use_count of an instance *)
  entered : nat -> bool         (* threads that have found the condition true *)
}.
Definition initial : state := {| observed := None; made := 0; owners := fun _ => 0; entered := fun _ => false |}.

(** is_uninitialized, SharedSingleton.h:13-18 *)
Definition is_uninitialized (s : state) : bool := match observed s with None => true | Some _ => false end.
(** wp.lock() *)
Definition lock (s : state) : option nat :=
  match observed s with
  | Some i => if (0 <? owners s i)%nat then Some i else None
  | None => None
  end.
Definition own (s : state) (i : nat) : state :=
  {| observed := observed s; made := made s; owners := fun j => if Nat.eqb j i then S (owners s j) else owners s j; entered := entered s |}.
Definition enter (s : state) (t : nat) (b : bool) : state :=
  {| observed := observed s; made := made s; owners := owners s; entered := fun u => if Nat.eqb u t then b else entered s u |}.

(** What the caller sees: a shared_ptr, an exception, or nothing yet *)
Inductive answer := Pointer (p : option nat) | Exception | Making.

(** The condition: SharedSingleton.h:37 and 46, or 55-57 *)
Definition call_begin (k : kind) (t : nat) (s : state) : answer * state :=
  if match k with Shared => is_uninitialized s | Ondemand => match lock s with None => true | Some _ => false end end
  then (Making, enter s t true)
  else match lock s with Some i => (Pointer (Some i), own s i) | None => (Pointer None, s) end.
(** The rest: SharedSingleton.h:39-43, or 60-65 *)
Definition call_end (t : nat) (o : outcome) (s : state) : answer * state :=
  let s := enter s t false in
  match o with
  | Makes => (Pointer (Some (made s)),
      {| observed := Some (made s); made := S (made s); owners := fun j => if Nat.eqb j (made s) then 1 else owners s j; entered := entered s |})
  | Throws => (Exception, s)
  | MakesNull => (Pointer None, {| observed := None; made := made s; owners := owners s; entered := entered s |})
  end.
(** A call that nothing interrupts *)
Definition call (k : kind) (t : nat) (o : outcome) (s : state) : answer * state :=
  match call_begin k t s with
  | (Making, s') => call_end t o s'
  | r => r
  end.
(** The holders of the pointers copy and release them *)
Definition copy (i : nat) (s : state) : state := if (0 <? owners s i)%nat then own s i else s.
Definition release (i : nat) (s : state) : state :=
  {| observed := observed s; made := made s; owners := fun j => if Nat.eqb j i then pred (owners s j) else owners s j; entered := entered s |}.

(** Uses one after another *)
Inductive use := Call (o : outcome) | Copy (i : nat) | Release (i : nat).
Definition step (k : kind) (s : state) (u : use) : list answer * state :=
  match u with
  | Call o => let (a, s') := call k 0 o s in ([a], s')
  | Copy i => ([], copy i s)
  | Release i => ([], release i s)
  end.
Fixpoint run (k : kind) (s : state) (us : list use) : list answer * state :=
  match us with
  | [] => ([], s)
  | u :: us' => let (a, s1) := step k s u in let (b, s2) := run k s1 us' in (a ++ b, s2)
  end.

(** Uses by several threads, or from make_singleton_instance<T>() *)
Inductive event := Begin (t : nat) | End (t : nat) (o : outcome).
Definition event_step (k : kind) (s : state) (e : event) : list answer * state :=
  match e with
  | Begin t => if entered s t then ([], s) else let (a, s') := call_begin k t s in ([a], s')
  | End t o => if entered s t then let (a, s') := call_end t o s in ([a], s') else ([], s)
  end.
Fixpoint run_events (k : kind) (s : state) (es : list event) : list answer * state :=
  match es with
  | [] => ([], s)
  | e :: es' => let (a, s1) := event_step k s e in let (b, s2) := run_events k s1 es' in (a ++ b, s2)
  end.
