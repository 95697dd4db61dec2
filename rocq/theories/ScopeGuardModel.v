(** Model of Awl/ScopeGuard.h. *)
From Verif Require Import Common.

Section ScopeGuard.
(** A function object is [Some a], the action number [a], or [None]: calling it is an error (an empty
    [std::function] in a destructor terminates the program).  [moved f] is what moving leaves of [f]:
    a lambda that captures references or integers is copied, so [moved f = f]; a moved-from
    [std::function] is empty in practice, [moved f = None]. *)
Context (moved : option nat -> option nat).

(** ScopeGuard.h:53-55 (the fields [free] and [engaged]). *)
Record guard_t := Guard { free : option nat; engaged : bool }.

(** The guards that exist, by variable, and the actions that have been run. *)
Record world := World { guards : nat -> option guard_t; log : list nat }.

Inductive gop :=
| GNew (g a : nat) (e : bool)   (* constructor or make_scope_guard(f, e) *)
| GMove (g src : nat)           (* scope_guard g(std::move(src)) *)
| GAssign (g src : nat)         (* g = std::move(src) *)
| GRelease (g : nat)
| GDestroy (g : nat).           (* the end of the scope of g *)

(** ScopeGuard.h:18-20 (constructor); the factory functions 58-85 return a prvalue, so they do not
    move. *)
Definition new_guard (a : nat) (e : bool) : guard_t := Guard (Some a) e.

(** ScopeGuard.h:26-29 (move constructor): [engaged] gets its default member initializer [true]. *)
Definition move_guard (src : guard_t) : guard_t * guard_t :=
  (Guard (free src) true, Guard (moved (free src)) false).

(** ScopeGuard.h:31-36 (move assignment of different guards): [engaged] keeps its value. *)
Definition assign_guard (g src : guard_t) : guard_t * guard_t :=
  (Guard (free src) (engaged g), Guard (moved (free src)) false).

(** ScopeGuard.h:46-49 [release]. *)
Definition release (g : guard_t) : guard_t := Guard (free g) false.

(** ScopeGuard.h:38-44 (destructor). *)
Definition destroy (g : guard_t) (l : list nat) : res (list nat) :=
  if engaged g then match free g with Some a => Ok (l ++ [a]) | None => UB end else Ok l.

(** One operation.  A variable is constructed once before it is used and destroyed once; anything else
    does not compile or is undefined. *)
Definition gstep (w : world) (o : gop) : res world :=
  match o with
  | GNew g a e =>
    match guards w g with
    | None => Ok (World (upd (guards w) g (Some (new_guard a e))) (log w))
    | Some _ => UB
    end
  | GMove g src =>
    match guards w g, guards w src with
    | None, Some s => let (x, y) := move_guard s in Ok (World (upd (upd (guards w) g (Some x)) src (Some y)) (log w))
    | _, _ => UB
    end
  | GAssign g src =>
    match guards w g, guards w src with
    | Some x, Some s =>
      if Nat.eqb g src then
        (* free = std::move(free) leaves a lambda as it is, and an unspecified std::function *)
        Ok (World (upd (guards w) g (Some (Guard (moved (free x)) false))) (log w))
      else let (x', y) := assign_guard x s in Ok (World (upd (upd (guards w) g (Some x')) src (Some y)) (log w))
    | _, _ => UB
    end
  | GRelease g =>
    match guards w g with
    | Some x => Ok (World (upd (guards w) g (Some (release x))) (log w))
    | None => UB
    end
  | GDestroy g =>
    match guards w g with
    | Some x => let* l := destroy x (log w) in Ok (World (upd (guards w) g None) l)
    | None => UB
    end
  end.

Fixpoint grun (w : world) (os : list gop) : res world :=
  match os with [] => Ok w | o :: os' => let* w' := gstep w o in grun w' os' end.

Definition ginit : world := World (fun _ => None) [].
End ScopeGuard.
