(** Model of the constructors of awl::vector_set that take elements (Awl/VectorSet.h:242-271) when the comparator, the constructor of an
    element, the allocation of a node or an iterator of the range throws, over VSetThrowModel.

    The answers say which calls throw, [leaks] counts the blocks that nobody owns.  Left out: copying the comparator and the allocator;
    the call with two iterators only does not compile, because 258 and 267 are equally good. *)
From Verif Require Import Common VSetModel VSetThrowModel.

Section Ctor.
Context {T : Type} (lt : T -> T -> bool).
(** 247-250: a pointer into the list, which does not throw; 264: std::for_each over [first, last), whose iterators are the user's if [user] *)
Fixpoint each_t (user : bool) (vs : list T) : @TM T unit :=
  tbind (if user then may_throw else tret tt) (fun _ =>
  match vs with
  | [] => tret tt
  | v :: vs' => tbind (insert_t lt v) (fun _ => each_t user vs')
  end).
(** What is left: a set or no set, the lost blocks and the answers that were not used *)
Definition made : Type := option (st T) * nat * list bool.
(** 242-251: the destructor does not run for an object that is not constructed; the list of the nodes, m_list, does not own them *)
Definition ctor_init (vs : list T) (L : nat) (ans : list bool) : res made :=
  match each_t false vs (W empty_st L ans) with
  | TOk w _ => Ok (Some (wset w), leaks w, answers w)
  | TExn w _ => Ok (None, leaks w + live (wset w), answers w)
  | TUB => UB
  end.
(** 258-265: the object is constructed by 227-229, so that the destructor runs, 273-276 *)
Definition ctor_range (vs : list T) (L : nat) (ans : list bool) : res made :=
  match each_t true vs (W empty_st L ans) with
  | TOk w _ => Ok (Some (wset w), leaks w, answers w)
  | TExn w _ => let* (s, _) := clear (wset w) in Ok (None, leaks w + live s, answers w)
  | TUB => UB
  end.
End Ctor.
