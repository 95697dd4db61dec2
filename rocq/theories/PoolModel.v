(** Model of Awl/ObjectPool.h together with the std::shared_ptr variables of its user. *)
From Verif Require Import Common.

(** ObjectPool.h:91-92 and the world around it.  Objects are numbered in the order of their
    construction.  The two intrusive lists are modelled by the lists of their elements (that is what
    QListProps shows quick_list to be); one link of an object is in at most one of them. *)
Record pool := Pool {
  vars : list (option nat);   (* the shared_ptr variables *)
  refs : nat -> nat;          (* use_count of the control block of an object *)
  m_free : list nat;
  m_used : list nat;
  next : nat;                 (* the number of objects constructed so far *)
  deleted : list nat;         (* the objects destroyed, in that order *)
  exists_ : bool              (* the pool has not been destroyed *)
}.

(** QuickList.h:122 [erase] on an element of the list, undefined for others. *)
Definition erase (l : list nat) (p : nat) : res (list nat) :=
  guard (existsb (Nat.eqb p) l) (Ok (filter (fun x => negb (Nat.eqb p x)) l)).

(** ObjectPool.h:64-75 [Deleter::operator()]; [Finalize] does not use the pool.  [p_this] dangles if
    the pool has been destroyed. *)
Definition deleter (s : pool) (p : nat) : res pool :=
  guard (exists_ s)
  (let* u := erase (m_used s) p in
   Ok (Pool (vars s) (refs s) (m_free s ++ [p]) u (next s) (deleted s) (exists_ s))).

(** The destruction of one shared_ptr: the last one calls the deleter. *)
Definition drop (s : pool) (o : option nat) : res pool :=
  match o with
  | None => Ok s
  | Some p =>
    match refs s p with
    | 0 => UB
    | S k =>
      let s' := Pool (vars s) (upd (refs s) p k) (m_free s) (m_used s) (next s) (deleted s) (exists_ s) in
      if Nat.eqb k 0 then deleter s' p else Ok s'
    end
  end.

(** [v = x;] for shared_ptr: the new value is stored before the old one is dropped.  The reference of
    [x] has been counted already. *)
Definition store (s : pool) (v : nat) (x : option nat) : res pool :=
  match nth_error (vars s) v with
  | None => UB
  | Some old => drop (Pool (set_nth (vars s) v x) (refs s) (m_free s) (m_used s) (next s) (deleted s) (exists_ s)) old
  end.

(** ObjectPool.h:40-45 [add] and 84-87 [MakePointer]: a new control block with one reference. *)
Definition add (s : pool) (p : nat) : pool :=
  Pool (vars s) (upd (refs s) p 1) (m_free s) (m_used s ++ [p]) (next s) (deleted s) (exists_ s).

(** ObjectPool.h:24-38 [make]. *)
Definition make (s : pool) : nat * pool :=
  match m_free s with
  | p :: f => (p, add (Pool (vars s) (refs s) f (m_used s) (next s) (deleted s) (exists_ s)) p)
  | [] => (next s, add (Pool (vars s) (refs s) [] (m_used s) (S (next s)) (deleted s) (exists_ s)) (next s))
  end.

(** ObjectPool.h:54-60 [clear]: [delete m_free.pop_front()] until it is empty. *)
Fixpoint clear_from (f : list nat) (s : pool) : pool :=
  match f with
  | [] => s
  | p :: f' => clear_from f' (Pool (vars s) (refs s) f' (m_used s) (next s) (deleted s ++ [p]) (exists_ s))
  end.
Definition clear (s : pool) : pool := clear_from (m_free s) s.

(** ObjectPool.h:47-52 (destructor), a failed [assert] is undefined behaviour. *)
Definition destroy_pool (s : pool) : res pool :=
  match m_used s with
  | [] => let s' := clear s in Ok (Pool (vars s') (refs s') (m_free s') (m_used s') (next s') (deleted s') false)
  | _ => UB
  end.

Inductive pop_ :=
| PMake (v : nat)        (* v = pool.make(); *)
| PAdd (v : nat)         (* v = pool.add(new T()); *)
| PCopy (v w : nat)      (* v = w; *)
| PReset (v : nat)       (* v.reset(); *)
| PClear
| PDestroy.

(** One operation; the answer is the object returned by the pool. *)
Definition pstep (s : pool) (o : pop_) : res (pool * option nat) :=
  match o with
  | PMake v => guard (exists_ s) (let (p, s') := make s in let* s'' := store s' v (Some p) in Ok (s'', Some p))
  | PAdd v => guard (exists_ s)
      (let p := next s in
       let s' := add (Pool (vars s) (refs s) (m_free s) (m_used s) (S p) (deleted s) (exists_ s)) p in
       let* s'' := store s' v (Some p) in Ok (s'', Some p))
  | PCopy v w =>
      match nth_error (vars s) w with
      | None => UB
      | Some x =>
        let s' := match x with
          | None => s
          | Some p => Pool (vars s) (upd (refs s) p (S (refs s p))) (m_free s) (m_used s) (next s) (deleted s) (exists_ s)
          end in
        let* s'' := store s' v x in Ok (s'', None)
      end
  | PReset v => let* s' := store s v None in Ok (s', None)
  | PClear => guard (exists_ s) (Ok (clear s, None))
  | PDestroy => guard (exists_ s) (let* s' := destroy_pool s in Ok (s', None))
  end.

Fixpoint prun (s : pool) (os : list pop_) : res (pool * list (option nat)) :=
  match os with
  | [] => Ok (s, [])
  | o :: os' => let* (s', a) := pstep s o in let* (s'', l) := prun s' os' in Ok (s'', a :: l)
  end.

(** A new pool and [n] empty pointers. *)
Definition pinit (n : nat) : pool := Pool (repeat None n) (fun _ => 0) [] [] 0 [] true.
