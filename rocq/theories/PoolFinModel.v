(** Model of Awl/ObjectPool.h with objects whose Finalize() uses the pool.

    The state and the operations are those of PoolModel.v.  Here the deleter
    (ObjectPool.h:66-74) goes on with [p->Finalize()], an arbitrary list of operations of the
    user, which may make, copy and drop pointers to pooled objects and clear the pool, and
    so call the deleter of other objects, and so on.  The calls that have not returned are
    a stack. *)
From Verif Require Import Common PoolModel.

(** What a function of the user does: an operation with the pool and its pointers, or a use
    of the members of the object whose Finalize this is. *)
Inductive fop := FPool (o : pop_) | FThis.

(** PoolModel.v [drop], [store] and [pstep] with the object whose Finalize is to be called:
    the deleter is the last thing each of them does. *)
Definition fdrop (s : pool) (o : option nat) : res (pool * option nat) :=
  match o with
  | None => Ok (s, None)
  | Some p =>
    match refs s p with
    | 0 => UB
    | S k =>
      let s' := Pool (vars s) (upd (refs s) p k) (m_free s) (m_used s) (next s) (deleted s) (exists_ s) in
      if Nat.eqb k 0 then let* s'' := deleter s' p in Ok (s'', Some p) else Ok (s', None)
    end
  end.
Definition fstore (s : pool) (v : nat) (x : option nat) : res (pool * option nat) :=
  match nth_error (vars s) v with
  | None => UB
  | Some old => fdrop (Pool (set_nth (vars s) v x) (refs s) (m_free s) (m_used s) (next s) (deleted s) (exists_ s)) old
  end.
Definition fstep (s : pool) (o : pop_) : res (pool * option nat * option nat) :=
  match o with
  | PMake v => guard (exists_ s) (let (p, s') := make s in let* (s'', f) := fstore s' v (Some p) in Ok (s'', Some p, f))
  | PAdd v => guard (exists_ s)
      (let p := next s in
       let s' := add (Pool (vars s) (refs s) (m_free s) (m_used s) (S p) (deleted s) (exists_ s)) p in
       let* (s'', f) := fstore s' v (Some p) in Ok (s'', Some p, f))
  | PCopy v w =>
      match nth_error (vars s) w with
      | None => UB
      | Some x =>
        let s' := match x with
          | None => s
          | Some p => Pool (vars s) (upd (refs s) p (S (refs s p))) (m_free s) (m_used s) (next s) (deleted s) (exists_ s)
          end in
        let* (s'', f) := fstore s' v x in Ok (s'', None, f)
      end
  | PReset v => let* (s', f) := fstore s v None in Ok (s', None, f)
  | PClear => guard (exists_ s) (Ok (clear s, None, None))
  | PDestroy => guard (exists_ s) (let* s' := destroy_pool s in Ok (s', None, None))
  end.

(** A call that has not returned: the object whose Finalize it is (None: the program
    itself), and what it still does. *)
Definition frame := (option nat * list fop)%type.
Record mach := Mach {
  pl : pool;
  stack : list frame;
  fins : nat;                              (* the number of calls of Finalize *)
  given : list (nat * list (option nat))   (* what make() and add() returned, with the calls that were in progress *)
}.

Section Finalize.
(** What the [k]-th call of Finalize does, if it is that of [p]. *)
Context (fin : nat -> nat -> list fop).

(** One step; None: the program has ended. *)
Definition mstep (m : mach) : res (option mach) :=
  match stack m with
  | [] => Ok None
  | (_, []) :: r => Ok (Some (Mach (pl m) r (fins m) (given m)))
  | (None, FThis :: _) :: _ => UB
  | (Some p, FThis :: k) :: r =>
      guard (negb (existsb (Nat.eqb p) (deleted (pl m)))) (Ok (Some (Mach (pl m) ((Some p, k) :: r) (fins m) (given m))))
  | (o, FPool q :: k) :: r =>
      let* (s', a, f) := fstep (pl m) q in
      let g := match a with Some p => (p, map fst (stack m)) :: given m | None => given m end in
      Ok (Some match f with
               | Some p => Mach s' ((Some p, fin p (fins m)) :: (o, k) :: r) (S (fins m)) g
               | None => Mach s' ((o, k) :: r) (fins m) g
               end)
  end.
Fixpoint mrun (n : nat) (m : mach) : res mach :=
  match n with
  | 0 => Ok m
  | S n' => let* m' := mstep m in match m' with Some m1 => mrun n' m1 | None => Ok m end
  end.
Definition mstart (n : nat) (os : list pop_) : mach := Mach (pinit n) [(None, map FPool os)] 0 [].
End Finalize.
