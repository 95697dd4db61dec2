(** Model of awl::vector_set (Awl/VectorSet.h) when the comparator, the constructor of an element
    or the allocation of a node throws (C84), over the nodes and pointers of VSetModel.

    - Every call that may throw takes the next answer from a list: true is an exception; past the
      end of the list nothing throws.
    - A block that nobody owns any more is counted in [leaks] and taken out of the store, so that
      any later access to it would be undefined.
    - Asserts are disabled (NDEBUG): the comparisons in them do not take place.
    - Destructors do not throw. *)
From Verif Require Import Common VSetModel VSetProg.

Section VSetThrow.
Context {T : Type}.
Record world := W { wset : st T; leaks : nat; answers : list bool }.
(** [TExn]: the state when the exception leaves the function; [None] is one of the user's
    exceptions, [Some e] one of the library's *)
Inductive tres (A : Type) := TOk (w : world) (x : A) | TExn (w : world) (e : option exn) | TUB.
Arguments TOk {A}. Arguments TExn {A}. Arguments TUB {A}.
Definition TM (A : Type) := world -> tres A.
Definition tret {A} (x : A) : TM A := fun w => TOk w x.
Definition tbind {A B} (m : TM A) (f : A -> TM B) : TM B :=
  fun w => match m w with TOk w1 x => f x w1 | TExn w1 e => TExn w1 e | TUB => TUB end.
Notation "x <~ m ;; k" := (tbind m (fun x => k)) (at level 61, m at next level, right associativity).
Notation "m ;;~ k" := (tbind m (fun _ => k)) (at level 61, right associativity).
(** A part of VSetModel in which nothing of the user's is called *)
Definition lift {A} (m : @M T A) : TM A :=
  fun w => match m (wset w) with
           | Ok (s, x) => TOk (W s (leaks w) (answers w)) x
           | Throw e => TExn w (Some e)
           | UB => TUB
           end.
Definition may_throw : TM unit :=
  fun w => match answers w with
           | [] => TOk w tt
           | b :: o => let w1 := W (wset w) (leaks w) o in if b then TExn w1 None else TOk w1 tt
           end.
(** A call of the comparator *)
Definition cmp (f : T -> bool) (v : T) : TM bool := may_throw ;;~ tret (f v).
(** Clean up while an exception passes *)
Definition on_exn {A} (m : TM A) (h : TM unit) : TM A :=
  fun w => match m w with
           | TExn w1 e => match h w1 with TOk w2 _ | TExn w2 _ => TExn w2 e | TUB => TUB end
           | r => r
           end.
(** A node with no owner *)
Definition abandon (a : nat) : TM unit :=
  fun w => TOk (W (set_val a None (wset w)) (S (leaks w)) (answers w)) tt.

Context (lt : T -> T -> bool).

(** VectorSet.h:167-189 CreateNode: allocate(1), then the constructor on the raw block, which is
    not released when it throws *)
Definition create_node_t (v : T) : TM nat :=
  may_throw ;;~
  on_exn may_throw (fun w => TOk (W (let s := wset w in mk (root s) (par s) (lft s) (rgt s) (col s) (cnt s) (val s) (nxt s) (prv s) (S (fresh s)))
                                    (S (leaks w)) (answers w)) tt) ;;~
  lift (create_node v).

(** VectorSet.h:615-638 FindNodeByKey *)
Fixpoint find_loop_t (fuel : nat) (ltk gtk : T -> bool) {B} (accl accr : option nat -> B -> @M T B)
    (x : option nat) (b : B) : TM (option nat * B) :=
  match fuel with
  | 0 => lift fail
  | S f =>
      if is_null x then tret (None, b) else
      v <~ lift (rd_val x) ;;
      c <~ cmp ltk v ;;
      if c then b <~ lift (accl x b) ;; xl <~ lift (rd lft x) ;; find_loop_t f ltk gtk accl accr xl b
      else c <~ cmp gtk v ;;
      if c then b <~ lift (accr x b) ;; xr <~ lift (rd rgt x) ;; find_loop_t f ltk gtk accl accr xr b
      else tret (x, b)
  end.
Definition fuelled_t {A} (f : nat -> TM A) : TM A := fun w => f (S (fresh (wset w))) w.
Definition find_node_acc_t (ltk gtk : T -> bool) {B} (accl accr : option nat -> B -> @M T B) (b : B) : TM (option nat * B) :=
  r <~ lift get_root ;; fuelled_t (fun f => find_loop_t f ltk gtk accl accr r b).
(** :587-593, 596-613, 641-666 *)
Definition find_node_t (ltk gtk : T -> bool) : TM (option nat) :=
  xb <~ find_node_acc_t ltk gtk (fun _ b => ret b) (fun _ b => ret b) tt ;; tret (fst xb).
Definition find_node_parent_t (ltk gtk : T -> bool) : TM (option nat * option nat) :=
  find_node_acc_t ltk gtk (fun x _ => ret x) (fun x _ => ret x) None.
Definition find_index_t (ltk gtk : T -> bool) : TM (option (nat * nat)) :=
  xb <~ find_node_acc_t ltk gtk (fun _ b => ret b)
          (fun x rank => bind (left_count x) (fun lc => ret (rank + (lc + 1)))) 0 ;;
  match fst xb with
  | Some a => lc <~ lift (left_count (Some a)) ;; tret (Some (a, lc + snd xb))
  | None => tret None
  end.
(** :670-696 FindBoundByKey *)
Fixpoint bound_loop_t (fuel : nat) (ltk gtk : T -> bool) (x greater : option nat) : TM (option nat * bool) :=
  match fuel with
  | 0 => lift fail
  | S f =>
      if is_null x then tret (greater, false) else
      v <~ lift (rd_val x) ;;
      c <~ cmp ltk v ;;
      if c then xl <~ lift (rd lft x) ;; bound_loop_t f ltk gtk xl x
      else c <~ cmp gtk v ;;
      if c then xr <~ lift (rd rgt x) ;; bound_loop_t f ltk gtk xr greater
      else tret (x, true)
  end.
Definition find_bound_t (ltk gtk : T -> bool) : TM (option nat * bool) :=
  r <~ lift get_root ;; fuelled_t (fun f => bound_loop_t f ltk gtk r None).

(** :769-806 InsertNode: before the call of the comparator only node->parent is written.  This
    write is done after the call here: when the call throws, the node is abandoned anyway. *)
Definition insert_node_t (node parent : option nat) : TM unit :=
  (if is_null parent then tret tt
   else lift (rd_val node) ;;~ lift (rd_val parent) ;;~ may_throw) ;;~
  lift (insert_node lt node parent).

(** :753-766 UniversalInsert *)
Definition insert_t (v : T) : TM (option nat * bool) :=
  np <~ find_node_parent_t (fun x => lt v x) (fun x => lt x v) ;;
  match fst np with
  | Some a => tret (Some a, false)
  | None => a <~ create_node_t v ;; on_exn (insert_node_t (Some a) (snd np)) (abandon a) ;;~ tret (Some a, true)
  end.
(** :353-369 emplace: until release() the node is destroyed by unique_ptr *)
Definition emplace_t (v : T) : TM (option nat * bool) :=
  a <~ create_node_t v ;;
  w <~ lift (rd_val (Some a)) ;;
  np <~ on_exn (find_node_parent_t (fun x => lt w x) (fun x => lt x w)) (lift (destroy_node (Some a))) ;;
  match fst np with
  | Some b => lift (destroy_node (Some a)) ;;~ tret (Some b, false)
  | None => on_exn (insert_node_t (Some a) (snd np)) (abandon a) ;;~ tret (Some a, true)
  end.
(** :522-535, 430-467, 495-514 *)
Definition erase_key_t (ltk gtk : T -> bool) : TM nat :=
  i <~ find_node_t ltk gtk ;; if is_null i then tret 0 else lift (erase_it i) ;;~ tret 1.
Definition lower_bound_t (ltk gtk : T -> bool) : TM (option nat) :=
  xb <~ find_bound_t ltk gtk ;; tret (fst xb).
Definition upper_bound_t (ltk gtk : T -> bool) : TM (option nat) :=
  xb <~ find_bound_t ltk gtk ;; if snd xb then lift (it_next (fst xb)) else tret (fst xb).
Definition index_of_key_t (ltk gtk : T -> bool) : TM nat :=
  x <~ find_index_t ltk gtk ;;
  match x with Some (_, i) => tret i | None => lift (fun _ => Throw OutOfRange) end.
(** :1191-1197 *)
Fixpoint insert_all_t (vs : list T) : TM unit :=
  match vs with
  | [] => tret tt
  | v :: vs' => insert_t v ;;~ insert_all_t vs'
  end.
(** :299-318 *)
Fixpoint eq_loop_t (i : option nat) (vs : list T) : TM bool :=
  match vs with
  | [] => tret true
  | v :: vs' => w <~ lift (it_deref i) ;;
                c <~ cmp (lt v) w ;;
                if c then tret false else
                c <~ cmp (fun w => lt w v) w ;;
                if c then tret false else
                j <~ lift (it_next i) ;; eq_loop_t j vs'
  end.
Definition equal_t (n : nat) (vs : list T) : TM bool :=
  m <~ lift size ;;
  if m =? n then i <~ lift (it_next None) ;; eq_loop_t i vs else tret false.
(** The number of nodes *)
Definition live (s : st T) : nat := length (filter (alive s) (seq 0 (fresh s))).
End VSetThrow.
Arguments world : clear implicits. Arguments TOk {T A}. Arguments TExn {T A}. Arguments TUB {T A}.

(** ** Programs; an observation [None] is one of the user's exceptions, caught by the caller *)
Section Program.
Context {T K : Type} (lt : T -> T -> bool) (ltKT : K -> T -> bool) (ltTK : T -> K -> bool).
Definition tstate : Type := @venv T * nat * list bool.
Definition on_t (st : tstate) (i : nat) {A} (m : @TM T A) (obs : A -> vobs T) : res (tstate * option (vobs T)) :=
  let '(e, L, o) := st in
  match e i with
  | None => UB
  | Some s => match m (W s L o) with
              | TOk w x => Ok ((upd e i (Some (wset w)), leaks w, answers w), Some (obs x))
              | TExn w (Some ex) => Ok ((upd e i (Some (wset w)), leaks w, answers w), Some (BExn ex))
              | TExn w None => Ok ((upd e i (Some (wset w)), leaks w, answers w), None)
              | TUB => UB
              end
  end.
Definition tstep (st : tstate) (o : vop T K) : res (tstate * option (vobs T)) :=
  let '(e, L, ans) := st in
  match o with
  | VCopy i j =>        (* VectorSet.h:231-234: the destructor does not run for an object that is not constructed *)
      match e i, e j with
      | None, Some sj =>
          let* (_, vs) := to_list sj in
          match insert_all_t lt vs (W empty_st L ans) with
          | TOk w _ => Ok ((upd e i (Some (wset w)), leaks w, answers w), Some BUnit)
          | TExn w _ => Ok ((e, leaks w + live (wset w), answers w), None)
          | TUB => UB
          end
      | _, _ => UB
      end
  | VAssign i j =>      (* :278-285 *)
      match e i with
      | Some si =>
          let* (s1, _) := clear si in
          match upd e i (Some s1) j with
          | Some sj =>
              let* (_, vs) := to_list sj in
              on_t (upd e i (Some s1), L, ans) i (insert_all_t lt vs) (fun _ => BUnit)
          | None => UB
          end
      | None => UB
      end
  | VInsert i v => on_t st i (insert_t lt v) (fun r => BIterBool (fst r) (snd r))
  | VEmplace i v => on_t st i (emplace_t lt v) (fun r => BIterBool (fst r) (snd r))
  | VEraseKey i k => on_t st i (erase_key_t (ltKT k) (fun x => ltTK x k)) BNat
  | VContains i k => on_t st i (find_node_t (ltKT k) (fun x => ltTK x k)) (fun r => BBool (negb (is_null r)))
  | VFind i k => on_t st i (find_node_t (ltKT k) (fun x => ltTK x k)) BIter
  | VFind2 i k => on_t st i (find_index_t (ltKT k) (fun x => ltTK x k)) BIterIdx
  | VLower i k => on_t st i (lower_bound_t (ltKT k) (fun x => ltTK x k)) BIter
  | VUpper i k => on_t st i (upper_bound_t (ltKT k) (fun x => ltTK x k)) BIter
  | VIndexOfKey i k => on_t st i (index_of_key_t (ltKT k) (fun x => ltTK x k)) BNat
  | VEq i j => match e j with
               | Some sj => let* (_, n) := size sj in
                            let* (_, vs) := to_list sj in
                            on_t st i (equal_t lt n vs) BBool
               | None => UB
               end
  | _ =>                (* nothing of the user's is called *)
      let* (e1, v) := vstep lt ltKT ltTK e o in Ok ((e1, L, ans), Some v)
  end.
Fixpoint trun (st : tstate) (os : list (vop T K)) : res (tstate * list (option (vobs T))) :=
  match os with
  | [] => Ok (st, [])
  | o :: os' => let* (st1, v) := tstep st o in
                let* (st2, vs) := trun st1 os' in
                Ok (st2, v :: vs)
  end.
End Program.
