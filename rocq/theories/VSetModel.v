(** Model of awl::vector_set (Awl/VectorSet.h) at the level of nodes and pointers:
    an order-statistic red-black tree whose nodes are also threaded on a
    quick_list.

    Simplifications.
    - A node address is a number; each vector_set has its own node store (the
      code never stores a pointer to a node of another set), so two sets cannot
      interfere through memory; the pointers of one set can be arbitrarily wrong.
    - Reading or writing through nullptr or through a destroyed node is [UB].
    - The loops carry fuel: one more than the number of nodes ever allocated.
      Running out of fuel gives [UB]; the theorems show it never happens.
    - counts are unbounded naturals (a set cannot hold 2^64 nodes).
    - allocation does not fail, and the comparator and T's copy operations do not throw. *)
From Verif Require Import Common.

Inductive color := Red | Black.
(** A link of the list: the list's own Null link (QuickList.h:222) or a node. *)
Inductive link := Sentinel | At (a : nat).

Section VSet.
Context {T : Type}.

(** VectorSet.h:33-41 Link, 104-165 Node, 1207-1211 members.  [val a = None] means
    that there is no node at address [a].  [nxt]/[prv] are the forward and the
    backward link (QuickLink.h:14-55), [None] is nullptr. *)
Record st := mk {
  root : option nat;
  par : nat -> option nat;
  lft : nat -> option nat;
  rgt : nat -> option nat;
  col : nat -> color;
  cnt : nat -> nat;
  val : nat -> option T;
  nxt : link -> option link;
  prv : link -> option link;
  fresh : nat
}.

Definition updl (f : link -> option link) (k : link) (v : option link) : link -> option link :=
  fun x => match x, k with
           | Sentinel, Sentinel => v
           | At a, At b => if a =? b then v else f x
           | _, _ => f x
           end.

Definition set_root (r : option nat) (s : st) : st :=
  mk r (par s) (lft s) (rgt s) (col s) (cnt s) (val s) (nxt s) (prv s) (fresh s).
Definition set_par (a : nat) (v : option nat) (s : st) : st :=
  mk (root s) (upd (par s) a v) (lft s) (rgt s) (col s) (cnt s) (val s) (nxt s) (prv s) (fresh s).
Definition set_lft (a : nat) (v : option nat) (s : st) : st :=
  mk (root s) (par s) (upd (lft s) a v) (rgt s) (col s) (cnt s) (val s) (nxt s) (prv s) (fresh s).
Definition set_rgt (a : nat) (v : option nat) (s : st) : st :=
  mk (root s) (par s) (lft s) (upd (rgt s) a v) (col s) (cnt s) (val s) (nxt s) (prv s) (fresh s).
Definition set_col (a : nat) (v : color) (s : st) : st :=
  mk (root s) (par s) (lft s) (rgt s) (upd (col s) a v) (cnt s) (val s) (nxt s) (prv s) (fresh s).
Definition set_cnt (a : nat) (v : nat) (s : st) : st :=
  mk (root s) (par s) (lft s) (rgt s) (col s) (upd (cnt s) a v) (val s) (nxt s) (prv s) (fresh s).
Definition set_val (a : nat) (v : option T) (s : st) : st :=
  mk (root s) (par s) (lft s) (rgt s) (col s) (cnt s) (upd (val s) a v) (nxt s) (prv s) (fresh s).
Definition set_nxt (k : link) (v : option link) (s : st) : st :=
  mk (root s) (par s) (lft s) (rgt s) (col s) (cnt s) (val s) (updl (nxt s) k v) (prv s) (fresh s).
Definition set_prv (k : link) (v : option link) (s : st) : st :=
  mk (root s) (par s) (lft s) (rgt s) (col s) (cnt s) (val s) (nxt s) (updl (prv s) k v) (fresh s).

(** VectorSet.h:223 with QuickList.h:57-59: the empty set. *)
Definition empty_st : st :=
  mk None (fun _ => None) (fun _ => None) (fun _ => None) (fun _ => Red) (fun _ => 0) (fun _ => None)
     (fun k => match k with Sentinel => Some Sentinel | At _ => None end)
     (fun k => match k with Sentinel => Some Sentinel | At _ => None end) 0.

(** Computations on one set. *)
Definition M (A : Type) := st -> res (st * A).
Definition ret {A} (x : A) : M A := fun s => Ok (s, x).
Definition bind {A B} (m : M A) (f : A -> M B) : M B :=
  fun s => match m s with Ok (s1, x) => f x s1 | Throw e => Throw e | UB => UB end.
Definition fail {A} : M A := fun _ => UB.
Notation "x <- m ;; k" := (bind m (fun x => k)) (at level 61, m at next level, right associativity).
Notation "m ;;; k" := (bind m (fun _ => k)) (at level 61, right associativity).

Definition alive (s : st) (a : nat) : bool := match val s a with Some _ => true | None => false end.

(** p->field and p->field = v *)
Definition rd {A} (f : st -> nat -> A) (p : option nat) : M A :=
  fun s => match p with
           | Some a => if alive s a then Ok (s, f s a) else UB
           | None => UB
           end.
Definition wr {A} (g : nat -> A -> st -> st) (p : option nat) (v : A) : M unit :=
  fun s => match p with
           | Some a => if alive s a then Ok (g a v s, tt) else UB
           | None => UB
           end.
Definition get_root : M (option nat) := fun s => Ok (s, root s).
Definition put_root (r : option nat) : M unit := fun s => Ok (set_root r s, tt).
Definition fuelled {A} (f : nat -> M A) : M A := fun s => f (S (fresh s)) s.

(** The element of a node. *)
Definition rd_val (p : option nat) : M T :=
  fun s => match p with
           | Some a => match val s a with Some v => Ok (s, v) | None => UB end
           | None => UB
           end.

Definition ptr_eqb (a b : option nat) : bool :=
  match a, b with
  | Some x, Some y => x =? y
  | None, None => true
  | _, _ => false
  end.
Definition is_null (a : option nat) : bool := match a with None => true | _ => false end.
Definition is_red (c : color) : bool := match c with Red => true | Black => false end.

(** VectorSet.h:44-47 GetLeftCount *)
Definition left_count (p : option nat) : M nat :=
  l <- rd lft p ;;
  if is_null l then ret 0 else c <- rd cnt l ;; ret (c + 1).

(** VectorSet.h:55-76 UpdateCount *)
Fixpoint update_count_f (fuel : nat) (p : option nat) : M unit :=
  match fuel with
  | 0 => fail
  | S f =>
      old_count <- rd cnt p ;;
      wr set_cnt p 0 ;;;
      l <- rd lft p ;;
      (if is_null l then ret tt
       else c <- rd cnt l ;; wr set_cnt p (c + 1)) ;;;
      r <- rd rgt p ;;
      (if is_null r then ret tt
       else c <- rd cnt r ;; me <- rd cnt p ;; wr set_cnt p (me + (c + 1))) ;;;
      new_count <- rd cnt p ;;
      pp <- rd par p ;;
      if negb (new_count =? old_count) && negb (is_null pp) then update_count_f f pp else ret tt
  end.
Definition update_count (p : option nat) : M unit := fuelled (fun f => update_count_f f p).

(** VectorSet.h:78-86 SetParent, 88-92 SetLeft, 94-98 SetRight *)
Definition set_parent (x p : option nat) : M unit :=
  wr set_par x p ;;;
  if is_null p then ret tt else update_count p.
Definition set_left (x l : option nat) : M unit := wr set_lft x l ;;; update_count x.
Definition set_right (x r : option nat) : M unit := wr set_rgt x r ;;; update_count x.

(** VectorSet.h:129-162 CopyFrom; [this] is the node that takes over. *)
Definition copy_from (this other : option nat) : M unit :=
  oc <- rd cnt other ;; wr set_cnt this oc ;;;
  ol <- rd lft other ;;
  (if is_null ol then ret tt else wr set_par ol this) ;;;
  ol <- rd lft other ;; wr set_lft this ol ;;;
  orr <- rd rgt other ;;
  (if is_null orr then ret tt else wr set_par orr this) ;;;
  orr <- rd rgt other ;; wr set_rgt this orr ;;;
  op <- rd par other ;;
  (if is_null op then ret tt
   else opl <- rd lft op ;;
        if ptr_eqb opl other then set_left op this else set_right op this) ;;;
  c <- rd col other ;; wr set_col this c ;;;
  op <- rd par other ;; set_parent this op.

(** VectorSet.h:875-908 RotateLeft *)
Definition rotate_left (x : option nat) : M unit :=
  y <- rd rgt x ;;
  yl <- rd lft y ;;
  wr set_rgt x yl ;;;
  yl <- rd lft y ;;
  (if is_null yl then ret tt else wr set_par yl x) ;;;
  xp <- rd par x ;;
  wr set_par y xp ;;;
  xp <- rd par x ;;
  (if is_null xp then put_root y
   else xpl <- rd lft xp ;;
        if ptr_eqb x xpl then wr set_lft xp y else wr set_rgt xp y) ;;;
  wr set_lft y x ;;;
  wr set_par x y ;;;
  update_count x.

(** VectorSet.h:923-956 RotateRight *)
Definition rotate_right (y : option nat) : M unit :=
  x <- rd lft y ;;
  xr <- rd rgt x ;;
  wr set_lft y xr ;;;
  xr <- rd rgt x ;;
  (if is_null xr then ret tt else wr set_par xr y) ;;;
  yp <- rd par y ;;
  wr set_par x yp ;;;
  yp <- rd par y ;;
  (if is_null yp then put_root x
   else ypl <- rd lft yp ;;
        if ptr_eqb y ypl then wr set_lft yp x else wr set_rgt yp x) ;;;
  wr set_rgt x y ;;;
  wr set_par y x ;;;
  update_count y.

(** p != nullptr && p->color == Red *)
Definition red_ptr (p : option nat) : M bool :=
  if is_null p then ret false else c <- rd col p ;; ret (is_red c).

(** VectorSet.h:968-1031, the loop of BalanceAfterInsert. *)
Fixpoint balance_insert_loop (fuel : nat) (x : option nat) : M unit :=
  match fuel with
  | 0 => fail
  | S f =>
      r <- get_root ;;
      if ptr_eqb x r then ret tt else
      xp <- rd par x ;;
      xpc <- rd col xp ;;
      if negb (is_red xpc) then ret tt else
      xpp <- rd par xp ;;
      xppl <- rd lft xpp ;;
      if ptr_eqb xp xppl then
        y <- rd rgt xpp ;;
        yred <- red_ptr y ;;
        if yred : bool then
          wr set_col xp Black ;;;
          wr set_col y Black ;;;
          wr set_col xpp Red ;;;
          balance_insert_loop f xpp
        else
          xpr <- rd rgt xp ;;
          x <- (if ptr_eqb x xpr then rotate_left xp ;;; ret xp else ret x) ;;
          xp <- rd par x ;;
          wr set_col xp Black ;;;
          xpp <- rd par xp ;;
          wr set_col xpp Red ;;;
          rotate_right xpp ;;;
          balance_insert_loop f x
      else
        y <- rd lft xpp ;;
        yred <- red_ptr y ;;
        if yred : bool then
          wr set_col xp Black ;;;
          wr set_col y Black ;;;
          wr set_col xpp Red ;;;
          balance_insert_loop f xpp
        else
          xpl <- rd lft xp ;;
          x <- (if ptr_eqb x xpl then rotate_right xp ;;; ret xp else ret x) ;;
          xp <- rd par x ;;
          wr set_col xp Black ;;;
          xpp <- rd par xp ;;
          wr set_col xpp Red ;;;
          rotate_left xpp ;;;
          balance_insert_loop f x
  end.

(** VectorSet.h:959-1033 *)
Definition balance_after_insert (z : option nat) : M unit :=
  fuelled (fun f => balance_insert_loop f z) ;;;
  r <- get_root ;; wr set_col r Black.

(** The inner loops of GetSuccessor/GetPredecessor: descend, and climb. *)
Fixpoint go_left (fuel : nat) (y : option nat) : M (option nat) :=
  match fuel with
  | 0 => fail
  | S f => yl <- rd lft y ;; if is_null yl then ret y else go_left f yl
  end.
Fixpoint go_right (fuel : nat) (y : option nat) : M (option nat) :=
  match fuel with
  | 0 => fail
  | S f => yr <- rd rgt y ;; if is_null yr then ret y else go_right f yr
  end.
Fixpoint climb_while_right (fuel : nat) (x y : option nat) : M (option nat) :=
  match fuel with
  | 0 => fail
  | S f => if is_null y then ret y
           else yr <- rd rgt y ;;
                if ptr_eqb x yr then yp <- rd par y ;; climb_while_right f y yp else ret y
  end.
Fixpoint climb_while_left (fuel : nat) (x y : option nat) : M (option nat) :=
  match fuel with
  | 0 => fail
  | S f => if is_null y then ret y
           else yl <- rd lft y ;;
                if ptr_eqb x yl then yp <- rd par y ;; climb_while_left f y yp else ret y
  end.

(** VectorSet.h:809-833 GetSuccessor, 836-860 GetPredecessor *)
Definition get_successor (x : option nat) : M (option nat) :=
  xr <- rd rgt x ;;
  if is_null xr then xp <- rd par x ;; fuelled (fun f => climb_while_right f x xp)
  else fuelled (fun f => go_left f xr).
Definition get_predecessor (x : option nat) : M (option nat) :=
  xl <- rd lft x ;;
  if is_null xl then xp <- rd par x ;; fuelled (fun f => climb_while_left f x xp)
  else fuelled (fun f => go_right f xl).

(** The list.  A link that belongs to a destroyed node may not be touched. *)
Definition link_ok (s : st) (k : link) : bool :=
  match k with Sentinel => true | At a => alive s a end.
Definition rd_link (f : st -> link -> option link) (k : option link) : M (option link) :=
  fun s => match k with
           | Some k => if link_ok s k then Ok (s, f s k) else UB
           | None => UB
           end.
Definition wr_link (g : link -> option link -> st -> st) (k : option link) (v : option link) : M unit :=
  fun s => match k with
           | Some k => if link_ok s k then Ok (g k v s, tt) else UB
           | None => UB
           end.

(** SingleList.h:102-106 insert_after and 109-115 remove_after, on the forward
    and on the backward list. *)
Definition insert_after_1 (f : st -> link -> option link) (g : link -> option link -> st -> st)
    (p a : option link) : M unit :=
  n <- rd_link f p ;; wr_link g a n ;;; wr_link g p a.
Definition remove_after_1 (f : st -> link -> option link) (g : link -> option link -> st -> st)
    (p : option link) : M unit :=
  r <- rd_link f p ;; rn <- rd_link f r ;; wr_link g p rn ;;; wr_link g r None.

(** QuickLink.h:113-118 insert_after, 85-92 exclude, 94-100 safe_exclude *)
Definition link_insert_after (this a : link) : M unit :=
  next <- rd_link nxt (Some this) ;;
  insert_after_1 nxt set_nxt (Some this) (Some a) ;;;
  insert_after_1 prv set_prv next (Some a).
Definition link_exclude (this : link) : M unit :=
  prev <- rd_link prv (Some this) ;;
  next <- rd_link nxt (Some this) ;;
  remove_after_1 nxt set_nxt prev ;;;
  remove_after_1 prv set_prv next.
Definition link_safe_exclude (this : link) : M unit :=
  n <- rd_link nxt (Some this) ;;
  match n with Some _ => link_exclude this | None => ret tt end.

(** VectorSet.h:167-181 CreateNode: a node with null relations, red, count 0 and
    not included in the list. *)
Definition create_node (v : T) : M nat :=
  fun s =>
    let a := fresh s in
    Ok (mk (root s) (upd (par s) a None) (upd (lft s) a None) (upd (rgt s) a None)
           (upd (col s) a Red) (upd (cnt s) a 0) (upd (val s) a (Some v))
           (updl (nxt s) (At a) None) (updl (prv s) (At a) None) (S a), a).

(** VectorSet.h:118-124 ~Node, 191-195 DestroyNode *)
Definition destroy_node (z : option nat) : M unit :=
  match z with
  | Some a => link_safe_exclude (At a) ;;;
              fun s => if alive s a then Ok (set_val a None s, tt) else UB
  | None => fail
  end.

Context (lt : T -> T -> bool).

(** VectorSet.h:769-806 InsertNode.  The assert of 785 is modelled as a check. *)
Definition insert_node (node parent : option nat) : M unit :=
  wr set_par node parent ;;;
  (if is_null parent then put_root node
   else nv <- rd_val node ;; pv <- rd_val parent ;;
        if lt nv pv then set_left parent node
        else if lt pv nv then set_right parent node else fail) ;;;
  wr set_col node Red ;;;
  balance_after_insert node ;;;
  (r <- get_root ;; wr set_col r Black) ;;;
  pred <- get_predecessor node ;;
  match node with
  | Some n => match pred with
              | Some p => link_insert_after (At p) (At n)
              | None => link_insert_after Sentinel (At n)
              end
  | None => fail
  end.

(** VectorSet.h:1093-1187, the loop of BalanceAfterRemove; it returns the final x.
    black_or_null p is (p == nullptr || p->color == Black). *)
Definition black_or_null (p : option nat) : M bool :=
  if is_null p then ret true else c <- rd col p ;; ret (negb (is_red c)).

Fixpoint balance_remove_loop (fuel : nat) (x : option nat) : M (option nat) :=
  match fuel with
  | 0 => fail
  | S f =>
      r <- get_root ;;
      if ptr_eqb x r then ret x else
      xc <- rd col x ;;
      if is_red xc then ret x else
      xp <- rd par x ;;
      xpl <- rd lft xp ;;
      if ptr_eqb x xpl then
        w <- rd rgt xp ;;
        if is_null w then balance_remove_loop f xp else
        wc <- rd col w ;;
        w <- (if is_red wc then
                wr set_col w Black ;;;
                wr set_col xp Red ;;;
                rotate_left xp ;;;
                xp <- rd par x ;; rd rgt xp
              else ret w) ;;
        if is_null w then xp <- rd par x ;; balance_remove_loop f xp else
        wl <- rd lft w ;;
        wr_ <- rd rgt w ;;
        bl <- black_or_null wl ;;
        br <- black_or_null wr_ ;;
        if bl && br then
          wr set_col w Red ;;;
          xp <- rd par x ;;
          balance_remove_loop f xp
        else
          w <- (if br : bool then
                  (if is_null wl then ret tt else wr set_col wl Black) ;;;
                  wr set_col w Red ;;;
                  rotate_right w ;;;
                  xp <- rd par x ;; rd rgt xp
                else ret w) ;;
          xp <- rd par x ;;
          pc <- rd col xp ;;
          wr set_col w pc ;;;
          wr set_col xp Black ;;;
          wr_ <- rd rgt w ;;
          (if is_null wr_ then ret tt else wr set_col wr_ Black) ;;;
          rotate_left xp ;;;
          r <- get_root ;;
          balance_remove_loop f r
      else
        w <- rd lft xp ;;
        if is_null w then balance_remove_loop f xp else
        wc <- rd col w ;;
        w <- (if is_red wc then
                wr set_col w Black ;;;
                wr set_col xp Red ;;;
                rotate_right xp ;;;
                xp <- rd par x ;; rd lft xp
              else ret w) ;;
        if is_null w then xp <- rd par x ;; balance_remove_loop f xp else
        wr_ <- rd rgt w ;;
        wl <- rd lft w ;;
        br <- black_or_null wr_ ;;
        bl <- black_or_null wl ;;
        if br && bl then
          wr set_col w Red ;;;
          xp <- rd par x ;;
          balance_remove_loop f xp
        else
          w <- (if bl : bool then
                  (if is_null wr_ then ret tt else wr set_col wr_ Black) ;;;
                  wr set_col w Red ;;;
                  rotate_left w ;;;
                  xp <- rd par x ;; rd lft xp
                else ret w) ;;
          xp <- rd par x ;;
          pc <- rd col xp ;;
          wr set_col w pc ;;;
          wr set_col xp Black ;;;
          wl <- rd lft w ;;
          (if is_null wl then ret tt else wr set_col wl Black) ;;;
          rotate_right xp ;;;
          r <- get_root ;;
          balance_remove_loop f r
  end.

(** VectorSet.h:1085-1189; the loop gets one more unit of fuel than the others,
    because one iteration may leave x at the same depth. *)
Definition balance_after_remove (x : option nat) : M unit :=
  x <- fuelled (fun f => balance_remove_loop (S f) x) ;;
  wr set_col x Black.

(** VectorSet.h:1036-1082 RemoveNode *)
Definition remove_node (z : option nat) : M unit :=
  zl <- rd lft z ;;
  zr <- rd rgt z ;;
  y <- (if is_null zl || is_null zr then ret z else get_successor z) ;;
  yl <- rd lft y ;;
  x <- (if is_null yl then rd rgt y else ret yl) ;;
  (if is_null x then ret tt else yp <- rd par y ;; set_parent x yp) ;;;
  yp <- rd par y ;;
  (if is_null yp then put_root x
   else ypl <- rd lft yp ;;
        if ptr_eqb y ypl then set_left yp x else set_right yp x) ;;;
  (if ptr_eqb y z then ret tt
   else copy_from y z ;;;
        r <- get_root ;;
        if ptr_eqb z r then put_root y else ret tt) ;;;
  yc <- rd col y ;;
  (if negb (is_red yc) && negb (is_null x) then balance_after_remove x else ret tt) ;;;
  destroy_node z.

(** VectorSet.h:615-638 FindNodeByKey with its two accumulators; [ltk]/[gtk] are
    m_comp(key, value) and m_comp(value, key). *)
Fixpoint find_loop (fuel : nat) (ltk gtk : T -> bool) {B} (accl accr : option nat -> B -> M B)
    (x : option nat) (b : B) : M (option nat * B) :=
  match fuel with
  | 0 => fail
  | S f =>
      if is_null x then ret (None, b) else
      v <- rd_val x ;;
      if ltk v then b <- accl x b ;; xl <- rd lft x ;; find_loop f ltk gtk accl accr xl b
      else if gtk v then b <- accr x b ;; xr <- rd rgt x ;; find_loop f ltk gtk accl accr xr b
      else ret (x, b)
  end.
Definition find_node_acc (ltk gtk : T -> bool) {B} (accl accr : option nat -> B -> M B) (b : B)
  : M (option nat * B) :=
  r <- get_root ;; fuelled (fun f => find_loop f ltk gtk accl accr r b).

(** VectorSet.h:587-593 *)
Definition find_node (ltk gtk : T -> bool) : M (option nat) :=
  xb <- find_node_acc ltk gtk (fun _ b => ret b) (fun _ b => ret b) tt ;; ret (fst xb).

(** VectorSet.h:596-613: the node and the last node visited. *)
Definition find_node_parent (ltk gtk : T -> bool) : M (option nat * option nat) :=
  find_node_acc ltk gtk (fun x _ => ret x) (fun x _ => ret x) None.

(** VectorSet.h:641-666 FindIndexByKey; [None] is the pair (nullptr, -1). *)
Definition find_index (ltk gtk : T -> bool) : M (option (nat * nat)) :=
  xb <- find_node_acc ltk gtk (fun _ b => ret b)
          (fun x rank => lc <- left_count x ;; ret (rank + (lc + 1))) 0 ;;
  match fst xb with
  | Some a => lc <- left_count (Some a) ;; ret (Some (a, lc + snd xb))
  | None => ret None
  end.

(** VectorSet.h:670-696 FindBoundByKey *)
Fixpoint bound_loop (fuel : nat) (ltk gtk : T -> bool) (x greater : option nat) : M (option nat * bool) :=
  match fuel with
  | 0 => fail
  | S f =>
      if is_null x then ret (greater, false) else
      v <- rd_val x ;;
      if ltk v then xl <- rd lft x ;; bound_loop f ltk gtk xl x
      else if gtk v then xr <- rd rgt x ;; bound_loop f ltk gtk xr greater
      else ret (x, true)
  end.
Definition find_bound (ltk gtk : T -> bool) : M (option nat * bool) :=
  r <- get_root ;; fuelled (fun f => bound_loop f ltk gtk r None).

(** VectorSet.h:698-724 FindNodeByIndex *)
Fixpoint index_loop (fuel : nat) (x : option nat) (i : nat) : M (option nat) :=
  match fuel with
  | 0 => fail
  | S f =>
      if is_null x then ret None else
      rank <- left_count x ;;
      if i <? rank then xl <- rd lft x ;; index_loop f xl i
      else if rank <? i then xr <- rd rgt x ;; index_loop f xr (i - (rank + 1))
      else ret x
  end.
Definition find_by_index_node (i : nat) : M (option nat) :=
  r <- get_root ;; fuelled (fun f => index_loop f r i).

(** VectorSet.h:726-750 IndexOfNode *)
Fixpoint index_of_loop (fuel : nat) (x : option nat) (index : nat) : M nat :=
  match fuel with
  | 0 => fail
  | S f =>
      parent <- rd par x ;;
      if is_null parent then ret index else
      pr <- rd rgt parent ;;
      index <- (if ptr_eqb x pr then lc <- left_count parent ;; ret (index + (lc + 1)) else ret index) ;;
      index_of_loop f parent index
  end.
Definition index_of_node (x : option nat) : M nat :=
  i <- left_count x ;; fuelled (fun f => index_of_loop f x i).

(** Iterators: [None] is end().  VectorSet.h:564-584 NodeToIterator. *)

(** VectorSet.h:376-379 size, 371-374 empty *)
Definition size : M nat :=
  r <- get_root ;; if is_null r then ret 0 else c <- rd cnt r ;; ret (c + 1).
Definition empty : M bool := r <- get_root ;; ret (is_null r).

(** VectorSet.h:343-351 insert through 753-766 UniversalInsert. *)
Definition insert (v : T) : M (option nat * bool) :=
  np <- find_node_parent (fun x => lt v x) (fun x => lt x v) ;;
  match fst np with
  | Some a => ret (Some a, false)
  | None => a <- create_node v ;; insert_node (Some a) (snd np) ;;; ret (Some a, true)
  end.

(** VectorSet.h:353-369 emplace: the node is created first and destroyed again
    (through unique_ptr) if the key exists. *)
Definition emplace (v : T) : M (option nat * bool) :=
  a <- create_node v ;;
  w <- rd_val (Some a) ;;
  np <- find_node_parent (fun x => lt w x) (fun x => lt x w) ;;
  match fst np with
  | Some b => destroy_node (Some a) ;;; ret (Some b, false)
  | None => insert_node (Some a) (snd np) ;;; ret (Some a, true)
  end.

(** VectorSet.h:516-519 erase(iterator), 522-535 erase(key) *)
Definition erase_it (i : option nat) : M unit := remove_node i.
Definition erase_key (ltk gtk : T -> bool) : M nat :=
  i <- find_node ltk gtk ;;
  if is_null i then ret 0 else erase_it i ;;; ret 1.

(** VectorSet.h:537-546 clear *)
Fixpoint clear_loop (fuel : nat) : M unit :=
  match fuel with
  | 0 => fail
  | S f => n <- rd_link nxt (Some Sentinel) ;;
           match n with
           | Some Sentinel => ret tt
           | Some (At a) => destroy_node (Some a) ;;; clear_loop f
           | None => fail
           end
  end.
Definition clear : M unit := fuelled clear_loop ;;; put_root None.

(** An iterator as a link, and back. *)
Definition it_of_link (k : option link) : M (option nat) :=
  match k with
  | Some (At a) => ret (Some a)
  | Some Sentinel => ret None
  | None => fail
  end.
Definition link_of (i : option nat) : link := match i with Some a => At a | None => Sentinel end.

(** DoubleIterator.h:124-145 ++ and --; *i is the element of the node. *)
Definition it_next (i : option nat) : M (option nat) :=
  k <- rd_link nxt (Some (link_of i)) ;; it_of_link k.
Definition it_prev (i : option nat) : M (option nat) :=
  k <- rd_link prv (Some (link_of i)) ;; it_of_link k.
Definition it_deref (i : option nat) : M T := rd_val i.

(** VectorSet.h:430-467 lower_bound and upper_bound *)
Definition lower_bound (ltk gtk : T -> bool) : M (option nat) :=
  xb <- find_bound ltk gtk ;; ret (fst xb).
Definition upper_bound (ltk gtk : T -> bool) : M (option nat) :=
  xb <- find_bound ltk gtk ;;
  if snd xb then it_next (fst xb) else ret (fst xb).

(** VectorSet.h:469-491 operator[] and at (CheckPosition 1199-1205) *)
Definition index (i : nat) : M T := x <- find_by_index_node i ;; rd_val x.
Definition at_ (i : nat) : M T :=
  n <- size ;; if i <? n then index i else fun _ => Throw OutOfRange.

(** VectorSet.h:495-514 index_of *)
Definition index_of_it (i : option nat) : M nat := index_of_node i.
Definition index_of_key (ltk gtk : T -> bool) : M nat :=
  x <- find_index ltk gtk ;;
  match x with Some (_, i) => ret i | None => fun _ => Throw OutOfRange end.

(** VectorSet.h:325-329 front and back *)
Definition front : M T := k <- rd_link nxt (Some Sentinel) ;; i <- it_of_link k ;; rd_val i.
Definition back : M T := k <- rd_link prv (Some Sentinel) ;; i <- it_of_link k ;; rd_val i.

(** A whole traversal from begin() (VectorSet.h:331) or rbegin() (337). *)
Fixpoint walk (fuel : nat) (step : option nat -> M (option nat)) (i : option nat) : M (list T) :=
  match fuel with
  | 0 => fail
  | S f => if is_null i then ret []
           else v <- it_deref i ;; j <- step i ;; vs <- walk f step j ;; ret (v :: vs)
  end.
Definition to_list : M (list T) := i <- it_next None ;; fuelled (fun f => walk f it_next i).
Definition to_rlist : M (list T) := i <- it_prev None ;; fuelled (fun f => walk f it_prev i).

(** VectorSet.h:1191-1197 CopyElements: the source's elements are inserted one by
    one; 231-234 copy constructor and 278-285 assignment. *)
Fixpoint insert_all (vs : list T) : M unit :=
  match vs with
  | [] => ret tt
  | v :: vs' => insert v ;;; insert_all vs'
  end.

(** VectorSet.h:299-318 operator==, the loop over the other set's elements. *)
Fixpoint eq_loop (i : option nat) (vs : list T) : M bool :=
  match vs with
  | [] => ret true
  | v :: vs' => w <- it_deref i ;;
                if lt v w || lt w v then ret false else j <- it_next i ;; eq_loop j vs'
  end.
Definition equal (n : nat) (vs : list T) : M bool :=
  m <- size ;;
  if m =? n then i <- it_next None ;; eq_loop i vs else ret false.
End VSet.
Arguments st : clear implicits.
