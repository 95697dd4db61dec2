(** Model of Awl/QuickList.h, Awl/QuickLink.h, Awl/SingleList.h and the list
    iterators (Awl/SingleLink.h, SingleIterator.h, DoubleIterator.h): the intrusive
    doubly linked list, at pointer level.

    One link type (DLink) is modelled: an object that is in several lists through
    several link types has one independent copy of this state per link type. *)
From Verif Require Import Common.

(** Links live either in a list object (its Null member) or in an element. *)
Inductive addr := Nl (l : nat) | El (n : nat).
Definition addr_eqb (a b : addr) : bool :=
  match a, b with Nl x, Nl y => Nat.eqb x y | El x, El y => Nat.eqb x y | _, _ => false end.

(** QuickLink.h:68 basic_quick_link: forward_link::pNext and backward_link::pPrev;
    [None] is nullptr.  A memory maps constructed links to their fields. *)
Definition ptr := option addr.
Record cell := { nx : ptr; pv : ptr }.
Definition mem := addr -> option cell.
Definition put (m : mem) (a : addr) (c : cell) : mem := fun x => if addr_eqb x a then Some c else m x.

Definition load (m : mem) (p : ptr) : res (addr * cell) :=
  match p with
  | None => UB
  | Some a => match m a with None => UB | Some c => Ok (a, c) end
  end.
(** SingleLink.h:33-40, QuickLink.h:45-52: next() and set_next() of the two links *)
Definition fnext (m : mem) (p : ptr) : res ptr := let* (_, c) := load m p in Ok (nx c).
Definition bnext (m : mem) (p : ptr) : res ptr := let* (_, c) := load m p in Ok (pv c).
Definition set_fnext (m : mem) (p q : ptr) : res mem := let* (a, c) := load m p in Ok (put m a {| nx := q; pv := pv c |}).
Definition set_bnext (m : mem) (p q : ptr) : res mem := let* (a, c) := load m p in Ok (put m a {| nx := nx c; pv := q |}).

(** SingleList.h:102-106 insert_after, 109-115 remove_after, in the forward and in
    the backward list *)
Definition f_insert_after (m : mem) (p a : ptr) : res mem :=
  let* n := fnext m p in let* m1 := set_fnext m a n in set_fnext m1 p a.
Definition b_insert_after (m : mem) (p a : ptr) : res mem :=
  let* n := bnext m p in let* m1 := set_bnext m a n in set_bnext m1 p a.
Definition f_remove_after (m : mem) (p : ptr) : res mem :=
  let* r := fnext m p in let* n := fnext m r in let* m1 := set_fnext m p n in set_fnext m1 r None.
Definition b_remove_after (m : mem) (p : ptr) : res mem :=
  let* r := bnext m p in let* n := bnext m r in let* m1 := set_bnext m p n in set_bnext m1 r None.

(** QuickLink.h:79-83 included; the assertion is that both links agree. *)
Definition included (m : mem) (a : addr) : res bool :=
  let* (_, c) := load m (Some a) in
  let isn (p : ptr) := match p with None => false | Some _ => true end in
  guard (eqb (isn (nx c)) (isn (pv c))) (Ok (isn (nx c))).
(** QuickLink.h:85-92 exclude, with its assertion *)
Definition exclude (m : mem) (a : addr) : res mem :=
  let* i := included m a in
  guard i
    (let* prev := bnext m (Some a) in
     let* next := fnext m (Some a) in
     let* m1 := f_remove_after m prev in
     b_remove_after m1 next).
(** QuickLink.h:94-100 *)
Definition safe_exclude (m : mem) (a : addr) : res mem :=
  let* i := included m a in if i then exclude m a else Ok m.
(** QuickLink.h:113-118 *)
Definition insert_after (m : mem) (p a : addr) : res mem :=
  let* next := fnext m (Some p) in
  let* m1 := f_insert_after m (Some p) (Some a) in
  b_insert_after m1 next (Some a).
(** QuickLink.h:121-126 *)
Definition insert_before (m : mem) (q a : addr) : res mem :=
  let* prev := bnext m (Some q) in
  let* m1 := f_insert_after m prev (Some a) in
  b_insert_after m1 (Some q) (Some a).
(** QuickLink.h:181-190 reinsert *)
Definition reinsert (m : mem) (this other : addr) : res mem :=
  let* i := included m other in
  if i then
    let* prev := bnext m (Some other) in
    let* m1 := exclude m other in
    match prev with None => UB | Some p => insert_after m1 p this end
  else Ok m.
(** QuickLink.h:166-169 move constructor, 171-176 move assignment *)
Definition link_move_ctor (m : mem) (this other : addr) : res mem :=
  reinsert (put m this {| nx := None; pv := None |}) this other.
Definition link_move_assign (m : mem) (this other : addr) : res mem :=
  let* m1 := safe_exclude m this in reinsert m1 this other.

(** QuickList.h:57-59 default constructor *)
Definition list_ctor (m : mem) (l : nat) : mem := put m (Nl l) {| nx := Some (Nl l); pv := Some (Nl l) |}.
(** SingleList.h:75 empty (QuickList.h:107), 76-77 *)
Definition p_is (p : ptr) (a : addr) : bool := match p with Some x => addr_eqb x a | None => false end.
Definition empty (m : mem) (l : nat) : res bool := let* p := fnext m (Some (Nl l)) in Ok (p_is p (Nl l)).
Definition empty_or_contains_one (m : mem) (l : nat) : res bool :=
  let* p := fnext m (Some (Nl l)) in let* q := fnext m p in Ok (p_is q (Nl l)).
Definition contains_one (m : mem) (l : nat) : res bool :=
  let* e := empty m l in if e then Ok false else empty_or_contains_one m l.
(** SingleList.h:42-46 front (QuickList.h:89-93 front and back), with the assertion;
    the cast of a link that is no element is undefined. *)
Definition as_elem (p : ptr) : res nat := match p with Some (El n) => Ok n | _ => UB end.
Definition front (m : mem) (l : nat) : res nat := let* p := fnext m (Some (Nl l)) in as_elem p.
Definition back (m : mem) (l : nat) : res nat := let* p := bnext m (Some (Nl l)) in as_elem p.
(** QuickList.h:121-125 *)
Definition push_front (m : mem) (l n : nat) : res mem := insert_after m (Nl l) (El n).
Definition push_back (m : mem) (l n : nat) : res mem := insert_before m (Nl l) (El n).
Definition pop_front (m : mem) (l : nat) : res (mem * nat) :=
  let* n := front m l in let* m1 := exclude m (El n) in Ok (m1, n).
Definition pop_back (m : mem) (l : nat) : res (mem * nat) :=
  let* n := back m l in let* m1 := exclude m (El n) in Ok (m1, n).
(** SingleList.h:79 clear (QuickList.h:162-166): the elements are not touched *)
Definition clear (m : mem) (l : nat) : res mem :=
  let* m1 := set_fnext m (Some (Nl l)) (Some (Nl l)) in set_bnext m1 (Some (Nl l)) (Some (Nl l)).
(** QuickList.h:127-143; SingleList.h:126-133 push_front, 135-140 push_back of a range *)
Definition splice_front (m : mem) (l src : nat) : res mem :=
  let* e := empty m src in
  if e then Ok m else
  let* first := fnext m (Some (Nl src)) in
  let* last := bnext m (Some (Nl src)) in
  let* old_last := fnext m (Some (Nl l)) in
  let* old_first := fnext m (Some (Nl l)) in
  let* m1 := set_fnext m (Some (Nl l)) first in
  let* m2 := set_fnext m1 last old_first in
  let* m3 := set_bnext m2 old_last last in
  let* m4 := set_bnext m3 first (Some (Nl l)) in
  clear m4 src.
(** QuickList.h:145-160 *)
Definition splice_back (m : mem) (l src : nat) : res mem :=
  let* e := empty m src in
  if e then Ok m else
  let* first := fnext m (Some (Nl src)) in
  let* last := bnext m (Some (Nl src)) in
  let* old_last := bnext m (Some (Nl l)) in
  let* m1 := set_fnext m old_last first in
  let* m2 := set_fnext m1 last (Some (Nl l)) in
  let* old_first := bnext m2 (Some (Nl l)) in
  let* m3 := set_bnext m2 (Some (Nl l)) last in
  let* m4 := set_bnext m3 first old_first in
  clear m4 src.
(** QuickList.h:186-207 attach; SingleList.h:117-122 *)
Definition attach (m : mem) (l src : nat) : res mem :=
  let* e := empty m src in
  if e then clear m l else
  let* first := front m src in
  let* last := back m src in
  let* m1 := set_fnext m (Some (Nl l)) (Some (El first)) in
  let* m2 := set_fnext m1 (Some (El last)) (Some (Nl l)) in
  let* m3 := set_bnext m2 (Some (Nl l)) (Some (El last)) in
  let* m4 := set_bnext m3 (Some (El first)) (Some (Nl l)) in
  clear m4 src.
(** QuickList.h:71-74 move constructor (Null starts with null links) and 78-87 move
    assignment with the assertion that the target is empty *)
Definition list_move_ctor (m : mem) (l src : nat) : res mem :=
  attach (put m (Nl l) {| nx := None; pv := None |}) l src.
Definition list_move_assign (m : mem) (l src : nat) : res mem :=
  if Nat.eqb l src then Ok m
  else let* e := empty m l in guard e (attach m l src).

(** Iteration by ++ from begin() to end() (forward), and from rbegin() to rend()
    (backward); [fuel] bounds the number of steps, running out of it stands for a
    loop that does not end. *)
Fixpoint walk (next : mem -> ptr -> res ptr) (fuel : nat) (m : mem) (p : ptr) (l : nat) : res (list nat) :=
  match fuel with
  | O => UB
  | S f => if p_is p (Nl l) then Ok []
           else let* n := as_elem p in
                let* q := next m p in
                let* r := walk next f m q l in
                Ok (n :: r)
  end.
Definition iterate (fuel : nat) (m : mem) (l : nat) : res (list nat) :=
  let* p := fnext m (Some (Nl l)) in walk fnext fuel m p l.
Definition riterate (fuel : nat) (m : mem) (l : nat) : res (list nat) :=
  let* p := bnext m (Some (Nl l)) in walk bnext fuel m p l.
(** SingleList.h:82-95 (QuickList.h:168) *)
Definition size (fuel : nat) (m : mem) (l : nat) : res nat :=
  let* s := iterate fuel m l in Ok (length s).

(** *** Programs over lists and elements, named by numbers *)
Inductive qop :=
| QNewElem (n : nat)                 (* an element with null links *)
| QNewList (l : nat)
| QMoveList (l src : nat)            (* quick_list l(std::move(src)) *)
| QMoveAssign (l src : nat)          (* l = std::move(src) *)
| QPushFront (l n : nat) | QPushBack (l n : nat)
| QInsertAfter (p n : nat)           (* insert(iterator to p, n) *)
| QInsertBefore (p n : nat)          (* insert(reverse_iterator to p, n) *)
| QExclude (n : nat)                 (* erase(...) or n->exclude() *)
| QSafeExclude (n : nat)
| QPopFront (l : nat) | QPopBack (l : nat)
| QSpliceFront (l src : nat) | QSpliceBack (l src : nat)
| QClear (l : nat)
| QMoveElem (n other : nat)          (* basic_movable_link: construct n from other *)
| QAssignElem (n other : nat)        (* n = std::move(other) *)
| QFront (l : nat) | QBack (l : nat)
| QEmpty (l : nat) | QOne (l : nat) | QEmptyOrOne (l : nat) | QSize (l : nat)
| QIter (l : nat) | QRIter (l : nat)
| QIncluded (n : nat).

Inductive qval := VUnit | VElem (n : nat) | VBool (b : bool) | VNat (n : nat) | VList (l : list nat).

(** State: the memory and the number of elements ever constructed (a bound on
    traversals). *)
Definition qstate := (mem * nat)%type.
Definition qinit : qstate := (fun _ => None, 0).

Definition qstep (st : qstate) (o : qop) : res (qstate * qval) :=
  let (m, k) := st in
  let fuel := S k in
  let upd_ (r : res mem) := let* m1 := r in Ok ((m1, k), VUnit) in
  match o with
  | QNewElem n => Ok ((put m (El n) {| nx := None; pv := None |}, S k), VUnit)
  | QNewList l => Ok ((list_ctor m l, k), VUnit)
  | QMoveList l src => upd_ (list_move_ctor m l src)
  | QMoveAssign l src => upd_ (list_move_assign m l src)
  | QPushFront l n => upd_ (push_front m l n)
  | QPushBack l n => upd_ (push_back m l n)
  | QInsertAfter p n => upd_ (insert_after m (El p) (El n))
  | QInsertBefore p n => upd_ (insert_before m (El p) (El n))
  | QExclude n => upd_ (exclude m (El n))
  | QSafeExclude n => upd_ (safe_exclude m (El n))
  | QPopFront l => let* (m1, n) := pop_front m l in Ok ((m1, k), VElem n)
  | QPopBack l => let* (m1, n) := pop_back m l in Ok ((m1, k), VElem n)
  | QSpliceFront l src => upd_ (splice_front m l src)
  | QSpliceBack l src => upd_ (splice_back m l src)
  | QClear l => upd_ (clear m l)
  | QMoveElem n other => let* m1 := link_move_ctor m (El n) (El other) in Ok ((m1, S k), VUnit)
  | QAssignElem n other => upd_ (link_move_assign m (El n) (El other))
  | QFront l => let* n := front m l in Ok (st, VElem n)
  | QBack l => let* n := back m l in Ok (st, VElem n)
  | QEmpty l => let* b := empty m l in Ok (st, VBool b)
  | QOne l => let* b := contains_one m l in Ok (st, VBool b)
  | QEmptyOrOne l => let* b := empty_or_contains_one m l in Ok (st, VBool b)
  | QSize l => let* n := size fuel m l in Ok (st, VNat n)
  | QIter l => let* s := iterate fuel m l in Ok (st, VList s)
  | QRIter l => let* s := riterate fuel m l in Ok (st, VList s)
  | QIncluded n => let* b := included m (El n) in Ok (st, VBool b)
  end.

Fixpoint qrun (st : qstate) (os : list qop) : res (list qval) :=
  match os with
  | [] => Ok []
  | o :: os' => let* (st1, v) := qstep st o in let* vs := qrun st1 os' in Ok (v :: vs)
  end.
