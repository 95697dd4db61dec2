(** Model of the iterators of quick_list (Awl/DoubleIterator.h, Awl/QuickList.h:93-121) over the memory of QListModel.v: programs that
    keep iterators while they change the lists.  Conversion to const iterators does nothing and is left out. *)
From Verif Require Import Common QListModel.

Record iter := Iter { irev : bool; im_p : ptr }.        (* iterator or reverse_iterator; m_p, DoubleIterator.h:131 *)
Record istate := IState { ist : qstate; its : nat -> option iter }.

Inductive iop :=
| ILst (o : qop)
| IBegin (i l : nat) (r : bool)      (* i = begin() or rbegin() *)
| IEnd (i l : nat) (r : bool)        (* i = end() or rend() *)
| INull (i : nat) (r : bool)         (* default constructor, 36 *)
| ICopy (i j : nat)                  (* i = j *)
| IInc (i : nat) | IDec (i : nat)
| IDeref (i : nat)
| IEq (i j : nat)
| IInsert (i n : nat)                (* insert(i, n) *)
| IErase (i : nat).                  (* erase(i) *)

(** DoubleIterator.h:109-126: a reverse iterator has the two links exchanged *)
Definition move_next (m : mem) (x : iter) : res iter :=
  let* p := (if irev x then bnext m (im_p x) else fnext m (im_p x)) in Ok (Iter (irev x) p).
Definition move_prev (m : mem) (x : iter) : res iter :=
  let* p := (if irev x then fnext m (im_p x) else bnext m (im_p x)) in Ok (Iter (irev x) p).
(** DoubleIterator.h:79-82 *)
Definition ptr_eqb (p q : ptr) : bool := match p, q with Some a, Some b => addr_eqb a b | None, None => true | _, _ => false end.

Definition istep (s : istate) (o : iop) : res (istate * qval) :=
  let m := fst (ist s) in
  let set i x := Ok (IState (ist s) (upd (its s) i (Some x)), VUnit) in
  let on i (f : iter -> res (istate * qval)) := match its s i with Some x => f x | None => UB end in
  let lst o := let* (t, v) := qstep (ist s) o in Ok (IState t (its s), v) in
  match o with
  | ILst o => lst o
  | IBegin i l r => let* p := (if r then bnext m (Some (Nl l)) else fnext m (Some (Nl l))) in set i (Iter r p)
  | IEnd i l r => set i (Iter r (Some (Nl l)))
  | INull i r => set i (Iter r None)
  | ICopy i j => on j (set i)
  | IInc i => on i (fun x => let* y := move_next m x in set i y)
  | IDec i => on i (fun x => let* y := move_prev m x in set i y)
  | IDeref i => on i (fun x => let* n := as_elem (im_p x) in Ok (s, VElem n))
  | IEq i j => on i (fun x => on j (fun y => guard (Bool.eqb (irev x) (irev y)) (Ok (s, VBool (ptr_eqb (im_p x) (im_p y))))))
  | IInsert i n => on i (fun x => let* p := as_elem (im_p x) in lst (if irev x then QInsertBefore p n else QInsertAfter p n))   (* QuickList.h:111, 116 *)
  | IErase i => on i (fun x => let* p := as_elem (im_p x) in lst (QExclude p))   (* QuickList.h:112, 117 *)
  end.
Fixpoint iruns (s : istate) (os : list iop) : res (istate * list qval) :=
  match os with
  | [] => Ok (s, [])
  | o :: r => let* (s1, v) := istep s o in let* (s2, vs) := iruns s1 r in Ok (s2, v :: vs)
  end.
Definition iinit : istate := IState qinit (fun _ => None).

(** The loop [for (i = begin(); i != end(); ) { cur = i++; ... }] (as in Tests/ListTest.cpp:302) that leaves the element, erases
    it, or erases it and appends it to the list [dst].  What it returns is what it has seen. *)
Inductive fate := Keep | Drop | Transfer.
Fixpoint sort_loop (fuel : nat) (m : mem) (p : ptr) (l dst : nat) (f : nat -> fate) : res (mem * list nat) :=
  match fuel with
  | O => UB
  | S k =>
    if p_is p (Nl l) then Ok (m, [])
    else let* q := fnext m p in
         let* n := as_elem p in
         let* m1 := (match f n with
                     | Keep => Ok m
                     | Drop => exclude m (El n)
                     | Transfer => let* m' := exclude m (El n) in push_back m' dst n
                     end) in
         let* (m2, seen) := sort_loop k m1 q l dst f in
         Ok (m2, n :: seen)
  end.
Definition sort_list (st : qstate) (l dst : nat) (f : nat -> fate) : res (mem * list nat) :=
  let* p := fnext (fst st) (Some (Nl l)) in sort_loop (S (snd st)) (fst st) p l dst f.
