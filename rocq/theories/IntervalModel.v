(** Model of interval_map, Tests/Experimental/IntervalMap.h.  Keys are integers of the type
    Key, from lo to hi, and Compare is std::less.  The std::map from right keys to
    (left key, value) is a list sorted by the right key; an iterator is the right key of the
    element, None for end(), as std::map iterators stay with their element. *)
From Verif Require Import Common.
Local Open Scope Z_scope.

Section Interval.
Context {V : Type} (veq : V -> V -> bool).
(** The largest key, and what key + 1 does with it: undefined behaviour for signed types
    not smaller than int, an exception of next_key otherwise *)
Context (hi : Z) (overflow : res Z).
Notation entry := (Z * (Z * V))%type.
Notation imap := (list entry).

(** ** std::map *)
Fixpoint lower_bound (m : imap) (k : Z) : option Z :=
  match m with [] => None | (r, _) :: m' => if r <? k then lower_bound m' k else Some r end.
Fixpoint lookup (m : imap) (r : Z) : option (Z * V) :=
  match m with [] => None | (r', x) :: m' => if r' =? r then Some x else lookup m' r end.
Definition next_of (m : imap) (r : Z) : option Z := lower_bound m (r + 1).
Fixpoint prev_of (m : imap) (r : Z) : option Z :=
  match m with [] => None | (r', _) :: m' => if r' <? r then match prev_of m' r with Some p => Some p | None => Some r' end else None end.
(** the second component tells whether the element was inserted *)
Fixpoint emplace (m : imap) (r : Z) (x : Z * V) : imap * bool :=
  match m with
  | [] => ([(r, x)], true)
  | (r', y) :: m' => if r <? r' then ((r, x) :: m, true) else if r' =? r then (m, false) else let (m2, b) := emplace m' r x in ((r', y) :: m2, b)
  end.
Definition erase (m : imap) (r : Z) : imap := filter (fun e => negb (fst e =? r)) m.
(** from the element [f] to before [l] *)
Definition erase_range (m : imap) (f : Z) (l : option Z) : imap :=
  filter (fun e => negb ((f <=? fst e) && match l with Some k => fst e <? k | None => true end)) m.
Definition set_left (m : imap) (r l : Z) : imap := map (fun e : entry => if fst e =? r then (r, (l, snd (snd e))) else e) m.

(** :439-451; previous_key (:453-465) is only used above a key of the map *)
Definition next_key (k : Z) : res Z := if k =? hi then overflow else Ok (k + 1).
Definition insert_new (m : imap) (r : Z) (x : Z * V) : res imap := let (m', ok) := emplace m r x in if ok then Ok m' else Throw RuntimeError.

(** assign, :242-295: the map and remove_begin *)
Definition cut_a (m : imap) (a b : Z) : res (imap * option Z) :=
  match lower_bound m a with
  | None => Ok (m, None)
  | Some ar =>
    match lookup m ar with
    | None => UB
    | Some (l, w) =>
      if l <? a then
        let m1 := erase m ar in
        let* m2 := insert_new m1 (a - 1) (l, w) in
        if b <? ar then let* nb := next_key b in let* m3 := insert_new m2 ar (nb, w) in Ok (m3, None)
        else Ok (m2, next_of m2 (a - 1))
      else Ok (m, Some ar)
    end
  end.
(** :297-334 *)
Definition cut_b (m : imap) (rb : option Z) (b : Z) : res imap :=
  match rb with
  | None => Ok m
  | Some f =>
    match lower_bound m b with
    | None => Ok (erase_range m f None)
    | Some br =>
      match lookup m br with
      | None => UB
      | Some (l, _) =>
        if l <=? b then
          let* nl := next_key b in
          if nl <=? br then Ok (erase_range (set_left m br nl) f (Some br)) else Ok (erase_range m f (next_of m br))
        else Ok (erase_range m f (Some br))
      end
    end
  end.
(** :343-369 *)
Definition merge_prev (m : imap) (b : Z) (a : Z) (v : V) : imap * Z :=
  match prev_of m b with
  | Some p => match lookup m p with Some (l, w) => if veq v w then (erase (set_left m b l) p, l) else (m, a) | None => (m, a) end
  | None => (m, a)
  end.
Definition merge_next (m : imap) (b : Z) (a : Z) (v : V) : imap :=
  match next_of m b with
  | Some n => match lookup m n with Some (_, w) => if veq v w then erase (set_left m n a) b else m | None => m end
  | None => m
  end.
(** assign, :234-371 *)
Definition assign (m : imap) (a b : Z) (v : V) : res imap :=
  if a <=? b then
    let* (m1, rb) := cut_a m a b in
    let* m2 := cut_b m1 rb b in
    let* m3 := insert_new m2 b (a, v) in
    let (m4, l) := merge_prev m3 b a v in
    Ok (merge_next m4 b l v)
  else Ok m.
(** at, :206-219, and contains, :221-226 *)
Definition at_ (m : imap) (k : Z) : res V :=
  match lower_bound m k with
  | Some r => match lookup m r with Some (l, v) => if l <=? k then Ok v else Throw OutOfRange | None => UB end
  | None => Throw OutOfRange
  end.
Definition contains (m : imap) (k : Z) : res bool :=
  match lower_bound m k with
  | Some r => match lookup m r with Some (l, _) => Ok (l <=? k) | None => UB end
  | None => Ok false
  end.
(** ** MyIterator, :51-175: m_i and m_offset.  Its Key is at least as wide as int or
    unsigned, so that subtraction is not done in a wider type.  Subtraction overflows as
    key + 1 does, that is, only for signed types.  The asserts of move_next (:142-145) are
    checked, as UB; == compares the two fields, :113-118. *)
Definition iter : Type := (option Z * Z)%type.
(** :182-188 *)
Definition begin_ (m : imap) : iter := (match m with [] => None | (r, _) :: _ => Some r end, 0).
Definition end_ : iter := (None, 0).
Definition iter_eqb (i j : iter) : bool :=
  match fst i, fst j with Some r, Some r' => r =? r' | None, None => true | _, _ => false end && (snd i =? snd j).
(** :70-77 *)
Definition deref (m : imap) (i : iter) : res (Z * V) :=
  match fst i with
  | Some r => match lookup m r with Some (l, v) => Ok (l + snd i, v) | None => UB end
  | None => UB
  end.
(** :140-156; [next_key] of the offset is the one of the keys *)
Definition move_next (m : imap) (i : iter) : res iter :=
  match fst i with
  | None => UB
  | Some r =>
    match lookup m r with
    | None => UB
    | Some (l, _) =>
      let* len := if r - l <=? hi then Ok (r - l) else overflow in
      if snd i <=? len then
        if snd i =? len then Ok (next_of m r, 0) else let* o := next_key (snd i) in Ok (Some r, o)
      else UB
    end
  end.
(** :158-161, and what a reverse iterator does to be dereferenced: [fst --i] *)
Definition move_prev (m : imap) (i : iter) : res iter := Throw RuntimeError.
Definition reverse_deref (m : imap) (i : iter) : res (Z * V) := let* j := move_prev m i in deref m j.
(** for (auto x : map): the elements in the order of the visits, None if there are more than [n] *)
Fixpoint visit (m : imap) (n : nat) (i : iter) : res (option (list (Z * V))) :=
  if iter_eqb i end_ then Ok (Some [])
  else match n with
       | O => Ok None
       | Datatypes.S n' => let* x := deref m i in let* j := move_next m i in let* l := visit m n' j in Ok (option_map (cons x) l)
       end.

Fixpoint assigns (m : imap) (os : list (Z * Z * V)) : res imap :=
  match os with [] => Ok m | (a, b, v) :: r => let* m1 := assign m a b v in assigns m1 r end.
End Interval.
