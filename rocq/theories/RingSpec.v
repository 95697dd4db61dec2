(** Specification of awl::ring, independent of the model's memory: every ring
    variable holds a bounded double-ended queue. *)
From Verif Require Import Common RingModel.

(** Bounded deque: appending to a full queue drops the element at the other end. *)
Definition bd_push_back {T} (c : nat) (l : list T) (x : T) : list T :=
  if length l <? c then l ++ [x] else tl l ++ [x].
Definition bd_push_front {T} (c : nat) (l : list T) (x : T) : list T :=
  if length l <? c then x :: l else x :: removelast l.
(** The last n elements. *)
Definition lastn {T} (n : nat) (l : list T) : list T := skipn (length l - n) l.

Inductive svar (T : Type) : Type :=
| SNone                                (* variable does not exist *)
| SNull                                (* default constructed or moved from *)
| SLive (c : nat) (l : list T).
Arguments SNone {T}. Arguments SNull {T}. Arguments SLive {T}.

Section Spec.
Context {T : Type} (eqb : T -> T -> bool).

Definition senv := nat -> svar T.
Definition sinit : senv := fun _ => SNone.

Fixpoint list_eqb (a b : list T) : bool :=
  match a, b with
  | [], [] => true
  | x :: a', y :: b' => eqb x y && list_eqb a' b'
  | _, _ => false
  end.

Definition elt (o : option T) : option (robs T) :=
  match o with Some v => Some (VElt v) | None => None end.

(** Intended effect and observation; [None] = the caller broke a documented
    precondition (pop of an empty ring, operator[] out of range, capacity 0,
    using a ring that has no buffer). *)
Definition sstep (e : senv) (o : rop T) : option (senv * robs T) :=
  let upd_live i f := match e i with
                      | SLive c l => match f c l with
                                     | Some l' => Some (upd e i (SLive c l'), VUnit)
                                     | None => None
                                     end
                      | _ => None
                      end in
  let look i f := match e i with
                  | SLive c l => match f c l with Some v => Some (e, v) | None => None end
                  | _ => None
                  end in
  match o with
  | ODefault i => match e i with SNone => Some (upd e i SNull, VUnit) | _ => None end
  | ONew i c => match e i with
                | SNone => if c =? 0 then None else Some (upd e i (SLive c []), VUnit)
                | _ => None end
  | OCopy i j => match e i, e j with
                 | SNone, SLive c l => Some (upd e i (SLive c l), VUnit)
                 | _, _ => None end
  | OMove i j => match e i, e j with
                 | SNone, SLive c l => Some (upd (upd e j SNull) i (SLive c l), VUnit)
                 | _, _ => None end
  | OAssign i j => match e i, e j with
                   | SNone, _ => None
                   | _, SLive c l => Some (upd e i (SLive c l), VUnit)
                   | _, _ => None end
  | OMoveAssign i j => if i =? j then
                         match e i with SNone => None | _ => Some (e, VUnit) end
                       else match e i, e j with
                       | SNone, _ => None
                       | _, SLive c l => Some (upd (upd e j SNull) i (SLive c l), VUnit)
                       | _, _ => None end
  | ODestroy i => match e i with SNone => None | _ => Some (upd e i SNone, VUnit) end
  | OPushBack i v => upd_live i (fun c l => Some (bd_push_back c l v))
  | OPushFront i v => upd_live i (fun c l => Some (bd_push_front c l v))
  | OPushBackOwn i k => upd_live i (fun c l => option_map (bd_push_back c l) (nth_error l k))
  | OPushFrontOwn i k => upd_live i (fun c l => option_map (bd_push_front c l) (nth_error l k))
  | OPopFront i => upd_live i (fun _ l => match l with [] => None | _ :: t => Some t end)
  | OPopBack i => upd_live i (fun _ l => match l with [] => None | _ => Some (removelast l) end)
  | OClear i => upd_live i (fun _ _ => Some [])
  | OReserve i n => if n =? 0 then None else
                    match e i with
                    | SNone => None
                    | SNull => Some (upd e i (SLive n []), VUnit)
                    | SLive _ l => Some (upd e i (SLive n (lastn n l)), VUnit) end
  | OSize i => look i (fun _ l => Some (VNat (length l)))
  | OCapacity i => look i (fun c _ => Some (VNat c))
  | OFront i => look i (fun _ l => elt (hd_error l))
  | OBack i => look i (fun _ l => elt (hd_error (rev l)))
  | OIndex i k => look i (fun _ l => elt (nth_error l k))
  | OAt i k => look i (fun _ l => match nth_error l k with
                                  | Some v => Some (VElt v)
                                  | None => Some (VExn OutOfRange) end)
  | OIter i => look i (fun _ l => Some (VList l))
  | ORIter i => look i (fun _ l => Some (VList (rev l)))
  | OEq i j => look i (fun _ a => match e j with
                                  | SLive _ b => Some (VBool (list_eqb a b))
                                  | _ => None end)
  end.

(** The operations on which the code is known to deviate (see RingProps.v):
    at(size()), and appending one of the ring's own elements when that very
    element has to make room. *)
Definition supported (e : senv) (o : rop T) : bool :=
  match o with
  | OAt i k => match e i with SLive _ l => negb (k =? length l) | _ => true end
  | OPushBackOwn i k => match e i with SLive c l => (length l <? c) || negb (k =? 0) | _ => true end
  | OPushFrontOwn i k => match e i with SLive c l => (length l <? c) || negb (S k =? length l) | _ => true end
  | _ => true
  end.

(** Run of the specification; the boolean tells whether all steps were supported. *)
Fixpoint srun (e : senv) (os : list (rop T)) : option (senv * list (robs T) * bool) :=
  match os with
  | [] => Some (e, [], true)
  | o :: os' =>
      match sstep e o with
      | Some (e1, v) => match srun e1 os' with
                        | Some (e2, vs, b) => Some (e2, v :: vs, supported e o && b)
                        | None => None end
      | None => None
      end
  end.
End Spec.
Arguments senv : clear implicits.
