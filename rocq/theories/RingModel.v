(** Model of awl::ring (Awl/Ring.h).

    Buffers live in a memory of numbered blocks; each block is a list of slots
    that are raw ([None]) or hold a constructed element ([Some v]).  Pointers into
    a block are offsets.  Reading or destroying a raw slot, constructing over a
    constructed one (the old element would never be destroyed), touching a freed
    block or a null buffer, reading an indeterminate field and violating an
    [assert] are [UB].  Simplifications: the allocator never fails, element copy
    and move do not throw and a move leaves the source constructed. *)
From Verif Require Import Common.

Section Ring.
Context {T : Type}.

Definition slots := list (option T).
Definition block := option slots.              (* None = not allocated / freed *)
Record memory := { blocks : nat -> block; fresh : nat }.

(** Ring.h:578-582, the fields m_buf, m_capacity, m_data (offset), m_size. *)
Record rv := { buf : option nat; cap : nat; data : nat; size : nat }.

(** A ring object: [Indet] is the state left by the default constructor
    (Ring.h:179-182): m_buf is null and the other three fields are indeterminate. *)
Inductive robj := Indet | Robj (r : rv).

(** Element access through a pointer (offset [p] of block [b]). *)
Definition load (m : memory) (b : option nat) (p : nat) : res T :=
  match b with
  | Some k => match blocks m k with
              | Some s => match nth_error s p with Some (Some v) => Ok v | _ => UB end
              | None => UB
              end
  | None => UB
  end.

(** Explicit destructor call, e.g. Ring.h:315. *)
Definition destroy (m : memory) (b : option nat) (p : nat) : res memory :=
  match b with
  | Some k => match blocks m k with
              | Some s => match nth_error s p with
                          | Some (Some _) =>
                              Ok {| blocks := upd (blocks m) k (Some (set_nth s p None)); fresh := fresh m |}
                          | _ => UB
                          end
              | None => UB
              end
  | None => UB
  end.

(** Placement new, e.g. Ring.h:303. *)
Definition construct (m : memory) (b : option nat) (p : nat) (v : T) : res memory :=
  match b with
  | Some k => match blocks m k with
              | Some s => match nth_error s p with
                          | Some None =>
                              Ok {| blocks := upd (blocks m) k (Some (set_nth s p (Some v))); fresh := fresh m |}
                          | _ => UB
                          end
              | None => UB
              end
  | None => UB
  end.

(** m_alloc.allocate(n). *)
Definition allocate (m : memory) (n : nat) : memory * nat :=
  ({| blocks := upd (blocks m) (fresh m) (Some (repeat None n)); fresh := S (fresh m) |}, fresh m).

(** m_alloc.deallocate(m_buf, capacity()); freeing a block that still holds an
    element (a leak), or freeing with the wrong capacity, is flagged as [UB]. *)
Definition deallocate (m : memory) (k n : nat) : res memory :=
  match blocks m k with
  | Some s => if Nat.eqb (length s) n && forallb (fun x => match x with None => true | _ => false end) s
              then Ok {| blocks := upd (blocks m) k None; fresh := fresh m |}
              else UB
  | None => UB
  end.

(** Ring.h:442-450 address, with adjust_overflow 427-440. *)
Definition address (r : rv) (pos : nat) : nat :=
  let p := data r + pos in
  if cap r <=? p then p - cap r else p.

(** Ring.h:457-461 last, 465-468 data_end *)
Definition last_addr (r : rv) : nat := address r (size r - 1).
Definition data_end (r : rv) : nat := address r (size r).

(** Ring.h:470-482 *)
Definition next (r : rv) (p : nat) : nat := if S p =? cap r then 0 else S p.

(** Ring.h:484-496 *)
Definition prev (r : rv) (p : nat) : nat := (if p =? 0 then cap r else p) - 1.

Definition with_data (r : rv) d := {| buf := buf r; cap := cap r; data := d; size := size r |}.
Definition with_size (r : rv) s := {| buf := buf r; cap := cap r; data := data r; size := s |}.

(** Ring.h:341-349 *)
Definition empty (r : rv) : bool := size r =? 0.
Definition full (r : rv) : bool := size r =? cap r.

(** Ring.h:498-516 *)
Definition allocate_next (m : memory) (r : rv) : res (memory * rv * nat) :=
  let p_write := data_end r in
  if full r then
    let* m1 := destroy m (buf r) (data r) in
    Ok (m1, with_data r (next r (data r)), p_write)
  else Ok (m, with_size r (S (size r)), p_write).

(** Ring.h:518-534 *)
Definition allocate_prev (m : memory) (r : rv) : res (memory * rv * nat) :=
  let saved_full := full r in
  let r1 := with_data r (prev r (data r)) in
  if saved_full then
    let* m1 := destroy m (buf r1) (data r1) in
    Ok (m1, r1, data r1)
  else Ok (m, with_size r1 (S (size r1)), data r1).

(** Ring.h:301-309, 291-299: the value comes from outside the ring. *)
Definition push_back (m : memory) (r : rv) (v : T) : res (memory * rv) :=
  let* (m1, r1, p) := allocate_next m r in
  let* m2 := construct m1 (buf r1) p v in
  Ok (m2, r1).

Definition push_front (m : memory) (r : rv) (v : T) : res (memory * rv) :=
  let* (m1, r1, p) := allocate_prev m r in
  let* m2 := construct m1 (buf r1) p v in
  Ok (m2, r1).

(** The same when the argument is a reference to element [i] of the ring itself:
    the reference is bound before allocate_next/allocate_prev run and is read by
    T's copy constructor after they have run. *)
Definition push_back_own (m : memory) (r : rv) (i : nat) : res (memory * rv) :=
  let src := address r i in
  let* (m1, r1, p) := allocate_next m r in
  let* v := load m1 (buf r) src in
  let* m2 := construct m1 (buf r1) p v in
  Ok (m2, r1).

Definition push_front_own (m : memory) (r : rv) (i : nat) : res (memory * rv) :=
  let src := address r i in
  let* (m1, r1, p) := allocate_prev m r in
  let* v := load m1 (buf r) src in
  let* m2 := construct m1 (buf r1) p v in
  Ok (m2, r1).

(** Ring.h:311-320 *)
Definition pop_front (m : memory) (r : rv) : res (memory * rv) :=
  guard (negb (empty r))
  (let* m1 := destroy m (buf r) (data r) in
   let r1 := with_data r (next r (data r)) in
   Ok (m1, with_size r1 (size r1 - 1))).

(** Ring.h:322-329 *)
Definition pop_back (m : memory) (r : rv) : res (memory * rv) :=
  guard (negb (empty r))
  (let* m1 := destroy m (buf r) (last_addr r) in
   Ok (m1, with_size r (size r - 1))).

(** Ring.h:272-283; the loop runs while the ring is not empty, hence size() times. *)
Fixpoint clear_loop (fuel : nat) (m : memory) (r : rv) : res (memory * rv) :=
  if empty r then Ok (m, r)
  else match fuel with
       | 0 => UB
       | S f => let* (m1, r1) := pop_front m r in clear_loop f m1 r1
       end.

Definition clear (m : memory) (r : rv) : res (memory * rv) :=
  match buf r with
  | None => UB
  | Some _ =>
      let* (m1, r1) := clear_loop (size r) m r in
      Ok (m1, with_size (with_data r1 0) 0)
  end.

(** Ring.h:536-546 free; used as the destructor (236-239) too. *)
Definition free (m : memory) (r : rv) : res (memory * rv) :=
  match buf r with
  | None => Ok (m, r)
  | Some k =>
      let* (m1, r1) := clear m r in
      let* m2 := deallocate m1 k (cap r1) in
      Ok (m2, {| buf := None; cap := cap r1; data := data r1; size := size r1 |})
  end.

(** Ring.h:351-359 operator[] *)
Definition index (m : memory) (r : rv) (i : nat) : res T := load m (buf r) (address r i).

(** Ring.h:361-373 at, 393-399 check_index *)
Definition at_ (m : memory) (r : rv) (i : nat) : res T :=
  if size r <? i then Throw OutOfRange else index m r i.

(** Ring.h:285-289 *)
Definition front (m : memory) (r : rv) : res T :=
  guard (negb (empty r)) (load m (buf r) (data r)).
Definition back (m : memory) (r : rv) : res T :=
  guard (negb (empty r)) (load m (buf r) (last_addr r)).

(** Ring.h:375-389 with the iterator of 34-170: begin() is position 0, end() is
    position m_size, ++ increments the position, * is address(position). *)
Fixpoint iterate (m : memory) (r : rv) (ps : list nat) : res (list T) :=
  match ps with
  | [] => Ok []
  | p :: ps' => let* v := load m (buf r) (address r p) in
                let* vs := iterate m r ps' in
                Ok (v :: vs)
  end.
Definition to_list (m : memory) (r : rv) : res (list T) := iterate m r (seq 0 (size r)).
Definition to_rlist (m : memory) (r : rv) : res (list T) := iterate m r (rev (seq 0 (size r))).

(** Ring.h:184-189 *)
Definition new_ring (m : memory) (c : nat) : res (memory * rv) :=
  guard (negb (c =? 0))
  (let (m1, k) := allocate m c in
   Ok (m1, {| buf := Some k; cap := c; data := 0; size := 0 |})).

(** Ring.h:241-270 reserve.  The element moves read operator[](size()-min_size+i)
    and construct buf+i in the new block. *)
Fixpoint reserve_loop (m : memory) (r : rv) (nb : nat) (off : nat) (is : list nat) : res memory :=
  match is with
  | [] => Ok m
  | i :: is' => let* v := index m r (off + i) in
                let* m1 := construct m (Some nb) i v in
                reserve_loop m1 r nb off is'
  end.

Definition reserve (m : memory) (o : robj) (c : nat) : res (memory * rv) :=
  guard (negb (c =? 0))
  (let (m1, nb) := allocate m c in
   match o with
   | Robj r =>
       match buf r with
       | Some _ =>
           let min_size := Nat.min c (size r) in
           let* m2 := reserve_loop m1 r nb (size r - min_size) (seq 0 min_size) in
           let* (m3, _) := free m2 r in
           Ok (m3, {| buf := Some nb; cap := c; data := 0; size := min_size |})
       | None => Ok (m1, {| buf := Some nb; cap := c; data := 0; size := 0 |})
       end
   | Indet => Ok (m1, {| buf := Some nb; cap := c; data := 0; size := 0 |})
   end).

(** Ring.h:562-574 copy: allocate other.m_capacity slots, then push_back every
    element of the source in iteration order. *)
Fixpoint copy_loop (m : memory) (r : rv) (src : rv) (ps : list nat) : res (memory * rv) :=
  match ps with
  | [] => Ok (m, r)
  | p :: ps' => let* v := load m (buf src) (address src p) in
                let* (m1, r1) := push_back m r v in
                copy_loop m1 r1 src ps'
  end.

Definition copy (m : memory) (o : robj) : res (memory * rv) :=
  match o with
  | Indet => UB                               (* reads the indeterminate m_capacity *)
  | Robj src =>
      let (m1, k) := allocate m (cap src) in
      copy_loop m1 {| buf := Some k; cap := cap src; data := 0; size := 0 |} src (seq 0 (size src))
  end.

(** Ring.h:191-194 *)
Definition copy_ctor := copy.

(** m_buf of an object *)
Definition obuf (o : robj) : option nat := match o with Indet => None | Robj r => buf r end.

(** free() on an object: nothing happens when m_buf is null. *)
Definition ofree (m : memory) (o : robj) : res memory :=
  match o with
  | Indet => Ok m
  | Robj r => let* (m1, _) := free m r in Ok m1
  end.

Definition same_buf (a b : option nat) : bool :=
  match a, b with
  | Some x, Some y => x =? y
  | None, None => true
  | _, _ => false
  end.

(** Ring.h:203-214; the result is the new value of the left operand. *)
Definition assign (m : memory) (dst src : robj) : res (memory * robj) :=
  if same_buf (obuf dst) (obuf src) then Ok (m, dst)
  else let* m1 := ofree m dst in
       let* (m2, r) := copy m1 src in
       Ok (m2, Robj r).

(** Ring.h:548-560 attach and release; 196-201 move constructor: the result is
    (new object, moved-from object). *)
Definition move_ctor (src : robj) : res (robj * robj) :=
  match src with
  | Indet => UB                               (* attach copies indeterminate fields *)
  | Robj r => Ok (Robj r, Robj {| buf := None; cap := cap r; data := data r; size := size r |})
  end.

(** Ring.h:216-229 *)
Definition move_assign (m : memory) (dst src : robj) : res (memory * robj * robj) :=
  if same_buf (obuf dst) (obuf src) then Ok (m, dst, src)
  else let* m1 := ofree m dst in
       let* (d, s) := move_ctor src in
       Ok (m1, d, s).

(** Ring.h:231-234, std::ranges::equal on sized ranges: sizes first, then
    element by element. *)
Fixpoint eq_loop (eqb : T -> T -> bool) (m : memory) (a b : rv) (ps : list nat) : res bool :=
  match ps with
  | [] => Ok true
  | p :: ps' => let* x := load m (buf a) (address a p) in
                let* y := load m (buf b) (address b p) in
                if eqb x y then eq_loop eqb m a b ps' else Ok false
  end.
Definition equal (eqb : T -> T -> bool) (m : memory) (a b : rv) : res bool :=
  if size a =? size b then eq_loop eqb m a b (seq 0 (size a)) else Ok false.

End Ring.
Arguments memory : clear implicits.

(** A program using any number of ring variables: one constructor per public
    operation.  Variables are created by a constructor and end by [ODestroy]. *)
Inductive rop (T : Type) : Type :=
| ODefault (i : nat) | ONew (i c : nat) | OCopy (i j : nat) | OMove (i j : nat)
| OAssign (i j : nat) | OMoveAssign (i j : nat) | ODestroy (i : nat)
| OPushBack (i : nat) (v : T) | OPushFront (i : nat) (v : T)
| OPushBackOwn (i k : nat) | OPushFrontOwn (i k : nat)
| OPopFront (i : nat) | OPopBack (i : nat) | OClear (i : nat) | OReserve (i c : nat)
| OSize (i : nat) | OCapacity (i : nat) | OFront (i : nat) | OBack (i : nat)
| OIndex (i k : nat) | OAt (i k : nat) | OIter (i : nat) | ORIter (i : nat) | OEq (i j : nat).
Arguments ODefault {T}. Arguments ONew {T}. Arguments OCopy {T}. Arguments OMove {T}.
Arguments OAssign {T}. Arguments OMoveAssign {T}. Arguments ODestroy {T}.
Arguments OPushBack {T}. Arguments OPushFront {T}.
Arguments OPushBackOwn {T}. Arguments OPushFrontOwn {T}.
Arguments OPopFront {T}. Arguments OPopBack {T}. Arguments OClear {T}. Arguments OReserve {T}.
Arguments OSize {T}. Arguments OCapacity {T}. Arguments OFront {T}. Arguments OBack {T}.
Arguments OIndex {T}. Arguments OAt {T}. Arguments OIter {T}. Arguments ORIter {T}. Arguments OEq {T}.

(** What the program observes. *)
Inductive robs (T : Type) : Type :=
| VUnit | VNat (n : nat) | VElt (v : T) | VList (l : list T) | VBool (b : bool) | VExn (e : exn).
Arguments VUnit {T}. Arguments VNat {T}. Arguments VElt {T}. Arguments VList {T}.
Arguments VBool {T}. Arguments VExn {T}.

Section RingProgram.
Context {T : Type} (eqb : T -> T -> bool).

Definition renv := nat -> option robj.
Definition rstate : Type := memory T * renv.
Definition rinit : rstate := ({| blocks := fun _ => None; fresh := 0 |}, fun _ => None).

(** Access to a variable whose fields have been initialised. *)
Definition with_var (st : rstate) (i : nat) {A} (f : memory T -> rv -> res A) : res A :=
  match snd st i with
  | Some (Robj r) => f (fst st) r
  | _ => UB
  end.

Definition with_obj (st : rstate) (i : nat) {A} (f : memory T -> robj -> res A) : res A :=
  match snd st i with
  | Some o => f (fst st) o
  | None => UB
  end.

Definition fresh_var (st : rstate) (i : nat) {A} (k : res A) : res A :=
  match snd st i with None => k | Some _ => UB end.

Definition mutate (st : rstate) (i : nat) (f : memory T -> rv -> res (memory T * rv)) : res (rstate * robs T) :=
  with_var st i (fun m r => let* (m1, r1) := f m r in Ok ((m1, upd (snd st) i (Some (Robj r1))), VUnit)).

Definition query (st : rstate) (i : nat) (f : memory T -> rv -> res (robs T)) : res (rstate * robs T) :=
  with_var st i (fun m r => match f m r with
                            | Ok v => Ok (st, v)
                            | Throw e => Ok (st, VExn e)      (* caught by the caller *)
                            | UB => UB
                            end).

Definition rstep (st : rstate) (o : rop T) : res (rstate * robs T) :=
  match o with
  | ODefault i => fresh_var st i (Ok ((fst st, upd (snd st) i (Some Indet)), VUnit))
  | ONew i c => fresh_var st i (let* (m1, r) := new_ring (fst st) c in
                                Ok ((m1, upd (snd st) i (Some (Robj r))), VUnit))
  | OCopy i j => fresh_var st i (with_obj st j (fun m o =>
                   let* (m1, r) := copy_ctor m o in
                   Ok ((m1, upd (snd st) i (Some (Robj r))), VUnit)))
  | OMove i j => fresh_var st i (with_obj st j (fun m o =>
                   let* (d, s) := move_ctor o in
                   Ok ((m, upd (upd (snd st) j (Some s)) i (Some d)), VUnit)))
  | OAssign i j => with_obj st i (fun m d => with_obj st j (fun _ s =>
                   let* (m1, d1) := assign m d s in
                   Ok ((m1, upd (snd st) i (Some d1)), VUnit)))
  | OMoveAssign i j => with_obj st i (fun m d => with_obj st j (fun _ s =>
                   let* (m1, d1, s1) := move_assign m d s in
                   Ok ((m1, upd (upd (snd st) j (Some s1)) i (Some d1)), VUnit)))
  | ODestroy i => with_obj st i (fun m o =>
                   let* m1 := ofree m o in Ok ((m1, upd (snd st) i None), VUnit))
  | OPushBack i v => mutate st i (fun m r => push_back m r v)
  | OPushFront i v => mutate st i (fun m r => push_front m r v)
  | OPushBackOwn i k => mutate st i (fun m r => guard (k <? size r) (push_back_own m r k))
  | OPushFrontOwn i k => mutate st i (fun m r => guard (k <? size r) (push_front_own m r k))
  | OPopFront i => mutate st i pop_front
  | OPopBack i => mutate st i pop_back
  | OClear i => mutate st i clear
  | OReserve i c => with_obj st i (fun m o =>
                   let* (m1, r) := reserve m o c in
                   Ok ((m1, upd (snd st) i (Some (Robj r))), VUnit))
  | OSize i => query st i (fun _ r => Ok (VNat (size r)))
  | OCapacity i => query st i (fun _ r => Ok (VNat (cap r)))
  | OFront i => query st i (fun m r => let* v := front m r in Ok (VElt v))
  | OBack i => query st i (fun m r => let* v := back m r in Ok (VElt v))
  | OIndex i k => query st i (fun m r => let* v := index m r k in Ok (VElt v))
  | OAt i k => query st i (fun m r => let* v := at_ m r k in Ok (VElt v))
  | OIter i => query st i (fun m r => let* l := to_list m r in Ok (VList l))
  | ORIter i => query st i (fun m r => let* l := to_rlist m r in Ok (VList l))
  | OEq i j => query st i (fun m a => with_var st j (fun _ b =>
                   let* x := equal eqb m a b in Ok (VBool x)))
  end.

Fixpoint rrun (st : rstate) (os : list (rop T)) : res (rstate * list (robs T)) :=
  match os with
  | [] => Ok (st, [])
  | o :: os' => let* (st1, v) := rstep st o in
                let* (st2, vs) := rrun st1 os' in
                Ok (st2, v :: vs)
  end.
End RingProgram.
