(** Model of Tests/Experimental/Io/SampleStreams.h:20-128 (SwitchMemoryOutputStream, VirtualMemoryOutputStream),
    TrivialMemoryStream.h, StreamUtils.h and Tests/Experimental/TrivialAllocator.h.

    The buffers are blocks of a heap, the objects have pointers to them.  Blocks are aligned to 16 bytes (the alignment of operator
    new), so an offset is aligned to 1, 2, 4 or 8 if it is divisible by it.  Bytes are numbers and values of arithmetic types are their
    bytes; the rules on the types of the objects in the buffer (aliasing) are left out.  A write takes its bytes from outside of the
    buffers.  A copy or a move that does not compile is UB here. *)
From Verif Require Import Common.

Inductive skind := SwitchOut | VirtualOut | TrivialIo.
Record sobj := SObj { skd : skind; ssize : nat; sbuf : option nat; sptr : option (nat * nat) }.   (* m_size, pBuf, m_p *)
Record sheap := SHeap { blocks : nat -> option (list Z); bnext : nat; objs : nat -> option sobj }.
Definition sinit : sheap := SHeap (fun _ => None) 0 (fun _ => None).

(** StreamUtils.h:12-19 StdCopy and memmove: byte by byte to the offset [off] of the block [l] *)
Fixpoint std_copy (bs : list Z) (off : nat) (l : list Z) : list Z :=
  match bs with
  | [] => l
  | x :: r => std_copy r (S off) (set_nth l off x)
  end.
Definition aligned (off w : nat) : bool := Nat.eqb (off mod w) 0.
(** SampleStreams.h:41-61: a count of 1, 2, 4 or 8 is copied as an integer, from an address [al] (modulo 8) *)
Definition plain_ok (al off n : nat) : bool :=
  match n with
  | 1 => true
  | 2 | 4 | 8 => aligned off n && aligned al n
  | _ => true
  end.

Inductive sop :=
| SNew (i : nat) (k : skind) (n : nat)
| SCopy (i j : nat)            (* the object i is a copy of j *)
| SMove (i j : nat)            (* the object i is constructed from std::move(j) *)
| SDestroy (i : nat)
| SWrite (i : nat) (al : nat) (bs : list Z)
| SPut (i : nat) (bs : list Z)  (* Write(TrivialMemoryStream &, T) *)
| SRead (i : nat) (n : nat)
| SGet (i : nat) (w : nat)      (* Read(TrivialMemoryStream &, T &) *)
| SReset (i : nat)
| SLength (i : nat)
| SEnd (i : nat).
Inductive sout := SNone | SBytes (bs : list Z) | SNum (n : nat) | SBool (b : bool).

Definition set_obj (s : sheap) (i : nat) (o : option sobj) : sheap := SHeap (blocks s) (bnext s) (upd (objs s) i o).
(** GetLength: the difference of two pointers into one block *)
Definition get_length (o : sobj) : res nat :=
  match sbuf o, sptr o with
  | Some b, Some (b', off) => guard (Nat.eqb b b') (Ok off)
  | _, _ => UB
  end.
(** The bytes at m_p: the block, its contents and the offset *)
Definition at_ptr (s : sheap) (o : sobj) : res (nat * list Z * nat) :=
  match sptr o with
  | Some (b, off) => match blocks s b with Some l => Ok (b, l, off) | None => UB end
  | None => UB
  end.
(** assert(GetLength() + count <= m_size), SampleStreams.h:104, TrivialMemoryStream.h:47, 99, 109 *)
Definition assert_fits (o : sobj) (n : nat) : res unit := let* len := get_length o in guard (len + n <=? ssize o) (Ok tt).
Definition advance (o : sobj) (b off : nat) : sobj := SObj (skd o) (ssize o) (sbuf o) (Some (b, off)).
Definition store (s : sheap) (i : nat) (o : sobj) (bs : list Z) (ok : nat -> bool) : res (sheap * sout) :=
  let* (b, l, off) := at_ptr s o in
  guard (off + length bs <=? length l)
  (guard (ok off)
    (Ok (SHeap (upd (blocks s) b (Some (std_copy bs off l))) (bnext s) (upd (objs s) i (Some (advance o b (off + length bs)))), SNone))).
Definition load (s : sheap) (i : nat) (o : sobj) (n : nat) (ok : nat -> bool) : res (sheap * sout) :=
  let* (b, l, off) := at_ptr s o in
  guard (off + n <=? length l)
  (guard (ok off) (Ok (set_obj s i (Some (advance o b (off + n))), SBytes (firstn n (skipn off l))))).

Definition sstep (s : sheap) (op : sop) : res (sheap * sout) :=
  let on i (f : sobj -> res (sheap * sout)) := match objs s i with Some o => f o | None => UB end in
  let free i (k : res (sheap * sout)) := match objs s i with None => k | Some _ => UB end in
  match op with
  | SNew i k n =>              (* SampleStreams.h:25-28, 95-98, TrivialMemoryStream.h:22-25 *)
    free i (Ok (SHeap (upd (blocks s) (bnext s) (Some (repeat 0%Z n))) (S (bnext s))
                      (upd (objs s) i (Some (SObj k n (Some (bnext s)) (Some (bnext s, 0))))), SNone))
  | SCopy i j => free i (on j (fun o => match skd o with VirtualOut => UB | _ => Ok (set_obj s i (Some o), SNone) end))
  | SMove i j => free i (on j (fun o =>
      match skd o with
      | VirtualOut => Ok (set_obj (set_obj s j (Some (SObj VirtualOut (ssize o) None (sptr o)))) i (Some o), SNone)
      | _ => Ok (set_obj s i (Some o), SNone)   (* a class with a destructor is copied *)
      end))
  | SDestroy i => on i (fun o =>
      match sbuf o with
      | None => Ok (set_obj s i None, SNone)
      | Some b =>
        match blocks s b with
        | Some _ => Ok (SHeap (upd (blocks s) b None) (bnext s) (upd (objs s) i None), SNone)
        | None => UB             (* deleted twice *)
        end
      end)
  | SWrite i al bs => on i (fun o =>
      match skd o with
      | SwitchOut => store s i o bs (fun off => plain_ok al off (length bs))
      | _ => let* _ := assert_fits o (length bs) in store s i o bs (fun _ => true)
      end)
  | SPut i bs => on i (fun o =>
      match skd o with
      | TrivialIo => let* _ := assert_fits o (length bs) in store s i o bs (fun off => aligned off (length bs))
      | _ => UB
      end)
  | SRead i n => on i (fun o =>            (* TrivialMemoryStream.h:37-44 *)
      match skd o with
      | TrivialIo => let* len := get_length o in load s i o (Nat.min n (ssize o - len)) (fun _ => true)
      | _ => UB
      end)
  | SGet i w => on i (fun o =>
      match skd o with
      | TrivialIo => let* _ := assert_fits o w in load s i o w (fun off => aligned off w)
      | _ => UB
      end)
  | SReset i => on i (fun o => Ok (set_obj s i (Some (SObj (skd o) (ssize o) (sbuf o) (match sbuf o with Some b => Some (b, 0) | None => None end))), SNone))
  | SLength i => on i (fun o => let* n := get_length o in Ok (s, SNum n))
  | SEnd i => on i (fun o => match skd o with TrivialIo => let* n := get_length o in Ok (s, SBool (Nat.eqb n (ssize o))) | _ => UB end)
  end.
Fixpoint sruns (s : sheap) (ops : list sop) : res (sheap * list sout) :=
  match ops with
  | [] => Ok (s, [])
  | o :: r => let* (s1, v) := sstep s o in let* (s2, vs) := sruns s1 r in Ok (s2, v :: vs)
  end.

(** TrivialAllocator.h:14-79 TrivialSpace: [delete pBuf] (54) of an array is undefined unless pBuf is null.
    What an allocator of elements of [w] bytes gets (96-99) must be aligned for them. *)
Record tspace := TSpace { tsize : nat; tbuf : bool; tused : nat }.   (* is pBuf not null?; m_p - pBuf *)
Definition t_clear (t : tspace) : res tspace := if tbuf t then UB else Ok (TSpace 0 false 0).
Definition t_reserve (n : nat) (t : tspace) : res tspace := let* _ := t_clear t in Ok (TSpace n true 0).
Definition t_construct (n : nat) : res tspace := t_reserve n (TSpace 0 false 0).
Definition t_destroy (t : tspace) : res unit := let* _ := t_clear t in Ok tt.
Definition t_allocate (n : nat) (t : tspace) : res (tspace * nat) :=
  guard (n <=? tsize t - tused t) (Ok (TSpace (tsize t) (tbuf t) (tused t + n), tused t)).
Definition a_allocate (w n : nat) (t : tspace) : res (tspace * nat) :=
  let* (t', off) := t_allocate (n * w) t in guard (aligned off w) (Ok (t', off)).
Fixpoint a_allocates (rs : list (nat * nat)) (t : tspace) : res (tspace * list (nat * nat)) :=   (* (w, n); what is returned: offset, length *)
  match rs with
  | [] => Ok (t, [])
  | (w, n) :: r => let* (t1, off) := a_allocate w n t in let* (t2, l) := a_allocates r t1 in Ok (t2, (off, n * w) :: l)
  end.
