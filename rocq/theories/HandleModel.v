(** Model of Platforms/{Posix,Windows}/Awl/Io/UniqueHandle.h, Windows/Awl/Io/SharedHandle.h
    and Awl/UniquePtr.h (C65). *)
From Verif Require Import Common.

(** What a handle refers to: a file, or the current process. *)
Inductive kobj := KFile (n : nat) | KProcess.
(** The open handles of the process, and the objects: None is not constructed, Some None
    contains NullHandleValue. *)
Record state := { table : list (nat * kobj); slot : nat -> option (option nat) }.
Fixpoint lookup (h : nat) (t : list (nat * kobj)) : option kobj := match t with [] => None | (k, o) :: r => if Nat.eqb k h then Some o else lookup h r end.
Fixpoint remove (h : nat) (t : list (nat * kobj)) : list (nat * kobj) := match t with [] => [] | (k, o) :: r => if Nat.eqb k h then r else (k, o) :: remove h r end.
Definition set_slot (s : state) (i : nat) (v : option (option nat)) : state := {| table := table s; slot := upd (slot s) i v |}.
Definition value (s : state) (i : nat) : option nat := match slot s i with Some v => v | None => None end.
(** ::close, ::CloseHandle of a handle that is not open is an error *)
Definition sys_close (h : nat) (s : state) : res state :=
  match lookup h (table s) with Some _ => Ok {| table := remove h (table s); slot := slot s |} | None => UB end.

(** Posix/UniqueHandle.h:67-78, Windows/UniqueHandle.h:78-89, SharedHandle.h:74-85 *)
Definition close (i : nat) (s : state) : res state :=
  match value s i with
  | Some h => let* s1 := sys_close h s in Ok (set_slot s1 i (Some None))
  | None => Ok s
  end.
(** Windows/SharedHandle.h:96-105 Duplicate into m_h of i; the new handle is [h].
    INVALID_HANDLE_VALUE is (HANDLE)-1, the pseudo handle of the current process, and its
    duplicate is a handle of the process. *)
Definition duplicate (i : nat) (src : option nat) (h : nat) (s : state) : res state :=
  let k := match src with Some g => lookup g (table s) | None => Some KProcess end in
  match k with
  | Some k => Ok {| table := (h, k) :: table s; slot := upd (slot s) i (Some (Some h)) |}
  | None => UB
  end.
(** The functions; OpenHandle is the constructor from the handle h that the system has just
    opened for k. *)
Inductive hop := Default (i : nat) | OpenHandle (i h : nat) (k : kobj) | MoveCtor (i j : nat) | MoveAssign (i j : nat) | CopyCtor (i j h : nat) | CopyAssign (i j h : nat) | CloseOp (i : nat) | Destroy (i : nat).
Definition hstep (o : hop) (s : state) : res state :=
  match o with
  | Default i => Ok (set_slot s i (Some None))
  | OpenHandle i h k => Ok {| table := (h, k) :: table s; slot := upd (slot s) i (Some (Some h)) |}
  | MoveCtor i j => let s1 := set_slot s i (Some (value s j)) in Ok (set_slot s1 j (Some None))
  | MoveAssign i j => let* s1 := close i s in let s2 := set_slot s1 i (Some (value s1 j)) in Ok (set_slot s2 j (Some None))
  | CopyCtor i j h => duplicate i (value s j) h s
  | CopyAssign i j h => let* s1 := close i s in duplicate i (value s1 j) h s1
  | CloseOp i => close i s
  | Destroy i => let* s1 := close i s in Ok (set_slot s1 i None)
  end.
Fixpoint hrun (os : list hop) (s : state) : res state := match os with [] => Ok s | o :: r => let* s1 := hstep o s in hrun r s1 end.

(** std::swap of two objects, with the temporary t. *)
Definition swap_ops (i j t : nat) : list hop := [MoveCtor t i; MoveAssign i j; MoveAssign j t; Destroy t].
(** Platforms/Windows/Awl/Io/UniqueHandle.h:58-66 and Platforms/Posix/Awl/Io/UniqueHandle.h:54 operator==: the values of the handles are compared. *)
Definition equal (s : state) (i j : nat) : bool := match value s i, value s j with Some a, Some b => Nat.eqb a b | None, None => true | _, _ => false end.

(** ** Awl/UniquePtr.h *)
(** The objects that are alive, the values of the pointers (None: not constructed), and the
    raw pointers that release() has returned and that were not passed on.  [reenters p]: the
    destructor of p calls reset(nullptr) of the unique_ptr that owns it. *)
Record pstate := { alive : list nat; ptr : nat -> option (option nat); raw : list nat }.
Section Ptr.
Context (reenters : nat -> bool).
Fixpoint erase (p : nat) (l : list nat) : list nat := match l with [] => [] | q :: r => if Nat.eqb q p then r else q :: erase p r end.
Definition pvalue (s : pstate) (i : nat) : option nat := match ptr s i with Some v => v | None => None end.
(** UniquePtr.h:44-47 operator==: the raw pointers are compared. *)
Definition pequal (s : pstate) (i j : nat) : bool := match pvalue s i, pvalue s j with Some a, Some b => Nat.eqb a b | None, None => true | _, _ => false end.
Definition set_ptr (s : pstate) (i : nat) (v : option (option nat)) : pstate := {| alive := alive s; ptr := upd (ptr s) i v; raw := raw s |}.
(** UniquePtr.h:113-116 Destroy: m_p is not changed.  A second delete of the object is undefined. *)
Definition destroy (i : nat) (s : pstate) : res pstate :=
  match pvalue s i with
  | None => Ok s
  | Some p =>
    if existsb (Nat.eqb p) (alive s) then
      let s1 := {| alive := erase p (alive s); ptr := ptr s; raw := raw s |} in
      if reenters p then (if existsb (Nat.eqb p) (alive s1) then Ok s1 else UB) else Ok s1
    else UB
  end.
Inductive pop := PDefault (i : nat) | PNew (i p : nat) | PMoveCtor (i j : nat) | PMoveAssign (i j : nat) | PResetNew (i p : nat) | PResetNull (i : nat) | PResetRaw (i p : nat) | PRelease (i : nat) | PDestroy (i : nat).
(** UniquePtr.h:95-100 *)
Definition reset (i : nat) (p : option nat) (s : pstate) : res pstate := let* s1 := destroy i s in Ok (set_ptr s1 i (Some p)).
Definition pstep (o : pop) (s : pstate) : res pstate :=
  match o with
  | PDefault i => Ok (set_ptr s i (Some None))
  | PNew i p => Ok {| alive := p :: alive s; ptr := upd (ptr s) i (Some (Some p)); raw := raw s |}
  | PMoveCtor i j => let s1 := set_ptr s i (Some (pvalue s j)) in Ok (set_ptr s1 j (Some None))
  | PMoveAssign i j => let* s1 := reset i (pvalue s j) s in Ok (set_ptr s1 j (Some None))
  | PResetNew i p => reset i (Some p) {| alive := p :: alive s; ptr := ptr s; raw := raw s |}
  | PResetNull i => reset i None s
  | PResetRaw i p => let* s1 := reset i (Some p) s in Ok {| alive := alive s1; ptr := ptr s1; raw := erase p (raw s1) |}
  | PRelease i => let s1 := set_ptr s i (Some None) in Ok (match pvalue s i with Some p => {| alive := alive s1; ptr := ptr s1; raw := p :: raw s1 |} | None => s1 end)
  | PDestroy i => let* s1 := destroy i s in Ok (set_ptr s1 i None)
  end.
Fixpoint prun (os : list pop) (s : pstate) : res pstate := match os with [] => Ok s | o :: r => let* s1 := pstep o s in prun r s1 end.
End Ptr.
