(** Model of VersionTolerantSerializable::Read for types that are not move-assignable
    (VersionTolerantSerializable.h:30-77), and of a moved PersistentObject. *)
From Verif Require Import Common Int2ArrayModel CodecModel VtsModel AStoreModel.
Local Open Scope Z_scope.

(** What a call of Read leaves in the object. *)
Inductive read_end := Returned (v : val) | Raised (e : exn) (v : val) | Terminated | Undefined.

Section InPlace.
Context (E : env) (sch : schema) (rename : nat -> fname -> fname) (t : ty).
(** VersionTolerantSerializable.h:90-102: both are noexcept *)
Definition restore (mid : val) (snapshot : bytes) : option val := match pread E t mid snapshot with Ok (v, _) => Some v | _ => None end.
(** :46-72.  [mid] is what is in the object when an exception leaves Read(in, m_val): the
    model of the reader does not say how far it came.  Exceptions that are not IoExceptions
    are not caught. *)
Definition in_place_read (cur mid : val) (s : bytes) : read_end :=
  match pwrite E t cur with
  | Ok snapshot =>
    match vread E sch rename (fun n => n) true t cur s with
    | Ok (v, _) => Returned v
    | Throw e => if io_exn e then match restore mid snapshot with Some v => Raised e v | None => Terminated end else Raised e mid
    | UB => Undefined
    end
  | Throw _ => Terminated
  | UB => Undefined
  end.
End InPlace.

(** ** PersistentObject has an implicit move constructor: AtomicStorage has one
    (AtomicStorage.h:37) and the serializable objects have implicit copy constructors, which
    copy the references VersionTolerantSerializable.h:112 and HashingSerializable.h:80.

    The values m_val (PersistentObject.h:105) live in slots; a destroyed one is None. *)
Section Move.
Context (enc : val -> bytes) (rd : bytes -> res (val * nat)).
(** PersistentObject.h:105-109: where m_val is, and what m_serializable refers to *)
Record pobj := { self : nat; refers : nat; pfiles : storage }.
Definition slots := list (option val).
(** PersistentObject.h:19-24 *)
Definition pnew (m : slots) (v : val) (st : storage) : slots * pobj := (m ++ [Some v], {| self := length m; refers := length m; pfiles := st |}).
(** The implicit move constructor; [left] is what moving leaves in a value *)
Definition pmove (left : val -> val) (m : slots) (p : pobj) : slots * pobj :=
  match nth_error m (self p) with
  | Some (Some v) => (set_nth m (self p) (Some (left v)) ++ [Some v], {| self := length m; refers := refers p; pfiles := pfiles p |})
  | _ => (m, p)
  end.
Definition pdestroy (m : slots) (p : pobj) : slots := set_nth m (self p) None.
(** PersistentObject.h:62-69 value() *)
Definition pvalue (m : slots) (p : pobj) : option val := match nth_error m (self p) with Some o => o | None => None end.
Definition passign (m : slots) (p : pobj) (v : val) : slots := set_nth m (self p) (Some v).
(** PersistentObject.h:38-41, HashingSerializable.h:54: through the reference *)
Definition psave (m : slots) (p : pobj) : res pobj :=
  match nth_error m (refers p) with
  | Some (Some v) => Ok {| self := self p; refers := refers p; pfiles := save enc v (pfiles p) |}
  | _ => UB
  end.
(** PersistentObject.h:33-36, HashingSerializable.h:44: through the reference *)
Definition pload (m : slots) (p : pobj) : res (bool * slots * pobj) :=
  match nth_error m (refers p) with
  | Some (Some _) =>
    let* (o, st) := load enc rd (pfiles p) in
    let q := {| self := self p; refers := refers p; pfiles := st |} in
    match o with Some v => Ok (true, set_nth m (refers p) (Some v), q) | None => Ok (false, m, q) end
  | _ => UB
  end.
End Move.
