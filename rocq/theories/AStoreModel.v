(** Model of Awl/Io/AtomicStorage.{h,cpp} over Platforms/Posix/Awl/Io/NativeStream.h.

    The value being stored is abstract: [enc] is what Serializable::Write produces and
    [rd] what Serializable::Read does with the bytes of a file.  A file is its current
    contents (what read() returns), the position, and the contents that fsync last made
    durable.  A Write of n bytes is n steps, so that it can be torn anywhere.  Save with
    a mutex (AtomicStorage.cpp:48-59) writes a snapshot taken once: the same steps. *)
From Verif Require Import Common.

Notation byte := Z.
Notation bytes := (list Z).

Record file := { data : bytes; pos : nat; disk : bytes; dirty : bool }.
Definition fresh_file (c : bytes) : file := {| data := c; pos := 0; disk := c; dirty := false |}.

(** Zero bytes fill a gap before the position (POSIX write and ftruncate). *)
Definition pad (n : nat) (l : bytes) : bytes := firstn n l ++ repeat 0%Z (n - length l).

(** NativeStream.h: Seek(0) 81-84, one byte of Write 58-72, Truncate 96-103, Flush 91-94 *)
Inductive fop := Seek0 | WriteByte (b : byte) | Truncate | Flush.
Definition fstep (f : file) (o : fop) : file :=
  match o with
  | Seek0 => {| data := data f; pos := 0; disk := disk f; dirty := dirty f |}
  | WriteByte b => {| data := pad (pos f) (data f) ++ b :: skipn (S (pos f)) (data f); pos := S (pos f); disk := disk f; dirty := true |}
  | Truncate => {| data := pad (pos f) (data f); pos := pos f; disk := disk f; dirty := true |}
  | Flush => {| data := data f; pos := pos f; disk := data f; dirty := false |}
  end.

(** AtomicStorage.h:130-132 *)
Record storage := { master : file; backup : file }.
Inductive which := Master | Backup.
Definition sop := (which * fop)%type.
Definition step (st : storage) (o : sop) : storage :=
  match o with
  | (Master, f) => {| master := fstep (master st) f; backup := backup st |}
  | (Backup, f) => {| master := master st; backup := fstep (backup st) f |}
  end.
Definition run (st : storage) (os : list sop) : storage := fold_left step os st.

Section Storage.
Context {V : Type} (enc : V -> bytes) (rd : bytes -> res (V * nat)).

(** AtomicStorage.h:98-112 WriteToStream *)
Definition write_ops (w : which) (v : V) : list sop :=
  [(w, Seek0)] ++ map (fun b => (w, WriteByte b)) (enc v) ++ [(w, Truncate); (w, Flush)].
(** AtomicStorage.h:121-126 ClearBackup *)
Definition clear_ops : list sop := [(Backup, Seek0); (Backup, Truncate); (Backup, Flush)].
(** AtomicStorage.cpp:38-62 *)
Definition save_ops (v : V) : list sop := write_ops Backup v ++ write_ops Master v ++ clear_ops.

(** AtomicStorage.cpp:64-101 LoadFromFile: exceptions derived from IoException are
    caught, and all of the file must have been read.  The position afterwards does not
    matter, the next operation on the file is Seek(0). *)
Definition io_exn (e : exn) : bool :=
  match e with EndOfFile | Corruption | TypeMismatch | FieldNotFound | IoError => true | _ => false end.
Definition load_from_file (c : bytes) : res (option V) :=
  match rd c with
  | Ok (v, n) => Ok (if Nat.eqb n (length c) then Some v else None)
  | Throw e => if io_exn e then Ok None else Throw e
  | UB => UB
  end.

(** AtomicStorage.cpp:13-36 Load: what it writes, and what it returns (None is false) *)
Definition load_ops (st : storage) : list sop :=
  match load_from_file (data (backup st)) with
  | Ok (Some v) => write_ops Master v ++ clear_ops
  | Ok None => clear_ops
  | _ => []
  end.
Definition load (st : storage) : res (option V * storage) :=
  let* b := load_from_file (data (backup st)) in
  match b with
  | Some v => Ok (Some v, run (run st (write_ops Master v)) clear_ops)
  | None => let st1 := run st clear_ops in
            let* m := load_from_file (data (master st1)) in Ok (m, st1)
  end.
Definition save (v : V) (st : storage) : storage := run st (save_ops v).

(** A crash and a restart: a file without unflushed changes keeps its contents; of one
    with such changes [torn durable current] says what can be left. *)
Definition file_crash (torn : bytes -> bytes -> bytes -> Prop) (f f' : file) : Prop :=
  exists c, f' = fresh_file c /\ if dirty f then torn (disk f) (data f) c else c = data f.
Definition crash torn (st st' : storage) : Prop :=
  file_crash torn (master st) (master st') /\ file_crash torn (backup st) (backup st').
(** The process dies, the operating system goes on: everything written is there. *)
Definition process_torn (_ current c : bytes) : Prop := c = current.
End Storage.
