(** Model of the files of PersistentObject.h: HeaderedSerializable.h,
    EuphoricallySerializable.h and HashingSerializable.h over the hash stream (HashStreamModel),
    the version tolerant reader and writer (VtsModel) and the atomic storage (AStoreModel).

    The type map is the one of ReadOldPrototypes without an argument, allowDelete is true
    (Reader.h:153, 321).  T is move-assignable. *)
From Verif Require Import Common Int2ArrayModel CodecModel VtsModel AStoreModel HashStreamModel.
Local Open Scope Z_scope.

(** HeaderedSerializable.h:9-16; read and written as a tuple, TuplizableReadWrite.h:55-81 *)
Record header := { format : list Z; version : Z }.
Definition header_ty : ty := TTuple [TStr 1; TInt false 8].
Definition header_val (hd : header) : val := VTup [VStr (format hd); VInt (version hd)].

Section Persist.
(** The program: its types, the type of the value, the header, formatNameLimit, the
    function that renames fields. *)
Context (E : env) (sch : schema) (rename : nat -> fname -> fname) (t : ty) (hd : header) (name_limit : Z).
(** LimitedContext, SerializationContext.h:34-48 *)
Definition limited : env := {| cmp := cmp E; init := init E; alloc_ok := alloc_ok E; limit := Some name_limit |}.

(** ** Reading, from any stream *)
Section Stream.
Context {stm : Type} (raw : nat -> stm -> res (bytes * stm)) (size : stm -> nat).
(** HeaderedSerializable.h:38-63, 70-73: ReadOldVersion throws IoError unless overridden *)
Definition read_header (s : stm) : res (unit * stm) :=
  let* (v, s1) := read limited raw plain_struct header_ty (default E header_ty) s in
  match v with
  | VTup [VStr f; VInt n] =>
    if negb (fname_eqb f (format hd)) then Throw IoError
    else if version hd <? n then Throw IoError
    else if n <? version hd then Throw IoError
    else Ok (tt, s1)
  | _ => UB
  end.
(** HashingSerializable.h:38-46, VersionTolerantSerializable.h:37-39, 104-110: the value is
    read into a new object *)
Definition read_object (s : stm) : res (val * stm) :=
  let* (_, s1) := read_header s in
  vread_from raw size E sch rename (fun n => n) true t (default E t) s1.
End Stream.

(** ** The file *)
Context (H : bytes -> bytes) (h B : nat).
(** ReadRaw.h:19-31 on a HashInputStream *)
Definition hraw (n : nat) (s : hin) : res (bytes * hin) :=
  match hread H h B s n with
  | (s1, Ok b) => if (length b <? n)%nat then Throw EndOfFile else Ok (b, s1)
  | (_, Throw e) => Throw e
  | (_, UB) => UB
  end.
Definition hsize (s : hin) : nat := (length (block s) + length (rest s))%nat.
(** HashingSerializable.h:38-46: the value, and how many bytes of the file were consumed *)
Definition file_read (c : bytes) : res (val * nat) :=
  let* (v, s) := read_object hraw hsize (hin_new c) in Ok (v, (length c - length (rest s))%nat).
(** HashingSerializable.h:48-55, HeaderedSerializable.h:65-68,
    VersionTolerantSerializable.h:80-86: the pieces in which the bytes reach the stream are
    smaller, which does not matter (hash_stream_layout) *)
Definition file_write (v : val) : res bytes :=
  let* a := pwrite limited header_ty (header_val hd) in
  let* p := write_protos E sch in
  let* b := write E struct_index t v in
  hwritten H h B [a; p; b].
(** With a mutex: EuphoricallySerializable.h:56-78, HashingSerializable.h:59-67 *)
Definition snapshot (v : val) : res bytes :=
  let* p := write_protos E sch in
  let* b := write E struct_index t v in Ok (p ++ b).
Definition snapshot_write (v : val) : res bytes :=
  let* s := snapshot v in
  let* a := pwrite limited header_ty (header_val hd) in
  hwritten H h B [a; s].
(** The bytes of a value that can be written *)
Definition file_bytes (v : val) : bytes := match file_write v with Ok b => b | _ => [] end.

(** ** PersistentObject.h:18-113: the value and the files *)
Record object := { value : val; files : storage }.
(** AtomicStorage.cpp:64-101 LoadFromFile, with the value it leaves in the object: Read
    has assigned it before the end of the file is checked *)
Definition object_load_file (cur : val) (c : bytes) : res (bool * val) :=
  match file_read c with
  | Ok (v, n) => Ok (Nat.eqb n (length c), v)
  | Throw e => if io_exn e then Ok (false, cur) else Throw e
  | UB => UB
  end.
(** AtomicStorage.cpp:13-36 Load *)
Definition object_load (o : object) : res (bool * object) :=
  let* (b, v) := object_load_file (value o) (data (backup (files o))) in
  if b then Ok (true, {| value := v; files := run (run (files o) (write_ops file_bytes Master v)) clear_ops |})
  else
    let st := run (files o) clear_ops in
    let* (m, w) := object_load_file v (data (master st)) in Ok (m, {| value := w; files := st |}).
(** AtomicStorage.cpp:38-62 Save *)
Definition object_save (o : object) : object := {| value := value o; files := save file_bytes (value o) (files o) |}.

(** ** OptionalStorage.{h,cpp}: None is a storage that is not open *)
(** NativeStream.h: any operation on an invalid descriptor fails *)
Definition closed_seek : res unit := Throw IoError.
(** AtomicStorage.cpp:13-36 on such files: LoadFromFile catches what Seek throws (:94-98),
    ClearBackup does not *)
Definition closed_load : res bool :=
  let* _ := match closed_seek with Throw e => if io_exn e then Ok false else Throw e | Ok _ => Ok true | UB => UB end in
  let* _ := closed_seek in Ok false.
(** OptionalStorage.h:54-57 *)
Definition optional_load (cur : val) (st : option storage) : res (bool * val * option storage) :=
  match st with
  | Some f => let* (b, o) := object_load {| value := cur; files := f |} in Ok (b, value o, Some (files o))
  | None => let* b := closed_load in Ok (b, cur, None)
  end.
(** OptionalStorage.cpp:31-45 *)
Definition optional_save (cur : val) (st : option storage) : option storage :=
  match st with Some f => Some (save file_bytes cur f) | None => None end.
End Persist.
