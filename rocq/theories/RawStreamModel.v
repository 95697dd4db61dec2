(** Model of Awl/Io/VectorStream.h, MeasureStream.h, StdStream.h, Rw/ReadRaw.h and of
    Platforms/{Posix,Windows}/Awl/Io/NativeStream.h (C64).

    Bytes are integers; the buffers of the caller are as long as the caller says. *)
From Verif Require Import Common.
Local Open Scope Z_scope.

Definition len {A} (l : list A) : Z := Z.of_nat (length l).
Definition take {A} (n : Z) (l : list A) : list A := firstn (Z.to_nat n) l.
Definition drop {A} (n : Z) (l : list A) : list A := skipn (Z.to_nat n) l.

(** ** VectorStream.h:18-89 *)
(** The vector and the offset of m_i; the vector is not changed while it is read. *)
Record vec_in := { vec : list Z; off : Z }.
Definition vec_end (s : vec_in) : bool := off s =? len (vec s).
Definition vec_read (s : vec_in) (n : Z) : vec_in * list Z :=
  let available := len (vec s) - off s in
  let k := Z.min available n in
  let data := if k =? 0 then [] else take k (drop (off s) (vec s)) in
  ({| vec := vec s; off := off s + k |}, data).
Definition vec_write (v b : list Z) : list Z := v ++ b.

(** ** MeasureStream.h:18-27: size_t has 64 bits *)
Definition measure_write (pos : Z) (b : list Z) : Z := (pos + len b) mod 2 ^ 64.

(** ** StdStream.h: std::istream without exceptions() over a buffer with these bytes left *)
Record std_in := { left : list Z; eofbit : bool; failbit : bool }.
Definition good (s : std_in) : bool := negb (eofbit s) && negb (failbit s).
(** StdStream.h:23-31; istream::read and gcount *)
Definition std_read (s : std_in) (n : Z) : std_in * list Z :=
  if good s then
    let data := take n (left s) in
    let short := len data <? n in
    ({| left := drop n (left s); eofbit := short; failbit := short |}, data)
  else ({| left := left s; eofbit := eofbit s; failbit := true |}, []).
(** StdStream.h:33-38; istream::peek and eof *)
Definition std_end (s : std_in) : std_in * bool :=
  let s1 := if good s then {| left := left s; eofbit := match left s with [] => true | _ => false end; failbit := false |}
            else {| left := left s; eofbit := eofbit s; failbit := true |} in
  (s1, eofbit s1).

(** ** A file of the operating system and a descriptor with its offset *)
Record file := { content : list Z; fpos : Z }.
Definition at_pos (f : file) (p : Z) : file := {| content := content f; fpos := p |}.
(** read(2): at most [max] bytes at once; this is 0x7ffff000 on Linux, and less if there is a signal *)
Definition sys_read (max : Z) (f : file) (n : Z) : file * list Z :=
  let data := take (Z.min n max) (drop (fpos f) (content f)) in (at_pos f (fpos f + len data), data).
Definition resize (l : list Z) (n : Z) : list Z := take n l ++ repeat 0 (Z.to_nat (n - len l)).
(** write(2) *)
Definition sys_write (max : Z) (f : file) (b : list Z) : file * Z :=
  let data := take max b in
  match data with
  | [] => (f, 0)
  | _ => ({| content := resize (content f) (fpos f) ++ data ++ drop (fpos f + len data) (content f); fpos := fpos f + len data |}, len data)
  end.
(** lseek(2), SetFilePointerEx: None is EINVAL *)
Definition sys_seek (f : file) (p : Z) : option file := if (0 <=? p) && (p <? 2 ^ 63) then Some (at_pos f p) else None.
Definition sys_truncate (f : file) : file := {| content := resize (content f) (fpos f); fpos := fpos f |}.
(** static_cast of a size_t to off_t or LONGLONG, to DWORD *)
Definition to_off (p : Z) : Z := if p <? 2 ^ 63 then p else p - 2 ^ 64.
Definition to_dword (n : Z) : Z := n mod 2 ^ 32.

Inductive op := Read (n : Z) | Write (b : list Z) | End | Seek (p : Z) (from_begin : bool) | Move (d : Z) | Truncate | Flush | GetPosition | GetLength.
Inductive answer := ABytes (b : list Z) | ABool (b : bool) | ANum (n : Z) | ADone.

(** ** Posix/Awl/Io/NativeStream.h:36-105 with an open descriptor; IoError is PosixException *)
Definition posix_seek (f : file) (p : Z) : file * res answer :=
  match sys_seek f p with Some f' => (f', Ok ADone) | None => (f, Throw IoError) end.
Definition posix_step (max : Z) (o : op) (f : file) : file * res answer :=
  match o with
  | Read n => let (f', b) := sys_read max f n in (f', Ok (ABytes b))
  | Write b => let (f', k) := sys_write max f b in if k =? len b then (f', Ok ADone) else (f', Throw IoError)
  | End => (f, Ok (ABool (fpos f =? len (content f))))
  | Seek p b => posix_seek f ((if b then 0 else len (content f)) + to_off p)
  | Move d => posix_seek f (fpos f + d)
  | Truncate => (sys_truncate f, Ok ADone)
  | Flush => (f, Ok ADone)
  | GetPosition => (f, Ok (ANum (fpos f)))
  | GetLength => (f, Ok (ANum (len (content f))))
  end.

(** ** Windows/Awl/Io/NativeStream.h:38-125 in a release build.
    SetFilePointerEx returns FALSE if it fails, and the comparison with
    INVALID_SET_FILE_POINTER, 0xFFFFFFFF, does not see it (lines 88, 97, 150). *)
Definition win_seek (f : file) (p : Z) : file * res answer :=
  match sys_seek f p with Some f' => (f', Ok ADone) | None => (f, Ok ADone) end.
Definition win_step (o : op) (f : file) : file * res answer :=
  match o with
  | Read n => let (f', b) := sys_read (2 ^ 32) f (to_dword n) in (f', Ok (ABytes b))
  | Write b => let n := to_dword (len b) in let (f', k) := sys_write (2 ^ 32) f (take n b) in if k =? n then (f', Ok ADone) else (f', Throw IoError)
  | Seek p b => win_seek f ((if b then 0 else len (content f)) + to_off p)
  | Move d => win_seek f (fpos f + d)
  | _ => posix_step 0 o f
  end.
Fixpoint run (step : op -> file -> file * res answer) (os : list op) (f : file) : file * list (res answer) :=
  match os with [] => (f, []) | o :: r => let (f1, a) := step o f in let (f2, l) := run step r f1 in (f2, a :: l) end.

(** ** Rw/ReadRaw.h:21-31 over any input stream *)
Definition read_raw {S} (read : S -> Z -> S * list Z) (s : S) (n : Z) : S * res (list Z) :=
  let (s', b) := read s n in (s', if len b <? n then Throw EndOfFile else Ok b).
