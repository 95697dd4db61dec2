(** Model of Awl/Io/HashStream.h over a stream whose Read returns what is asked for, or
    what is left (VectorStream.h:34-62, StdStream.h, NativeStream.h on regular files) and
    whose Write does not fail.

    [H] is the hash function, [h] its size() and [B] the block size; the assertion
    blockSize > Hash::size() (:30, 165) is a hypothesis of the theorems. *)
From Verif Require Import Common.

Notation bytes := (list Z).
Definition bytes_eqb (a b : bytes) : bool := if list_eq_dec Z.eq_dec a b then true else false.

Section HashStream.
Context (H : bytes -> bytes) (h B : nat).

(** ** HashOutputStream :157-235: the pending block and what the underlying stream got *)
Record hout := { hv : bytes; hfile : bytes }.
Definition hout_new : hout := {| hv := []; hfile := [] |}.
(** :183-195 Flush *)
Definition hflush (o : hout) : hout :=
  match hv o with
  | [] => o
  | v => {| hv := []; hfile := hfile o ++ v ++ H v |}
  end.
(** :207-235 Write; a loop that goes on for more iterations than there are bytes would
    never end *)
Fixpoint hwrite_loop (fuel : nat) (o : hout) (buf : bytes) : res hout :=
  match fuel with
  | 0 => UB
  | S k =>
    let tail_count := B - h - length (hv o) in
    let insert_count := Nat.min tail_count (length buf) in
    let o1 := {| hv := hv o ++ firstn insert_count buf; hfile := hfile o |} in
    let o2 := if length (hv o1) =? B - h then hflush o1 else o1 in
    let rest := skipn insert_count buf in
    if length rest =? 0 then Ok o2 else hwrite_loop k o2 rest
  end.
Definition hwrite (o : hout) (buf : bytes) : res hout := hwrite_loop (S (length buf)) o buf.
Fixpoint hwrites (o : hout) (ws : list bytes) : res hout :=
  match ws with [] => Ok o | w :: ws => let* o1 := hwrite o w in hwrites o1 ws end.
(** The destructor :174-177 flushes what is pending. *)
Definition hwritten (ws : list bytes) : res bytes := let* o := hwrites hout_new ws in Ok (hfile (hflush o)).

(** ** HashInputStream :21-155: what the underlying stream has left, m_block, and m_i as
    an index; None is an iterator invalidated by resize() (:56), left so by a throw *)
Record hin := { rest : bytes; block : bytes; ix : option nat }.
Definition hin_new (f : bytes) : hin := {| rest := f; block := []; ix := Some 0 |}.

(** :52-97 PeekBuf *)
Definition hpeek (s : hin) : hin * res unit :=
  match ix s with
  | None => (s, UB)
  | Some i =>
    if i =? length (block s) then
      let c := firstn B (rest s) in
      let r := skipn B (rest s) in
      if length c =? 0 then ({| rest := r; block := []; ix := Some 0 |}, Ok tt)
      else if length c <? h then ({| rest := r; block := c ++ repeat 0%Z (B - length c); ix := None |}, Throw Corruption)
      else
        let p := firstn (length c - h) c in
        let read_val := skipn (length c - h) c in
        if bytes_eqb (H p) read_val then ({| rest := r; block := p; ix := Some 0 |}, Ok tt)
        else ({| rest := r; block := c; ix := None |}, Throw Corruption)
    else (s, Ok tt)
  end.
(** :37-40, 45-50 End *)
Definition hend (s : hin) : hin * res bool :=
  match hpeek s with
  | (s1, Ok _) => (s1, match ix s1 with Some i => Ok (i =? length (block s1)) | None => UB end)
  | (s1, Throw e) => (s1, Throw e)
  | (s1, UB) => (s1, UB)
  end.
(** :99-118 FlushBuf: the bytes it copies when [n] are still wanted *)
Definition hflushbuf (s : hin) (n : nat) : hin * res bytes :=
  match ix s with
  | None => (s, UB)
  | Some i =>
    let write_count := Nat.min (length (block s) - i) n in
    ({| rest := rest s; block := block s; ix := Some (i + write_count) |}, Ok (firstn write_count (skipn i (block s))))
  end.
(** :131-155 Read; every turn consumes a byte of the underlying stream or ends the loop *)
Fixpoint hread_loop (fuel : nat) (s : hin) (got : bytes) (n : nat) : hin * res bytes :=
  match fuel with
  | 0 => (s, UB)
  | S k =>
    match hflushbuf s (n - length got) with
    | (s1, Ok d) =>
      let got1 := got ++ d in
      if length got1 =? n then (s1, Ok got1)
      else match hend s1 with
           | (s2, Ok true) => (s2, Ok got1)
           | (s2, Ok false) => hread_loop k s2 got1 n
           | (s2, Throw e) => (s2, Throw e)
           | (s2, UB) => (s2, UB)
           end
    | (s1, Throw e) => (s1, Throw e)
    | (s1, UB) => (s1, UB)
    end
  end.
Definition hread (s : hin) (n : nat) : hin * res bytes := hread_loop (S (S (length (rest s)))) s [] n.

(** Programs that read *)
Inductive hop := HRead (n : nat) | HEnd.
Inductive hobs := HGot (d : bytes) | HIsEnd (b : bool).
Definition hstep (s : hin) (o : hop) : hin * res hobs :=
  match o with
  | HRead n => match hread s n with (s1, Ok d) => (s1, Ok (HGot d)) | (s1, Throw e) => (s1, Throw e) | (s1, UB) => (s1, UB) end
  | HEnd => match hend s with (s1, Ok b) => (s1, Ok (HIsEnd b)) | (s1, Throw e) => (s1, Throw e) | (s1, UB) => (s1, UB) end
  end.
(** The observations up to the first failure, and how the program ended. *)
Fixpoint hrun (s : hin) (os : list hop) : list hobs * res unit :=
  match os with
  | [] => ([], Ok tt)
  | o :: os =>
    match hstep s o with
    | (s1, Ok b) => let '(l, e) := hrun s1 os in (b :: l, e)
    | (_, Throw e) => ([], Throw e)
    | (_, UB) => ([], UB)
    end
  end.
End HashStream.
