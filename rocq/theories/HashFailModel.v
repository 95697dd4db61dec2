(** Model of HashOutputStream (Awl/Io/HashStream.h:157-235) over a stream whose Write can
    fail, as UniqueFile's can (NativeStream), and of BufferedStream.h.

    [dev i] tells what the i-th call of the underlying Write does: None - everything is
    written, Some k - the first k bytes are written and an exception is thrown.  Allocation
    does not fail (the constructor reserves a block, :171). *)
From Verif Require Import Common HashStreamModel.

Section Fail.
Context (H : bytes -> bytes) (h B : nat) (dev : nat -> option nat).

(** m_v, what the underlying stream got, and how many times it was called *)
Record fout := { fv : bytes; ffile : bytes; fcalls : nat }.
Definition fout_new : fout := {| fv := []; ffile := []; fcalls := 0 |}.
(** :183-195 Flush: the hash is already in m_v when the underlying Write throws, and
    m_v.clear() is not reached *)
Definition fflush (o : fout) : fout * res unit :=
  match fv o with
  | [] => (o, Ok tt)
  | v => let w := v ++ H v in
         match dev (fcalls o) with
         | None => ({| fv := []; ffile := ffile o ++ w; fcalls := S (fcalls o) |}, Ok tt)
         | Some k => ({| fv := w; ffile := ffile o ++ firstn k w; fcalls := S (fcalls o) |}, Throw IoError)
         end
  end.
(** :207-235 Write; a size_t difference that is negative is larger than any buffer (:219) *)
Fixpoint fwrite_loop (fuel : nat) (o : fout) (buf : bytes) : fout * res unit :=
  match fuel with
  | 0 => (o, UB)
  | S n =>
    let insert_count := if length (fv o) <=? B - h then Nat.min (B - h - length (fv o)) (length buf) else length buf in
    let o1 := {| fv := fv o ++ firstn insert_count buf; ffile := ffile o; fcalls := fcalls o |} in
    match (if length (fv o1) =? B - h then fflush o1 else (o1, Ok tt)) with
    | (o2, Ok _) => let rest := skipn insert_count buf in
                    if length rest =? 0 then (o2, Ok tt) else fwrite_loop n o2 rest
    | (o2, Throw e) => (o2, Throw e)
    | (o2, UB) => (o2, UB)
    end
  end.
Definition fwrite (o : fout) (buf : bytes) : fout * res unit := fwrite_loop (S (S (length buf))) o buf.
(** Calls of Write, whose exceptions are caught *)
Fixpoint fwrites (o : fout) (ws : list bytes) : fout * list (res unit) :=
  match ws with
  | [] => (o, [])
  | w :: ws => let '(o1, r) := fwrite o w in let '(o2, rs) := fwrites o1 ws in (o2, r :: rs)
  end.
(** :174-177: a destructor is noexcept, an exception in it calls std::terminate *)
Inductive ending := Closed (f : bytes) | Terminated (f : bytes).
Definition fclose (o : fout) : ending :=
  match fflush o with (o1, Ok _) => Closed (ffile o1) | (o1, _) => Terminated (ffile o1) end.
Definition fprogram (ws : list bytes) : list (res unit) * ending := let '(o, rs) := fwrites fout_new ws in (rs, fclose o).
End Fail.

(** ** BufferedStream.h:15-16: the streams with FakeHash (Crypto/BasicHash.h:40-52), the
    value of which is an empty array *)
Definition fake_hash (_ : bytes) : bytes := [].
Definition buffered_write (B : nat) (ws : list bytes) : res bytes := hwritten fake_hash 0 B ws.
Definition buffered_read (B : nat) (f : bytes) (os : list hop) : list hobs * res unit := hrun fake_hash 0 B (hin_new f) os.
