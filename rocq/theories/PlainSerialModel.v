(** Model of Awl/Io/PlainSerializable.h: objects that are read and written through Serializable. *)
From Verif Require Import Common CodecModel.

Section Model.
(** [torn t old s]: what a value of the type t contains after a Read into it has thrown; nothing is assumed about it. *)
Context (E : env) (torn : ty -> val -> bytes -> val).
(** PlainSerializable.h:17-35 Read: the outcome and m_val.  With [atomic] a local value is read and moved to m_val.  The local value is not
    initialized, and here it is [default]: the reader does not look at the numbers that it overwrites. *)
Definition ps_read (atomic : bool) (t : ty) (m : val) (s : bytes) : res bytes * val :=
  match pread E t (if atomic then default E t else m) s with
  | Ok (v, s1) => (Ok s1, v)
  | Throw e => (Throw e, if atomic then m else torn t m s)
  | UB => (UB, m)
  end.
(** PlainSerializable.h:37-40 Write *)
Definition ps_write (t : ty) (m : val) : res bytes := pwrite E t m.
(** Several objects that share a stream: one after another, up to the first that throws. *)
Fixpoint ps_reads (atomic : bool) (os : list (ty * val)) (s : bytes) : res bytes * list val :=
  match os with
  | [] => (Ok s, [])
  | (t, m) :: os =>
    let (r, v) := ps_read atomic t m s in
    match r with
    | Ok s1 => let (r1, vs) := ps_reads atomic os s1 in (r1, v :: vs)
    | Throw e => (Throw e, v :: map snd os)
    | UB => (UB, v :: map snd os)
    end
  end.
Fixpoint ps_writes (os : list (ty * val)) : res bytes :=
  match os with
  | [] => Ok []
  | (t, m) :: os => let* a := ps_write t m in let* b := ps_writes os in Ok (a ++ b)
  end.
End Model.
