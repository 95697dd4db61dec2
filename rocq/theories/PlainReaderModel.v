(** Model of Awl/Io/PlainReader.h: reads what a Writer has written without looking at the
    prototypes or at the indices of the structures. *)
From Verif Require Import Common Int2ArrayModel CodecModel VtsModel.

(** PlainReader.h:26-45 with BasicReader.h:30-35: the two bytes of the index are read and
    not used *)
Definition plain_index (sid : nat) (rds : list (reader bytes)) (cur : list val) (s : bytes) : res (list val * bytes) :=
  let* (_, s1) := get_int get_raw false 2 s in get_each rds cur s1.
Definition plain_read (E : env) (t : ty) (old : val) (s : bytes) : res (val * bytes) := read E get_raw plain_index t old s.
(** Several ReadV in a row into objects of the given types, VtsTest.cpp:121-132 *)
Fixpoint plain_reads (E : env) (ts : list ty) (s : bytes) : res (list val * bytes) :=
  match ts with
  | [] => Ok ([], s)
  | t :: ts => let* (v, s1) := plain_read E t (default E t) s in let* (l, s2) := plain_reads E ts s1 in Ok (v :: l, s2)
  end.
(** The data part of what a Writer writes, Writer.h:55-76 (without WriteNewPrototypes) *)
Fixpoint writer_writes (E : env) (ts : list ty) (vs : list val) : res bytes :=
  match ts, vs with
  | t :: ts, v :: vs => let* a := write E struct_index t v in let* b := writer_writes E ts vs in Ok (a ++ b)
  | _, _ => Ok []
  end.
