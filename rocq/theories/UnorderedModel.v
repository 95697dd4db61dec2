(** Model of reading and writing std::unordered_set and std::unordered_map,
    Awl/Io/Rw/CollectionReadWrite.h:22-46, 67-101, 157-170, 185-198 (C88), over the types of
    CodecModel, without a context.

    A container is the list of its elements in the order of its iteration.  A hash table is the
    function [insert] from such a list and a value to the next list; where it puts a new element is
    left to it. *)
From Verif Require Import Common Int2ArrayModel CodecModel.
From Coq Require Import Permutation.
Local Open Scope Z_scope.

Definition table := list val -> val -> list val.

Section Unordered.
Context (E : env).
(** :164-170, 87-101 *)
Definition uset_write (t : ty) (l : list val) : res bytes :=
  let* b := put_list (pwrite E t) l in Ok (put_size (length l) ++ b).
(** :157-162, 30-46 *)
Definition uset_read (insert : table) (t : ty) (old : list val) (s : bytes) : res (list val * bytes) :=
  let* (n, r) := get_size get_raw s in
  get_add (pread E t (default E t)) insert (Z.to_nat n) old r.
(** :192-198, 87-101 and the pairs :22-28 *)
Definition put_pair (k t : ty) (p : val) : res bytes :=
  match p with VPair x y => let* a := pwrite E k x in let* b := pwrite E t y in Ok (a ++ b) | _ => UB end.
Definition umap_write (k t : ty) (l : list val) : res bytes :=
  let* b := put_list (put_pair k t) l in Ok (put_size (length l) ++ b).
(** :185-190, 66-85 *)
Definition get_pair (k t : ty) (s : bytes) : res (val * bytes) :=
  let* (x, s1) := pread E k (default E k) s in
  let* (y, s2) := pread E t (default E t) s1 in Ok (VPair x y, s2).
Definition umap_read (insert : table) (k t : ty) (old : list val) (s : bytes) : res (list val * bytes) :=
  let* (n, r) := get_size get_raw s in
  get_add (get_pair k t) insert (Z.to_nat n) old r.
End Unordered.

(** The table of libstdc++ with [nb] buckets (13 from the first to the thirteenth element): a new
    element goes before the first one of its bucket, or to the front if the bucket is empty *)
Section Libstdcxx.
Context (eqv : val -> val -> bool) (hash : val -> Z) (nb : Z) (key : val -> val).
Definition bucket (x : val) : Z := hash (key x) mod nb.
Fixpoint before_bucket (l : list val) (x : val) : list val :=
  match l with
  | [] => [x]
  | y :: r => if bucket y =? bucket x then x :: l else y :: before_bucket r x
  end.
Definition insert_std : table := fun l x =>
  if existsb (fun y => eqv (key y) (key x)) l then l
  else if existsb (fun y => bucket y =? bucket x) l then before_bucket l x
  else x :: l.
End Libstdcxx.
