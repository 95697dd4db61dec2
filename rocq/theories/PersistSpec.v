(** Specification of the files of PersistentObject: which bytes may be in a file, and what a
    crash may leave of them. *)
From Verif Require Import Common Int2ArrayModel CodecModel CodecSpec VtsModel VtsSpec AStoreModel AStoreSpec PersistModel.

(** What can be left of the bytes [c] that were being written: the first of them. *)
Definition cut (x c : bytes) : Prop := exists k, x = firstn k c.
(** Or anything, as long as a block that carries its own hash is a block that was written,
    or the beginning of one. *)
Definition unforged (H : bytes -> bytes) (B : nat) (x c : bytes) : Prop :=
  forall i p, firstn B (skipn (i * B) x) = p ++ H p -> exists k, firstn B (skipn (i * B) x) = firstn k (firstn B (skipn (i * B) c)).

Section Torn.
(** [remains x c]: [x] can be left of the bytes [c] *)
Context (remains : bytes -> bytes -> Prop).
(** A crash: of a file that was durably empty something of what was written is left, a file
    that was being emptied is empty or as it was, and any other file (the master that was
    being overwritten) can contain anything at all. *)
Definition disk_torn (d c x : bytes) : Prop := (d = [] -> remains x c) /\ (c = [] -> x = d \/ x = []).
(** What can be in a file, if [file f v] are the complete files. *)
Definition disk_file {V} (file : bytes -> V -> Prop) (x : bytes) (o : option V) : Prop :=
  match o with Some v => file x v | None => x = [] \/ exists f v, file f v /\ remains x f /\ x <> f end.
End Torn.

(** A program that can keep its values: its types can be described, the type of the value
    is one of them and is read as it is written, the header can be read back. *)
Record keeps (E : env) (P : schema) (rename : nat -> fname -> fname) (t : ty) (hd : header) (lim : Z) : Prop := {
  k_program : program E P;
  k_init : initialized E P;
  k_type : in_schema P t;
  k_same : unchanged P rename (fun n => n) (fun s => s) t;
  k_header : has_ty (limited E lim) header_ty (header_val hd) }.

Section Files.
Context (E : env) (P : schema) (t : ty) (hd : header) (lim : Z) (H : bytes -> bytes) (h B : nat).
(** The files that the program writes. *)
Definition own_file (f : bytes) (v : val) : Prop := has_ty E t v /\ file_write E P t hd lim H h B v = Ok f.
End Files.

(** The new program has the files of the old one, too; [rho] tells what has become of the
    old structures. *)
Section Upgrade.
Context (E : env) (O N : schema) (rename : nat -> fname -> fname) (rho : nat -> nat) (t1 t2 : ty) (hd : header) (lim : Z) (H : bytes -> bytes) (h B : nat).
Definition becomes (v1 v2 : val) : Prop := mig E N rename (fun n => n) rho t1 v1 (Some (t2, default E t2, v2)).
Definition either_file (f : bytes) (v : val) : Prop :=
  own_file E N t2 hd lim H h B f v \/ exists v1, own_file E O t1 hd lim H h B f v1 /\ becomes v1 v.
Definition option_becomes (o1 o2 : option val) : Prop :=
  match o1, o2 with None, None => True | Some v1, Some v2 => becomes v1 v2 | _, _ => False end.
End Upgrade.
