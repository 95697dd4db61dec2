(** Shared vocabulary of all models: outcomes of C++ operations. *)
From Coq Require Export List Arith ZArith NArith Lia Bool.
From Coq Require Import ZifyBool ZifyNat ZifyN.
Export ListNotations.

(** The exceptions thrown by the modelled code (their payload is not modelled). *)
Inductive exn : Type :=
| OutOfRange        (* std::out_of_range *)
| RuntimeError      (* std::runtime_error, awl::GeneralException and the like *)
| LogicError        (* std::logic_error *)
| EndOfFile         (* Awl/Io/IoException.h:17 EndOfFileException *)
| Corruption        (* Awl/Io/IoException.h:37 CorruptionException *)
| TypeMismatch      (* Awl/Io/IoException.h:113 TypeMismatchException *)
| FieldNotFound     (* Awl/Io/IoException.h:95 FieldNotFoundException *)
| IoError.          (* Awl/Io/IoException.h:77 and the other IoException classes *)

(** Outcome of a C++ operation: normal return, exception, undefined behaviour
    (which includes a violated [assert]: in a release build the code goes on). *)
Inductive res (A : Type) : Type :=
| Ok (a : A)
| Throw (e : exn)
| UB.
Arguments Ok {A} _.
Arguments Throw {A} _.
Arguments UB {A}.

Definition rbind {A B} (x : res A) (f : A -> res B) : res B :=
  match x with Ok a => f a | Throw e => Throw e | UB => UB end.

Notation "'let*' x ':=' e 'in' k" := (rbind e (fun x => k))
  (at level 200, x pattern, e at level 200, k at level 200, right associativity).

Definition guard (b : bool) {A} (k : res A) : res A := if b then k else UB.

(** Total maps used as memories and environments. *)
Definition upd {B} (f : nat -> B) (k : nat) (v : B) : nat -> B :=
  fun x => if Nat.eqb x k then v else f x.

Lemma upd_eq {B} (f : nat -> B) k v : upd f k v k = v.
Proof. unfold upd; now rewrite Nat.eqb_refl. Qed.

Lemma upd_neq {B} (f : nat -> B) k v x : x <> k -> upd f k v x = f x.
Proof. unfold upd; intros H; destruct (Nat.eqb_spec x k); congruence. Qed.

(** In-place update of one list cell. *)
Fixpoint set_nth {A} (l : list A) (n : nat) (v : A) : list A :=
  match l, n with
  | [], _ => []
  | _ :: l', 0 => v :: l'
  | x :: l', S n' => x :: set_nth l' n' v
  end.

Lemma set_nth_length {A} (l : list A) n v : length (set_nth l n v) = length l.
Proof. revert n; induction l as [|x l IH]; intros [|n]; simpl; auto. Qed.

Lemma nth_error_set_nth_eq {A} (l : list A) n v :
  n < length l -> nth_error (set_nth l n v) n = Some v.
Proof. revert n; induction l as [|x l IH]; intros [|n] H; simpl in *; try lia; auto. apply IH; lia. Qed.

Lemma nth_error_set_nth_neq {A} (l : list A) n m v :
  m <> n -> nth_error (set_nth l n v) m = nth_error l m.
Proof.
  revert n m; induction l as [|x l IH]; intros [|n] [|m] H; simpl; auto; try congruence.
Qed.

Lemma nth_error_repeat {A} (x : A) n i : i < n -> nth_error (repeat x n) i = Some x.
Proof. revert i; induction n as [|n IH]; intros [|i] H; simpl; try lia; auto. apply IH; lia. Qed.
