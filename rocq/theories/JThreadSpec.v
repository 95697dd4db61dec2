(** What is said about jthread, in terms of the history of events *)
From Verif Require Import Common JThreadModel.

Definition asks (k : nat) (e : event) : bool := match e with EReq _ _ (Some j) _ => Nat.eqb j k | _ => false end.
Definition ends (k : nat) (e : event) : bool := match e with EEnd j => Nat.eqb j k | _ => false end.
Definition starts (k : nat) (e : event) : bool := match e with EStart _ j => Nat.eqb j k | _ => false end.
(** The thread has been given up by its object: joined or detached *)
Definition parts (k : nat) (e : event) : bool := match e with EDetach j | EJoined _ _ j => Nat.eqb j k | _ => false end.
Definition seen (p : event -> bool) (l : list event) : bool := existsb p l.

(** What may happen after the history [l] *)
Definition allowed (l : list event) (e : event) : Prop :=
  match e with
  | EStart _ k => seen (starts k) l = false
  | EReq _ _ None b => b = false
  | EReq _ _ (Some k) b => seen (starts k) l = true /\ b = negb (seen (asks k) l)    (* true exactly once *)
  | EQuery k b => b = seen (asks k) l
  | EEnd k => seen (starts k) l = true /\ seen (ends k) l = false
  | EDetach k => seen (starts k) l = true /\ seen (parts k) l = false
  | EJoined t _ k => k <> t /\ seen (ends k) l = true /\ seen (parts k) l = false
  | _ => True
  end.
Inductive lawful : list event -> Prop :=
| lawful_nil : lawful []
| lawful_snoc : forall l e, lawful l -> allowed l e -> lawful (l ++ [e]).

(** The object owns the thread: it can be joined through it. *)
Definition owns (s : state) (h k : nat) : Prop := exists x, hs s h = Some x /\ h_thr x = Some k.
