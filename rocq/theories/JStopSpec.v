(** What the C++ standard promises of stop_source, stop_token and stop_callback
    ([thread.stoptoken]), as a rule for histories of events: which event may come after
    a given history.  Nothing of the implementation appears here. *)
From Verif Require Import Common JStopModel.

Definition stopped (h : list event) : Prop := exists t, In (ESignal t) h.
Definition begun (c : nat) (h : list event) : Prop := exists t, In (EBegin c t) h.

Definition allowed (h : list event) (e : event) : Prop :=
  match e with
  (* a stop is requested at most once, and not after stop_possible() was false *)
  | ESignal t => ~ stopped h /\ forall u, ~ In (EPossible u false) h
  (* request_stop() returns true once, to the thread that made the request, and then every
     callback that had been registered has been called or is being destroyed *)
  | EReq t true => In (ESignal t) h /\ (forall u, ~ In (EReq u true) h)
                   /\ forall c u, In (EAdd c u) h -> begun c h \/ exists v, In (EDying c v) h
  | EReq t false => stopped h
  | EQuery t b => b = true <-> stopped h
  | EPossible t b => stopped h -> b = true
  | ENew c t => forall u, ~ In (ENew c u) h
  (* a callback that is constructed after the request has been called, by this thread, when
     the constructor returns; and so has, by some thread, any callback whose constructor
     returns after request_stop() *)
  | EAdd c t => In (ENew c t) h /\ (forall u, ~ In (EAdd c u) h)
                /\ (forall h1 h2, h = h1 ++ ENew c t :: h2 -> stopped h1 -> In (EEnd c t) h)
                /\ (forall u, In (EReq u true) h -> begun c h)
  (* a callback is called at most once, after the request, by the thread that made it or by
     the constructor, and not after the destructor has returned *)
  | EBegin c t => stopped h /\ ~ begun c h /\ (forall u, ~ In (EGone c u) h)
                  /\ (In (ESignal t) h \/ In (ENew c t) h /\ forall u, ~ In (EAdd c u) h)
  | EEnd c t => In (EBegin c t) h /\ forall u, ~ In (EEnd c u) h
  | EDying c t => (exists u, In (EAdd c u) h) /\ forall u, ~ In (EDying c u) h
  (* the destructor waits for a call that another thread executes *)
  | EGone c t => In (EDying c t) h /\ (forall u, ~ In (EGone c u) h)
                 /\ forall u, In (EBegin c u) h -> In (EEnd c u) h \/ u = t
  end.
Inductive lawful : list event -> Prop :=
| lawful_nil : lawful []
| lawful_snoc h e : lawful h -> allowed h e -> lawful (h ++ [e]).

(** The stop_token and registered stop_callback objects that refer to the state *)
Definition references (s : state) : nat := tokens s + sum (fun c => Nat.b2n (c_ref (cbs s c))) (ncb s).
(** The last source is gone, at least two other objects refer to the state, and a stop_token
    is destroyed or a stop_callback that has been called is at the end of its destructor. *)
Definition premature (t : nat) (x : action) (s : state) : Prop :=
  sources s = 0 /\ 2 <= references s /\ (x = ADelToken \/ exists c, hd_error (stacks s t) = Some (FRmDrop c)).
(** There is no such step in the execution. *)
Fixpoint careful (n : nat) (tr : list (nat * action)) (s : state) : Prop :=
  match tr with
  | [] => True
  | (t, x) :: tr => ~ premature t x s /\ match step n t x s with Some (Ok s1) => careful n tr s1 | _ => True end
  end.
