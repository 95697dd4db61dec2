(** C106: the destruction of asynchronous generators and of their consumers. *)
From Verif Require Import Common AsyncGenModel AsyncDropModel.

Section Proofs.
Context {S V R : Type}.
Variable step : S -> pout S V.

(** Specification: what the rest of the consumer does, without begin(), ++ and *: its result if there are no such uses. *)
Fixpoint rest (c : client V R) : option (nat * R) :=
  match c with
  | KRet r => Some (1, r)
  | KEvent k => match rest k with Some (n, r) => Some (2 + n, r) | None => None end
  | _ => None
  end.
Definition todo (c : control V R) : option (nat * R) :=
  match c with
  | CRun c => rest c
  | CEvent c => match rest c with Some (n, r) => Some (1 + n, r) | None => None end
  | CDone r => Some (0, r)
  | _ => None
  end.

Lemma druns_app : forall l1 l2 (d : dmach S V R), druns step d (l1 ++ l2) = let* d' := druns step d l1 in druns step d' l2.
Proof.
  induction l1 as [|a l1 IH]; intros l2 d; [reflexivity|]. cbn [app druns]. destruct (dtick step d a); cbn [rbind]; auto.
Qed.

(** Without destruction the machine is the one of C54. *)
Theorem async_drop_conservative : forall n (m : amach S V R),
  druns step (DMach m false false) (repeat DTick n) = let* m' := aticks step n m in Ok (DMach m' false false).
Proof.
  induction n as [|n IH]; intros m; cbn [repeat druns aticks]; [reflexivity|]. unfold dtick at 1. cbn [pdead cdead mach andb orb].
  destruct (atick step m) as [m'| |]; cbn [rbind]; auto.
Qed.

(** A generator can be destroyed when the consumer executes, waits for something else or has ended, if the consumer does not use the
    generator afterwards: the consumer goes on to its result. *)
Theorem async_drop_safe : forall (m : amach S V R) n r, todo (ctl m) = Some (n, r) ->
  exists m', druns step (DMach m false false) (DDropGen :: repeat DTick n) = Ok (DMach m' true false) /\ ctl m' = CDone r.
Proof.
  intros m n r T. cbn [druns]. unfold dtick at 1. cbn [pdead cdead mach orb].
  assert (producer_executes (ctl m) = false) as -> by (destruct (ctl m); auto; discriminate). cbn [rbind].
  assert (G : forall c m n r, ctl m = CRun c -> rest c = Some (n, r) ->
            exists m', druns step (DMach m true false) (repeat DTick n) = Ok (DMach m' true false) /\ ctl m' = CDone r).
  { clear. induction c as [k _|k _|k _|k IH|r']; intros m n r C E; cbn [rest] in E; try discriminate.
    - destruct (rest k) as [[n' r']|]; [|discriminate]. injection E as <- <-. cbn [Nat.add repeat druns]. unfold dtick. cbn [pdead cdead mach].
      rewrite C. cbn [needs_producer andb orb]. unfold atick at 1. rewrite C. cbn [rbind mach pdead cdead ctl needs_producer andb orb]. unfold atick at 1. cbn [ctl rbind].
      eapply IH; reflexivity.
    - injection E as <- <-. cbn [repeat druns]. unfold dtick. cbn [pdead cdead mach]. rewrite C. cbn [needs_producer andb orb]. unfold atick. rewrite C. cbn [rbind].
      eexists. split; [reflexivity|]. reflexivity. }
  destruct (ctl m) as [c|c|b k|b k|r'] eqn:C; try discriminate; cbn [todo] in T.
  - eapply G; eauto.
  - destruct (rest c) as [[n' r']|] eqn:E; [|discriminate]. injection T as <- <-. cbn [Nat.add repeat druns]. unfold dtick at 1. cbn [pdead cdead mach].
    rewrite C. cbn [needs_producer andb orb]. unfold atick at 1. rewrite C. cbn [rbind]. eapply G; eauto. reflexivity.
  - injection T as <- <-. exists m. auto.
Qed.

(** If the consumer uses it afterwards, that is undefined. *)
Theorem async_drop_used : forall (m : amach S V R), todo (ctl m) = None ->
  exists n, druns step (DMach m false false) (DDropGen :: repeat DTick n) = UB.
Proof.
  intros m T. cbn [druns]. unfold dtick at 1. cbn [pdead cdead mach orb]. destruct (producer_executes (ctl m)) eqn:P; [exists 0; reflexivity|]. cbn [rbind].
  assert (G : forall c m, ctl m = CRun c -> rest c = None -> exists n, druns step (DMach m true false) (repeat DTick n) = UB).
  { clear. induction c as [k _|k _|k _|k IH|r']; intros m C E; cbn [rest] in E; try discriminate.
    1-3: exists 1; cbn [repeat druns]; unfold dtick; cbn [pdead cdead mach]; rewrite C; reflexivity.
    destruct (rest k) as [[n' r']|]; [discriminate|].
    destruct (IH (AMach (pc m) (cur m) (aexn m) (iter m) (CRun k)) eq_refl eq_refl) as (n & N). exists (2 + n). cbn [Nat.add repeat druns]. unfold dtick at 1 2. cbn [pdead cdead mach].
    rewrite C. cbn [needs_producer andb orb]. unfold atick at 1. rewrite C. cbn [rbind mach pdead cdead ctl needs_producer andb orb]. unfold atick at 1. cbn [ctl rbind]. exact N. }
  destruct (ctl m) as [c|c|b k|b k|r'] eqn:C; try discriminate; cbn [todo] in T.
  - eapply G; eauto.
  - destruct (rest c) as [[n' r']|] eqn:E; [discriminate|].
    destruct (G c (AMach (pc m) (cur m) (aexn m) (iter m) (CRun c)) eq_refl E) as (n & N). exists (1 + n). cbn [Nat.add repeat druns]. unfold dtick at 1. cbn [pdead cdead mach].
    rewrite C. cbn [needs_producer andb orb]. unfold atick at 1. rewrite C. cbn [rbind]. exact N.
  - exists 1. cbn [repeat druns]. unfold dtick. cbn [pdead cdead mach]. rewrite C. reflexivity.
Qed.

(** The consumer waits for something else: it can be destroyed, together with the generator in either order, and nothing happens if the event is cancelled. *)
Theorem async_drop_both : forall (m : amach S V R), producer_executes (ctl m) = false -> consumer_executes (ctl m) = false ->
  druns step (DMach m false false) [DDropGen; DDropConsumer] = Ok (DMach m true true) /\
  druns step (DMach m false false) [DDropConsumer; DDropGen] = Ok (DMach m true true) /\
  dtick step (DMach m true true) DTick = (match ctl m with CDone _ => Ok (DMach m true true) | _ => UB end).
Proof.
  intros m P C. cbn [druns]. unfold dtick. cbn [mach pdead cdead orb]. rewrite P, C. cbn [orb rbind mach pdead cdead]. rewrite P, ?C. repeat split.
  unfold needs_consumer, atick. destruct (ctl m); try discriminate; reflexivity.
Qed.

(** How many times the body waits before it yields, returns or throws. *)
Fixpoint waits (n : nat) (s : S) : bool :=
  match n with 0 => true | Datatypes.S n' => match step s with AWait s' => waits n' s' | _ => false end end.

(** The consumer alone is destroyed while the producer waits: the producer goes on, and its next co_yield or its end resumes the
    consumer that does not exist. *)
Theorem async_drop_consumer : forall n (m : amach S V R) b k s, ctl m = PEvent b k -> pc m = PSuspended s ->
  match druns step (DMach m false false) (DDropConsumer :: repeat DTick (2 * n)) with
  | Ok _ => waits n s = true
  | UB => waits n s = false
  | Throw _ => False
  end.
Proof.
  intros n m b k s C P. cbn [druns]. unfold dtick at 1. cbn [mach pdead cdead orb]. rewrite C. cbn [consumer_executes rbind].
  revert m s C P. induction n as [|n IH]; intros m s C P; [reflexivity|].
  replace (2 * Datatypes.S n) with (Datatypes.S (Datatypes.S (2 * n))) by lia. cbn [repeat druns]. unfold dtick at 1. cbn [mach pdead cdead andb orb].
  unfold needs_consumer at 1. rewrite C. unfold atick at 1. rewrite C. cbn [rbind]. unfold dtick at 1. cbn [mach pdead cdead andb orb].
  unfold needs_consumer at 1. cbn [ctl pc]. rewrite P. cbn [waits]. destruct (step s) as [v s'| |e|s'] eqn:E; try reflexivity.
  unfold atick at 1. cbn [ctl pc]. rewrite ?P, ?E. cbn [rbind cur aexn iter]. apply IH; reflexivity.
Qed.

(** The generator is destroyed while its coroutine waits for an event: the event resumes a coroutine that does not exist. *)
Theorem async_drop_waiting : forall (m : amach S V R) b k, ctl m = PEvent b k ->
  exists d, dtick step (DMach m false false) DDropGen = Ok d /\ dtick step d DTick = UB /\
  exists d', dtick step d DDropConsumer = Ok d' /\ dtick step d' DTick = UB.
Proof.
  intros m b k C. exists (DMach m true false). unfold dtick. cbn [mach pdead cdead orb]. rewrite C. cbn [producer_executes consumer_executes needs_producer andb orb].
  split; [reflexivity|]. split; [reflexivity|]. exists (DMach m true true). split; [reflexivity|]. cbn [mach pdead cdead]. rewrite C. reflexivity.
Qed.
End Proofs.

(** The destructor does not care: a generator whose coroutine is suspended, reached by the program below, is destroyed and the
    program is undefined. *)
Theorem async_drop_waiting_refuted : exists (step : nat -> pout nat nat) (c : client nat nat) l m,
  druns step (DMach (ainit 0 c) false false) l = Ok m /\ pdead m = true /\ cdead m = true /\ dtick step m DTick = UB.
Proof.
  exists (fun s => match s with 0 => AYield 5 1 | 1 => AWait 2 | _ => AReturn end).
  exists (KBegin (fun _ => KDeref (fun v => KNext (fun _ => KRet v)))).
  exists [DTick; DTick; DTick; DTick; DTick; DDropGen; DDropConsumer].
  eexists. repeat split; vm_compute; reflexivity.
Qed.

(** A consumer that takes one value of an infinite generator, waits, and leaves the loop: the generator is destroyed at any moment after *. *)
Example ex_async_drop :
  let step := fun s : nat => AYield s (s + 1) in
  let c := KBegin (fun _ => KDeref (fun v => KEvent (KRet v))) in
  match druns step (DMach (ainit 7 c) false false) [DTick; DTick; DTick; DDropGen; DTick; DTick; DTick] with
  | Ok d => ctl (mach d) = CDone 7 /\ pdead d = true
  | _ => False
  end.
Proof. vm_compute. auto. Qed.
