(** C42: sleep_for returns when the duration has elapsed or stop has been requested. *)
From Coq Require Import ZifyBool ZifyNat.
From Verif Require Import Common SleepModel.

(** ** Proof: invariant of all interleavings *)

Record inv (d t0 : nat) (s : sstate) : Prop := Inv {
  i_clock : t0 <= clock s;
  i_dead : match pc s with PReg | PEnter => True | _ => t0 + d <= deadline s end;
  i_block : match pc s with PReg | PEnter | PCheck | PBlock | PWait => True | _ => stop s = true \/ deadline s <= clock s end;
  i_run : st s = TRun -> match pc s with PReg | PDone => False | _ => True end;
  i_stop : st s = TIdle <-> stop s = false;
  i_reg : registered s = true <-> (match pc s with PReg | PDone => False | _ => True end) /\ stop s = false
}.

Ltac dstate s := destruct s as [p t b r g c dl]; cbn [pc st stop registered signalled clock deadline] in *.

Lemma step_inv d t0 s w s' : inv d t0 s -> sstep d s w s' -> inv d t0 s'.
Proof.
  intros [A B C D E F] H. dstate s. inversion H; clear H; cbn [pc st stop registered signalled clock deadline] in *; subst; constructor;
    cbn [goto pc st stop registered signalled clock deadline] in *;
    try (destruct b; cbn [negb] in *); try (destruct r); try (destruct t); try (destruct (dl <=? c) eqn:Q);
    try (destruct p); intuition (auto; try lia; try congruence).
Qed.

Lemma exec_inv d t0 s ws s' : inv d t0 s -> sexec d s ws s' -> inv d t0 s'.
Proof. intros I H. revert I. induction H; intros; auto. apply IHsexec. eapply step_inv; eauto. Qed.

Lemma init_inv d t0 (was : bool) : inv d t0 (sinit t0 was).
Proof. constructor; destruct was; cbn; intuition (auto; try lia; try congruence). Qed.

(** *** Ranks: no cycle of steps can go on for ever *)

(** The steps of the threads, without the passage of time. *)
Definition moves (ws : list who) : nat := length (filter (fun w => match w with Time => false | _ => true end) ws).

Definition trank (t : tpc) : nat := match t with TIdle => 2 | TRun => 1 | TDone => 0 end.
Definition rank_late (s : sstate) : nat :=
  trank (st s) + match pc s with PReg => 7 | PEnter => 6 | PCheck => 5 | PBlock => 4 | PWait => 3 | PLast => 2 | PDereg => 1 | PDone => 0 end.
Definition rank_stop (s : sstate) : nat :=
  trank (st s) + match pc s with PReg => 4 | PEnter => 3 | PCheck => 2 | PBlock => 4 | PWait => 3 | PLast => 2 | PDereg => 1 | PDone => 0 end.

(** The deadline of [wait_for] is known and has passed. *)
Definition late (s : sstate) : Prop :=
  match pc s with PReg | PEnter => False | _ => deadline s <= clock s end.

Lemma late_step d t0 s w s' : inv d t0 s -> sstep d s w s' -> late s ->
  late s' /\ moves [w] + rank_late s' <= rank_late s.
Proof.
  intros [A B C D E F] H L. unfold late, rank_late in *. dstate s.
  inversion H; clear H; cbn [pc st stop registered signalled clock deadline] in *; subst;
    cbn in *; try (destruct b; cbn [negb] in *); try (destruct r); try (destruct t); try (destruct (dl <=? c) eqn:Q);
    try (destruct p); cbn in *; intuition (auto; try lia; try congruence).
Qed.

Lemma late_exec d t0 s ws s' : inv d t0 s -> sexec d s ws s' -> late s -> moves ws <= rank_late s.
Proof.
  intros I H. revert I. induction H as [|s w s1 ws s2 ST EX IH]; intros I L; [cbn; lia|].
  destruct (late_step _ _ _ _ _ I ST L) as [L1 M]. specialize (IH (step_inv _ _ _ _ _ I ST) L1).
  unfold moves in *. change (w :: ws) with ([w] ++ ws). rewrite filter_app, app_length. lia.
Qed.

Lemma stop_step d t0 s w s' : inv d t0 s -> sstep d s w s' -> stop s = true ->
  stop s' = true /\ moves [w] + rank_stop s' <= rank_stop s.
Proof.
  intros [A B C D E F] H L. unfold rank_stop in *. dstate s.
  inversion H; clear H; cbn [pc st stop registered signalled clock deadline] in *; subst;
    cbn in *; try (destruct r); try (destruct t); try (destruct (dl <=? c) eqn:Q);
    try (destruct p); cbn in *; intuition (auto; try lia; try congruence).
Qed.

Lemma stop_exec d t0 s ws s' : inv d t0 s -> sexec d s ws s' -> stop s = true -> stop s' = true /\ moves ws <= rank_stop s.
Proof.
  intros I H. revert I. induction H as [|s w s1 ws s2 ST EX IH]; intros I L; [cbn; split; auto; lia|].
  destruct (stop_step _ _ _ _ _ I ST L) as [L1 M]. destruct (IH (step_inv _ _ _ _ _ I ST) L1).
  unfold moves in *. change (w :: ws) with ([w] ++ ws). rewrite filter_app, app_length. split; auto; lia.
Qed.

(** *** Executions in which the notification is not made between the check and the wait *)

Definition too_early (s : sstate) (w : who) : Prop := st s = TRun /\ pc s = PBlock /\ w = Stopper.

Inductive pexec (d : nat) : sstate -> list who -> sstate -> Prop :=
| PNil s : pexec d s [] s
| PCons s w s' ws s'' : ~ too_early s w -> sstep d s w s' -> pexec d s' ws s'' -> pexec d s (w :: ws) s''.

Lemma pexec_sexec d s ws s' : pexec d s ws s' -> sexec d s ws s'.
Proof. induction 1; econstructor; eauto. Qed.

Definition pinv (s : sstate) : Prop :=
  match pc s with
  | PWait => stop s = true -> signalled s = true \/ st s = TRun
  | PBlock => stop s = true -> st s = TRun
  | _ => True end.

Lemma pinv_step d t0 s w s' : inv d t0 s -> pinv s -> ~ too_early s w -> sstep d s w s' -> pinv s'.
Proof.
  intros [A B C D E F] P T H. unfold pinv, too_early in *. dstate s.
  inversion H; clear H; cbn [pc st stop registered signalled clock deadline] in *; subst;
    cbn in *; try (destruct b; cbn [negb] in *); try (destruct r); try (destruct t); try (destruct (dl <=? c) eqn:Q);
    try (destruct p); cbn in *; intuition (auto; try lia; try congruence).
Qed.

Lemma pinv_exec d t0 s ws s' : inv d t0 s -> pinv s -> pexec d s ws s' -> pinv s'.
Proof.
  intros I P H. revert I P. induction H; intros; auto. apply IHpexec.
  - eapply step_inv; eauto.
  - eapply pinv_step; eauto.
Qed.

Lemma sleeper_enabled d t0 s : inv d t0 s -> pc s <> PWait -> pc s <> PDone ->
  exists w s', sstep d s w s' /\ (w = Sleeper \/ w = Stopper).
Proof.
  intros I N1 N2. destruct (pc s) eqn:P; try congruence.
  - eexists; eexists; split; [now apply StReg|auto].
  - eexists; eexists; split; [now apply StEnter|auto].
  - eexists; eexists; split; [now apply StCheck|auto].
  - eexists; eexists; split; [now apply StBlock|auto].
  - eexists; eexists; split; [now apply StLast|auto].
  - destruct (st s) eqn:T; [| |].
    + eexists; eexists; split; [apply StDereg; congruence|auto].
    + eexists; eexists; split; [apply StNotify; congruence|auto].
    + eexists; eexists; split; [apply StDereg; congruence|auto].
Qed.

(** *** The lost notification *)
Definition lost (d : nat) (s : sstate) : Prop :=
  stop s = true /\ st s = TDone /\ pc s = PWait /\ signalled s = false /\ deadline s = d.

Lemma lost_exec d s ws s' : lost d s -> sexec d s ws s' -> ~ In Spurious ws ->
  lost d s' \/ d <= clock s'.
Proof.
  intros L H. revert L. induction H as [|s w s1 ws s2 ST EX IH]; intros L NS; [auto|].
  assert (mono : forall a ws b, sexec d a ws b -> clock a <= clock b).
  { clear. induction 1; [lia|]. etransitivity; [|exact IHsexec]. inversion H; cbn; lia. }
  destruct (Nat.le_gt_cases d (clock s)) as [C|C].
  { right. specialize (mono _ _ _ EX). assert (clock s <= clock s1) by (inversion ST; cbn; lia). lia. }
  apply IH; [|intros I; apply NS; now right].
  unfold lost in *. dstate s. destruct L as (-> & -> & -> & -> & ->).
  inversion ST; subst; cbn in *; try congruence; try lia; auto 10.
  exfalso. apply NS. now left.
Qed.

(** ** Theorems *)

(** Whenever [sleep_for] has returned, the duration has elapsed or stop has been requested. *)
Theorem sleep_reason_partial d t0 was ws s : sexec d (sinit t0 was) ws s -> pc s = PDone ->
  stop s = true \/ t0 + d <= clock s.
Proof.
  intros E P. destruct (exec_inv _ _ _ _ _ (init_inv d t0 was) E) as [A B C D _ _]. rewrite P in *.
  destruct C; [auto|right; lia].
Qed.
Print Assumptions sleep_reason_partial.

(** The callback never uses the condition variable of a call that has returned. *)
Theorem sleep_no_dangling d t0 was ws s : sexec d (sinit t0 was) ws s -> ~ In Bad ws.
Proof.
  intros E. cut (forall s0, inv d t0 s0 -> sexec d s0 ws s -> ~ In Bad ws).
  { intros H. apply (H _ (init_inv d t0 was) E). }
  clear E. intros s0 I E. revert I. induction E as [|s0 w s1 ws s2 ST EX IH]; intros I; [auto|].
  intros [->|J].
  - inversion ST; subst. destruct I as [_ _ _ D _ _]. specialize (D H). now rewrite H0 in D.
  - exact (IH (step_inv _ _ _ _ _ I ST) J).
Qed.
Print Assumptions sleep_no_dangling.

(** Once the deadline has passed, [sleep_for] returns after at most 7 steps of the threads, whatever
    the schedule is: no schedule is longer, and a thread that has not returned is never stuck. *)
Theorem sleep_ends_at_deadline_partial d t0 was ws s : sexec d (sinit t0 was) ws s -> late s ->
  forall ws' s', sexec d s ws' s' ->
    moves ws' <= 7 /\ (pc s' = PDone \/ exists w s'', sstep d s' w s'' /\ (w = Sleeper \/ w = Stopper \/ w = Timer)).
Proof.
  intros E L ws' s' E'. pose proof (exec_inv _ _ _ _ _ (init_inv d t0 was) E) as I. split.
  - pose proof (late_exec _ _ _ _ _ I E' L). unfold late, rank_late in *. dstate s. destruct p, t; cbn in *; try tauto; lia.
  - pose proof (exec_inv _ _ _ _ _ I E') as I'.
    assert (L' : late s').
    { clear E I'. revert I L. induction E'; intros; auto. apply IHE'.
      - eapply step_inv; eauto.
      - eapply late_step; eauto. }
    destruct (pc s') eqn:P; auto; right.
    1-4, 6-7: destruct (sleeper_enabled _ _ _ I' ltac:(congruence) ltac:(congruence)) as (w & s'' & ST & [W|W]); eauto 10.
    unfold late in L'. rewrite P in L'. eexists; eexists; split; [now apply StTimer|auto].
Qed.
Print Assumptions sleep_ends_at_deadline_partial.

(** If the notification does not fall between the check of the predicate and the wait, then after
    stop has been requested [sleep_for] returns after at most 5 steps without waiting for a timer:
    in every schedule a thread that has not returned can go on at once. *)
Theorem sleep_prompt_partial d t0 was ws s : pexec d (sinit t0 was) ws s -> stop s = true ->
  forall ws' s', pexec d s ws' s' ->
    moves ws' <= 5 /\ (pc s' = PDone \/ exists w s'', sstep d s' w s'' /\ (w = Sleeper \/ w = Stopper)).
Proof.
  intros E ST ws' s' E'. pose proof (exec_inv _ _ _ _ _ (init_inv d t0 was) (pexec_sexec _ _ _ _ E)) as I.
  destruct (stop_exec _ _ _ _ _ I (pexec_sexec _ _ _ _ E') ST) as [ST' M]. split.
  - destruct I as [_ _ _ D F _]. unfold rank_stop in M. dstate s. destruct p, t; cbn in *; intuition (try congruence; try lia).
  - pose proof (exec_inv _ _ _ _ _ I (pexec_sexec _ _ _ _ E')) as I'.
    assert (P' : pinv s').
    { eapply (pinv_exec d t0 s); eauto. eapply (pinv_exec d t0 (sinit t0 was)); eauto; [apply init_inv|]. exact Logic.I. }
    destruct (pc s') eqn:P; auto; right.
    1-4, 6-7: destruct (sleeper_enabled _ _ _ I' ltac:(congruence) ltac:(congruence)) as (w & s'' & SS & [W|W]); eauto 10.
    unfold pinv in P'. rewrite P in P'. destruct (P' ST') as [G|T].
    + eexists; eexists; split; [now apply StWake|auto].
    + eexists; eexists; split; [apply StNotify; congruence|auto].
Qed.
Print Assumptions sleep_prompt_partial.

(** Violated: for every duration [d] there is a schedule in which stop is requested at the time 0,
    [request_stop] has returned, and from then on [sleep_for] returns at the time [d] at the earliest,
    unless there is a spurious wake-up. *)
Theorem sleep_lost_wakeup_refuted : forall d, exists ws s, sexec d (sinit 0 false) ws s /\ clock s = 0 /\
  stop s = true /\ st s = TDone /\
  forall ws' s', sexec d s ws' s' -> ~ In Spurious ws' -> pc s' = PDone -> d <= clock s'.
Proof.
  intros d. exists [Sleeper; Sleeper; Sleeper; Stopper; Stopper; Sleeper].
  eexists (SState PWait TDone true false false 0 d). split; [|repeat split].
  - unfold sinit.
    eapply SCons; [now apply StReg|]. eapply SCons; [now apply StEnter|]. eapply SCons; [now apply StCheck|]. cbn.
    eapply SCons; [now apply StStop|]. cbn. eapply SCons; [now apply StNotify|]. cbn.
    eapply SCons; [now apply StBlock|]. cbn. apply SNil.
  - intros ws' s' E NS P. destruct (lost_exec d (SState PWait TDone true false false 0 d) ws' s') as [L|L]; auto.
    + repeat split.
    + destruct L as (_ & _ & P' & _). congruence.
Qed.
Print Assumptions sleep_lost_wakeup_refuted.

(** The good case: stop is requested while the sleeper waits, it returns at the time 1 of 100. *)
Example sleep_demo : pexec 100 (sinit 0 false)
  [Sleeper; Sleeper; Sleeper; Sleeper; Time; Stopper; Stopper; Sleeper; Sleeper; Sleeper]
  (SState PDone TDone true false true 1 100).
Proof.
  unfold sinit. assert (T : forall s w, pc s <> PBlock -> ~ too_early s w) by (intros s w N (_ & Q & _); auto).
  eapply PCons; [|now apply StReg|]; [apply T; discriminate|]. cbn.
  eapply PCons; [|now apply StEnter|]; [apply T; discriminate|]. cbn.
  eapply PCons; [|now apply StCheck|]; [apply T; discriminate|]. cbn.
  eapply PCons; [|now apply StBlock|]; [intros (_ & _ & Q); discriminate|]. cbn.
  eapply PCons; [|apply (StTime _ _ 1); cbn; lia|]; [apply T; discriminate|]. cbn.
  eapply PCons; [|now apply StStop|]; [apply T; discriminate|]. cbn.
  eapply PCons; [|now apply StNotify|]; [apply T; discriminate|]. cbn.
  eapply PCons; [|now apply StWake|]; [apply T; discriminate|]. cbn.
  eapply PCons; [|now apply StCheck|]; [apply T; discriminate|]. cbn.
  eapply PCons; [|now apply StDereg|]; [apply T; discriminate|]. cbn.
  apply PNil.
Qed.
