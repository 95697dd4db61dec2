(** C103: the watch_dog with the sleep_for it calls. *)
From Coq Require Import ZifyBool ZifyNat.
From Verif Require Import Common SleepModel SleepProps WatchDogModel WatchDogProps WdSleepModel.

(** What an observer with a clock sees of a state: the state of WatchDogModel.v in which the timeout has elapsed if [d] has
    passed since the thread has begun to sleep. *)
Definition seen (d : nat) (c : wds) : wd :=
  let w := dogst c in
  WD (who w) (thr w) (cancel w) (match who w with OSource => false | _ => begun c + d <=? clock (slp c) end)
     (tstop w) (stopped w) (logs w) (bad_log w).

(** ** The invariant *)
Record dinv (d : nat) (c : wds) : Prop := DInv {
  d_sleep : inv d (begun c) (slp c);
  d_elapsed : elapsed (dogst c) = false;
  d_stop : stop (slp c) = tstop (dogst c);
  d_source : who (dogst c) = OSource -> slp c = SState PReg TIdle false false false (clock (slp c)) 0 /\ thr (dogst c) = DNone;
  d_awake : match thr (dogst c) with DNone | DSleep => True | _ => pc (slp c) = PDone end;
  d_req : tstop (dogst c) = match who (dogst c) with OStopping | OThreadGone => true | _ => false end
}.

Lemma wstep_seen s s' e : wstep s s' -> who s <> OSource -> elapsed s = false -> elapsed s' = elapsed s ->
  (thr s = DSleep -> thr s' = DSleep) ->
  wstep (WD (who s) (thr s) (cancel s) e (tstop s) (stopped s) (logs s) (bad_log s))
        (WD (who s') (thr s') (cancel s') e (tstop s') (stopped s') (logs s') (bad_log s')).
Proof.
  intros H N F E T. destruct H as [s A|s A|s A|s A|s A|s A|s A B|s A|s A B|s A|s A|s A|s A|s A];
    cbn [who thr cancel elapsed tstop stopped logs bad_log] in *.
  - congruence.
  - now apply (WCallback (WD (who s) (thr s) (cancel s) e (tstop s) (stopped s) (logs s) (bad_log s))).
  - now apply (WReady (WD (who s) (thr s) (cancel s) e (tstop s) (stopped s) (logs s) (bad_log s))).
  - now apply (WDestroyLog (WD (who s) (thr s) (cancel s) e (tstop s) (stopped s) (logs s) (bad_log s))).
  - now apply (WDestroyCallback (WD (who s) (thr s) (cancel s) e (tstop s) (stopped s) (logs s) (bad_log s))).
  - now apply (WRequest (WD (who s) (thr s) (cancel s) e (tstop s) (stopped s) (logs s) (bad_log s))).
  - now apply (WJoin (WD (who s) (thr s) (cancel s) e (tstop s) (stopped s) (logs s) (bad_log s))).
  - congruence.
  - specialize (T A). discriminate.
  - now apply (WCheck (WD (who s) (thr s) (cancel s) e (tstop s) (stopped s) (logs s) (bad_log s))).
  - now apply (WLog (WD (who s) (thr s) (cancel s) e (tstop s) (stopped s) (logs s) (bad_log s))).
  - now apply (WStop (WD (who s) (thr s) (cancel s) e (tstop s) (stopped s) (logs s) (bad_log s))).
  - now apply (WCancel (WD (who s) (thr s) (cancel s) e (tstop s) (stopped s) (logs s) (bad_log s))).
  - now apply (WCancelled (WD (who s) (thr s) (cancel s) e (tstop s) (stopped s) (logs s) (bad_log s))).
Qed.

Lemma wsteps_one s a b : wsteps s a -> wstep a b -> wsteps s b.
Proof. intros. econstructor; eauto. Qed.

Ltac dcbn := cbn [dogst slp begun who thr cancel elapsed tstop stopped logs bad_log pc st stop SleepModel.registered signalled clock deadline set_thr] in *.

Lemma dinv_init d t : dinv d (wds_init t).
Proof. split; cbn; auto. apply init_inv. Qed.

Lemma aside_inv s s' : aside s s' -> elapsed s = false -> (who s = OSource -> thr s = DNone) ->
  elapsed s' = false /\ tstop s' = tstop s /\ (who s' = OSource <-> who s = OSource) /\
  (who s' = OThreadGone <-> who s = OThreadGone) /\ (who s' = OStopping <-> who s = OStopping) /\
  (thr s' = DSleep <-> thr s = DSleep) /\ (who s <> OSource \/ thr s <> DNone -> thr s' = DNone <-> thr s = DNone) /\ (who s = OSource -> thr s = DNone -> thr s' = DNone).
Proof.
  intros [(H & A1 & A2 & A3 & A4 & A5)|(H & A1 & A2)] E N;
    destruct H as [s A|s A|s A|s A|s A|s A|s A B|s A|s A B|s A|s A|s A|s A|s A]; dcbn; try congruence; try (specialize (N A1); congruence);
    rewrite ?A in *; try (specialize (A2 eq_refl); discriminate); try (specialize (A3 eq_refl); discriminate);
    try (specialize (A4 eq_refl); discriminate); try (destruct (tstop s)); intuition congruence.
Qed.

Lemma dinv_step d c a c' : dinv d c -> dstep d c a c' -> dinv d c'.
Proof.
  intros [I1 I2 I3 I4 I5 I6] H. destruct H as [c A|c w' A|c s' A B|c s' A B|c s' A B|c s' A|c A B|c s' A B|c s' A B|c A B C]; dcbn.
  - destruct (I4 A) as [Es Et]. split; dcbn; auto.
    + apply init_inv.
    + cbn. rewrite <- I3, Es. reflexivity.
    + discriminate.
    + rewrite A in I6. auto.
  - destruct (aside_inv _ _ A I2 (fun e => proj2 (I4 e))) as (B1 & B2 & B3 & B4 & B5 & B6 & B7 & B8). split; dcbn; auto.
    + congruence.
    + intros E. apply B3 in E. destruct (I4 E). auto.
    + destruct (thr (dogst c)) eqn:T; destruct (thr w') eqn:T'; auto;
        destruct (who (dogst c)) eqn:W; try (exfalso; clear - B6 B7 B8 T; intuition congruence); exfalso; destruct (I4 eq_refl); congruence.
    + rewrite B2, I6. destruct (who (dogst c)), (who w'); intuition congruence.
  - split; dcbn; auto.
    + eapply step_inv; eauto.
    + rewrite <- I3. inversion B; subst; reflexivity.
    + intros E. destruct (I4 E). congruence.
    + now rewrite A.
  - split; dcbn; auto.
    + eapply step_inv; eauto.
    + rewrite <- I3. inversion B; subst; reflexivity.
    + intros E. destruct (I4 E). congruence.
    + now rewrite A.
  - split; dcbn; auto.
    + eapply step_inv; eauto.
    + rewrite <- I3. inversion B; subst; reflexivity.
    + intros E. destruct (I4 E). congruence.
    + now rewrite A.
  - split; dcbn; auto.
    + eapply step_inv; eauto.
    + rewrite <- I3. inversion A; subst; reflexivity.
    + intros E. destruct (I4 E) as [Es Et]. split; auto. inversion A; subst. rewrite Es. reflexivity.
    + inversion A; subst; dcbn. exact I5.
  - split; dcbn; auto. intros E. destruct (I4 E). congruence.
  - split; dcbn; auto.
    + eapply step_inv; eauto.
    + rewrite A in I6. assert (S : st (slp c) = TIdle) by (apply (i_stop _ _ _ I1); congruence).
      inversion B; subst; dcbn; congruence.
    + discriminate.
    + inversion B; subst; dcbn; exact I5.
  - rewrite A in I6. split; dcbn; auto.
    + eapply step_inv; eauto.
    + inversion B; subst; dcbn; congruence.
    + congruence.
    + inversion B; subst; dcbn; exact I5.
    + now rewrite A.
  - rewrite A in I6. split; dcbn; auto. discriminate.
Qed.

Lemma seen_step d c a c' : dinv d c -> dstep d c a c' -> forall w, wsteps w (seen d c) -> wsteps w (seen d c').
Proof.
  intros [I1 I2 I3 I4 I5 I6] H w Hw. unfold seen in *. destruct H as [c A|c w' A|c s' A B|c s' A B|c s' A B|c s' A|c A B|c s' A B|c s' A B|c A B C]; dcbn.
  - match type of Hw with wsteps _ ?x => pose proof (wsteps_one _ x _ Hw (WThread x A)) as G end. dcbn. rewrite A in G.
    destruct (clock (slp c) + d <=? clock (sinit (clock (slp c)) false)); [|exact G].
    match type of G with wsteps _ ?x => pose proof (wsteps_one _ x _ G (WElapse x ltac:(discriminate))) as G' end. exact G'.
  - destruct (aside_inv _ _ A I2 (fun e => proj2 (I4 e))) as (B1 & B2 & B3 & B4 & B5 & B6 & B7 & B8).
    destruct A as [(H & A1 & A2 & A3 & A4 & A5)|(H & A1 & A2)].
    + eapply wsteps_one; [exact Hw|].
      assert (Q : match who w' with OSource => false | _ => begun c + d <=? clock (slp c) end = (begun c + d <=? clock (slp c))) by (destruct (who w'); auto; exfalso; intuition congruence).
      assert (Q' : match who (dogst c) with OSource => false | _ => begun c + d <=? clock (slp c) end = (begun c + d <=? clock (slp c))) by (destruct (who (dogst c)); auto; congruence).
      rewrite Q, Q'. apply wstep_seen; auto.
    + rewrite A1 in Hw. rewrite A2. destruct (I4 A1) as [_ Et]. eapply wsteps_one; [exact Hw|].
      destruct H as [s A|s A|s A|s A|s A|s A|s A B|s A|s A B|s A|s A|s A|s A|s A]; dcbn; try congruence.
      * rewrite A2 in *. apply (WCancel (WD OSource (thr s) (cancel s) false (tstop s) (stopped s) (logs s) (bad_log s))). exact A.
      * pose proof (WCancelled (WD OSource (thr s) (cancel s) false (tstop s) (stopped s) (logs s) (bad_log s)) A) as G. dcbn. unfold registered in *. dcbn. rewrite A1. exact G.
  - replace (clock s') with (clock (slp c)) by (inversion B; subst; reflexivity). exact Hw.
  - replace (clock s') with (clock (slp c)) by (inversion B; subst; reflexivity). exact Hw.
  - replace (clock s') with (clock (slp c)) by (inversion B; subst; reflexivity). exact Hw.
  - assert (C : clock (slp c) <= clock s') by (inversion A; subst; dcbn; auto).
    destruct (who (dogst c)) eqn:W; try exact Hw.
    all: destruct (begun c + d <=? clock s') eqn:E; [|replace (begun c + d <=? clock (slp c)) with false in Hw by lia; exact Hw].
    all: match type of Hw with wsteps _ ?x => pose proof (wsteps_one _ x _ Hw (WElapse x ltac:(discriminate))) as G end; exact G.
  - assert (W : who (dogst c) <> OSource) by (intros E; destruct (I4 E); congruence).
    eapply wsteps_one; [exact Hw|]. apply (WWake (seen d c)); unfold seen; dcbn; auto.
    pose proof (i_block _ _ _ I1) as S. pose proof (i_dead _ _ _ I1) as D. rewrite B in *. destruct S as [S|S]; [right; congruence|].
    left. destruct (who (dogst c)); try congruence; lia.
  - replace (clock s') with (clock (slp c)) by (inversion B; subst; reflexivity).
    match type of Hw with wsteps _ ?x => pose proof (wsteps_one _ x _ Hw (WRequest x A)) as G end. dcbn. rewrite A in G. exact G.
  - replace (clock s') with (clock (slp c)) by (inversion B; subst; reflexivity). exact Hw.
  - match type of Hw with wsteps _ ?x => pose proof (wsteps_one _ x _ Hw (WJoin x A C)) as G end. dcbn. rewrite A in G. exact G.
Qed.

Lemma dexec_inv d c l c' : dinv d c -> dexec d c l c' -> dinv d c'.
Proof. intros I H. revert I. induction H; intros; auto. apply IHdexec. eapply dinv_step; eauto. Qed.

Lemma dexec_seen d c l c' : dinv d c -> dexec d c l c' -> forall w, wsteps w (seen d c) -> wsteps w (seen d c').
Proof.
  intros I H. revert I. induction H as [c|c a c1 l c2 S E IH]; intros I w Hw; auto.
  apply IH; [eapply dinv_step; eauto|]. eapply seen_step; eauto.
Qed.

(** ** Theorems, for every interleaving *)

(** The watch_dog with the real sleep_for does nothing that the watch_dog of WatchDogModel.v cannot do. *)
Theorem wd_sleep_refines d t l c : dexec d (wds_init t) l c -> wsteps wd_init (seen d c).
Proof.
  intros H. eapply dexec_seen; [apply dinv_init|exact H|]. cbn. apply WNil.
Qed.

(** So the token is stopped only when the timeout has passed on the clock, the parent has been stopped or the watch_dog is being
    destroyed; the log function is called at most once and not before the timeout has passed; when the destructor has joined
    the thread it has ended. *)
Theorem wd_sleep_safe d t l c : dexec d (wds_init t) l c ->
  (stopped (dogst c) = true ->
     (who (dogst c) <> OSource /\ begun c + d <= clock (slp c)) \/ parent_stopped (dogst c) = true \/ destroying (dogst c) = true) /\
  logs (dogst c) <= 1 /\ (logs (dogst c) = 1 -> begun c + d <= clock (slp c)) /\
  (who (dogst c) = OThreadGone -> thr (dogst c) = DExit /\ stopped (dogst c) = true /\ pc (slp c) = PDone).
Proof.
  intros H. pose proof (wd_sleep_refines _ _ _ _ H) as R. pose proof (dexec_inv _ _ _ _ (dinv_init d t) H) as I.
  assert (Q : elapsed (seen d c) = true -> who (dogst c) <> OSource /\ begun c + d <= clock (slp c)).
  { unfold seen; cbn [elapsed]. destruct (who (dogst c)); try discriminate; intros E; (split; [discriminate|lia]). }
  split; [|split; [|split]].
  - intros S. destruct (watch_dog_stop_cause _ R S) as [A|[A|A]]; auto.
  - apply (watch_dog_log_once _ R).
  - intros L. apply Q. apply (watch_dog_log_once _ R). exact L.
  - intros W. destruct (proj1 (watch_dog_destroyed _ R) W) as [A B]. split; [exact A|]. split; [exact B|].
    pose proof (d_awake _ _ I) as D. change (thr (dogst c) = DExit) in A. now rewrite A in D.
Qed.

(** The destructor of the jthread never calls a callback of a sleep_for that has returned. *)
Theorem wd_sleep_no_dangling d t l c : dexec d (wds_init t) l c -> forall s', ~ sstep d (slp c) Bad s'.
Proof.
  intros H s' B. pose proof (d_sleep _ _ (dexec_inv _ _ _ _ (dinv_init d t) H)) as I.
  inversion B; subst. pose proof (i_run _ _ _ I H0) as R. now rewrite H1 in R.
Qed.

(** *** The destructor *)

(** The steps of the thread and of request_stop. *)
Definition work (l : list agent) : nat := length (filter (fun a => match a with ADog | AStopper => true | _ => false end) l).

Definition drank (c : wds) : nat :=
  rank_late (slp c) + match thr (dogst c) with DNone => 5 | DSleep => 4 | DWoken => 3 | DLog => 2 | DStop => 1 | DExit => 0 end.

Lemma drank_step d c a c' : dinv d c -> dstep d c a c' -> late (slp c) -> who (dogst c) <> OSource -> work [a] + drank c' <= drank c /\ late (slp c') /\ who (dogst c') <> OSource.
Proof.
  intros [I1 I2 I3 I4 I5 I6] H L N. unfold drank. destruct H as [c A|c w' A|c s' A B|c s' A B|c s' A B|c s' A|c A B|c s' A B|c s' A B|c A B C]; dcbn.
  - congruence.
  - destruct (aside_inv _ _ A I2 (fun e => proj2 (I4 e))) as (B1 & B2 & B3 & B4 & B5 & B6 & B7 & B8).
    split; [|split; [exact L|intuition congruence]].
    destruct A as [(H & A1 & A2 & A3 & A4 & A5)|(H & A1 & A2)]; [|congruence].
    destruct H as [s A|s A|s A|s A|s A|s A|s A B|s A|s A B|s A|s A|s A|s A|s A]; dcbn; try rewrite A in *; try congruence;
      try (destruct (tstop s)); try (destruct (thr s)); cbn; lia.
  - destruct (late_step _ _ _ _ _ I1 B L) as [L' R]. split; [|auto]. unfold work, moves in *. cbn in *. lia.
  - destruct (late_step _ _ _ _ _ I1 B L) as [L' R]. split; [|auto]. unfold work, moves in *. cbn in *. lia.
  - destruct (late_step _ _ _ _ _ I1 B L) as [L' R]. split; [|auto]. unfold work, moves in *. cbn in *. lia.
  - destruct (late_step _ _ _ _ _ I1 A L) as [L' R]. split; [|auto]. unfold work, moves in *. cbn in *. lia.
  - split; [|auto]. rewrite A. cbn. lia.
  - destruct (late_step _ _ _ _ _ I1 B L) as [L' R]. split; [|split; [auto|discriminate]]. unfold work, moves in *. cbn in *. lia.
  - destruct (late_step _ _ _ _ _ I1 B L) as [L' R]. split; [|auto]. unfold work, moves in *. cbn in *. lia.
  - split; [|split; [auto|discriminate]]. cbn. lia.
Qed.

Lemma drank_exec d c l c' : dinv d c -> dexec d c l c' -> late (slp c) -> who (dogst c) <> OSource -> work l <= drank c.
Proof.
  intros I H. revert I. induction H as [c|c a c1 l c2 S E IH]; intros I L N; [cbn; lia|].
  destruct (drank_step _ _ _ _ I S L N) as (R & L1 & N1). specialize (IH (dinv_step _ _ _ _ I S) L1 N1).
  unfold work in *. change (a :: l) with ([a] ++ l). rewrite filter_app, app_length. lia.
Qed.

Lemma dog_alive d t l c : dexec d (wds_init t) l c -> who (dogst c) = OStopping -> thr (dogst c) <> DNone.
Proof.
  intros H W E. pose proof (w_sleep _ (winv_steps _ (wd_sleep_refines _ _ _ _ H))) as A.
  unfold seen in A. dcbn. rewrite E in A. congruence.
Qed.

(** In the destructor only a thread that waits in sleep_for can prevent a step. *)
Lemma destroying_enabled d c : dinv d c -> who (dogst c) = OStopping -> thr (dogst c) <> DNone ->
  (pc (slp c) = PWait -> deadline (slp c) <= clock (slp c) \/ signalled (slp c) = true \/ st (slp c) = TRun) ->
  exists a c', dstep d c a c' /\ (a = ADog \/ a = AStopper \/ who (dogst c') = OThreadGone).
Proof.
  intros [I1 I2 I3 I4 I5 I6] W N P. rewrite W in I6. assert (S : st (slp c) <> TIdle) by (rewrite (i_stop _ _ _ I1); congruence).
  assert (AS : forall w', wstep (dogst c) w' -> who w' = OStopping -> elapsed w' = elapsed (dogst c) -> (thr (dogst c) = DSleep -> thr w' = DSleep) -> aside (dogst c) w').
  { intros w' X1 X2 X3 X4. left. rewrite W. repeat split; auto; congruence. }
  destruct (thr (dogst c)) eqn:T; try congruence.
  - destruct (pc (slp c)) eqn:Q.
    5: { destruct (P eq_refl) as [L|[G|R]].
         - eexists; eexists. split; [eapply DgTimer; [auto|apply StTimer; auto]|auto].
         - eexists; eexists. split; [eapply DgSleep; [auto|apply StWake; auto]|auto].
         - eexists; eexists. split; [eapply DgNotify; [auto|apply StNotify; congruence]|auto]. }
    7: { eexists; eexists. split; [apply DgWake; auto|auto]. }
    all: destruct (sleeper_enabled d _ _ I1) as (a & s' & St & [->| ->]); try congruence;
      [exists ADog; eexists; split; [eapply DgSleep; eauto|auto]|exists AStopper; eexists; split; [eapply DgNotify; eauto|auto]].
  - eexists; eexists. split; [apply DgAside; apply AS; [apply WCheck; auto| | |]; dcbn; auto; congruence|].
    dcbn. rewrite T. left. destruct (tstop (dogst c)); reflexivity.
  - eexists; eexists. split; [apply DgAside; apply AS; [apply WLog; auto| | |]; dcbn; auto; congruence|].
    dcbn. rewrite T. now left.
  - eexists; eexists. split; [apply DgAside; apply AS; [apply WStop; auto| | |]; dcbn; auto; congruence|].
    dcbn. rewrite T. now left.
  - eexists; eexists. split; [apply DgJoin; auto|now right; right].
    destruct (st (slp c)) eqn:E; auto; try congruence. pose proof (i_run _ _ _ I1 E) as R. now rewrite I5 in R.
Qed.

(** When request_stop of the destructor has been called and the deadline of sleep_for has passed, somebody can make a step until the
    thread has been joined, without a spurious wake-up and without the clock; and the thread and request_stop make at most
    ten steps more.  So the destructor takes at most what is left of the timeout. *)
Theorem wd_sleep_destroyed d t l c : dexec d (wds_init t) l c -> who (dogst c) = OStopping -> late (slp c) ->
  (exists a c', dstep d c a c' /\ (a = ADog \/ a = AStopper \/ who (dogst c') = OThreadGone)) /\
  (forall l' c', dexec d c l' c' -> work l' <= 10).
Proof.
  intros H W L. pose proof (dexec_inv _ _ _ _ (dinv_init d t) H) as I. split.
  - apply destroying_enabled; auto; [eapply dog_alive; eauto|]. intros Q. unfold late in L. rewrite Q in L. now left.
  - intros l' c' E. pose proof (drank_exec _ _ _ _ I E L ltac:(congruence)) as R. etransitivity; [exact R|].
    destruct I as [I1 I2 I3 I4 I5 I6]. rewrite W in I6. assert (S : st (slp c) <> TIdle) by (rewrite (i_stop _ _ _ I1); congruence).
    pose proof (i_run _ _ _ I1) as RR. pose proof (dog_alive _ _ _ _ H W) as A.
    unfold drank, rank_late, late in *. destruct (pc (slp c)), (st (slp c)), (thr (dogst c)); cbn; try congruence; try tauto; try lia.
Qed.

(** *** Without the lost notification *)

(** An execution in which request_stop does not call the callback of sleep_for between the check of the predicate and the wait. *)
Inductive cexec (d : nat) : wds -> list agent -> wds -> Prop :=
| CNil c : cexec d c [] c
| CCons c a c' l c'' : ~ (a = AStopper /\ st (slp c) = TRun /\ pc (slp c) = PBlock) -> dstep d c a c' -> cexec d c' l c'' -> cexec d c (a :: l) c''.

Lemma cexec_dexec d c l c' : cexec d c l c' -> dexec d c l c'.
Proof. induction 1; econstructor; eauto. Qed.

Lemma pinv_dstep d c a c' : dinv d c -> pinv (slp c) -> ~ (a = AStopper /\ st (slp c) = TRun /\ pc (slp c) = PBlock) -> dstep d c a c' -> pinv (slp c').
Proof.
  intros [I1 I2 I3 I4 I5 I6] P N H. destruct H as [c A|c w' A|c s' A B|c s' A B|c s' A B|c s' A|c A B|c s' A B|c s' A B|c A B C]; dcbn; auto.
  - exact I.
  - eapply pinv_step; eauto. unfold too_early. intuition discriminate.
  - eapply pinv_step; eauto. unfold too_early. intuition discriminate.
  - eapply pinv_step; eauto. unfold too_early. intuition discriminate.
  - eapply pinv_step; eauto. unfold too_early. intuition discriminate.
  - eapply pinv_step; eauto. unfold too_early. intuition discriminate.
  - eapply pinv_step; eauto. unfold too_early. intuition discriminate.
Qed.

Lemma pinv_cexec d c l c' : dinv d c -> pinv (slp c) -> cexec d c l c' -> pinv (slp c').
Proof.
  intros I P H. revert I P. induction H; intros; auto. apply IHcexec; [eapply dinv_step|eapply pinv_dstep]; eauto.
Qed.

Definition srank (c : wds) : nat :=
  rank_stop (slp c) + match thr (dogst c) with DNone => 5 | DSleep => 4 | DWoken => 3 | DLog => 2 | DStop => 1 | DExit => 0 end.

(** Steps that are not the clock's and not those of the canceller and of the owner outside of request_stop. *)
Definition effort (l : list agent) : nat := length (filter (fun a => match a with ADog | AStopper | ASpurious => true | _ => false end) l).

Lemma srank_step d c a c' : dinv d c -> dstep d c a c' -> stop (slp c) = true -> effort [a] + srank c' <= srank c /\ stop (slp c') = true.
Proof.
  intros I H L. assert (N : who (dogst c) <> OSource) by (intros E; pose proof (proj1 (d_source _ _ I E)) as Q; rewrite Q in L; discriminate).
  destruct I as [I1 I2 I3 I4 I5 I6]. unfold srank. destruct H as [c A|c w' A|c s' A B|c s' A B|c s' A B|c s' A|c A B|c s' A B|c s' A B|c A B C]; dcbn.
  - congruence.
  - split; [|exact L].
    destruct A as [(H & A1 & A2 & A3 & A4 & A5)|(H & A1 & A2)]; [|congruence].
    destruct H as [s A|s A|s A|s A|s A|s A|s A B|s A|s A B|s A|s A|s A|s A|s A]; dcbn; try rewrite A in *; try congruence;
      try (destruct (tstop s)); try (destruct (thr s)); cbn; lia.
  - destruct (stop_step _ _ _ _ _ I1 B L) as [L' R]. split; [|auto]. unfold effort, moves in *. cbn in *. lia.
  - destruct (stop_step _ _ _ _ _ I1 B L) as [L' R]. split; [|auto]. unfold effort, moves in *. cbn in *. lia.
  - destruct (stop_step _ _ _ _ _ I1 B L) as [L' R]. split; [|auto]. unfold effort, moves in *. cbn in *. lia.
  - destruct (stop_step _ _ _ _ _ I1 A L) as [L' R]. split; [|auto]. unfold effort, moves in *. cbn in *. lia.
  - split; [|auto]. rewrite A. cbn. lia.
  - destruct (stop_step _ _ _ _ _ I1 B L) as [L' R]. split; [|auto]. unfold effort, moves in *. cbn in *. lia.
  - destruct (stop_step _ _ _ _ _ I1 B L) as [L' R]. split; [|auto]. unfold effort, moves in *. cbn in *. lia.
  - split; [|auto]. cbn. lia.
Qed.

Lemma srank_exec d c l c' : dinv d c -> dexec d c l c' -> stop (slp c) = true -> effort l <= srank c.
Proof.
  intros I H. revert I. induction H as [c|c a c1 l c2 S E IH]; intros I L; [cbn; lia|].
  destruct (srank_step _ _ _ _ I S L) as (R & L1). specialize (IH (dinv_step _ _ _ _ I S) L1).
  unfold effort in *. change (a :: l) with ([a] ++ l). rewrite filter_app, app_length. lia.
Qed.

(** If the notification is not made between the check and the wait, the destructor does not wait for the clock: from
    request_stop on there is always a step of the thread, of request_stop or the join, and there are at most nine of them. *)
Theorem wd_sleep_prompt_partial d t l c : cexec d (wds_init t) l c -> who (dogst c) = OStopping ->
  (exists a c', dstep d c a c' /\ (a = ADog \/ a = AStopper \/ who (dogst c') = OThreadGone)) /\
  (forall l' c', dexec d c l' c' -> effort l' <= 9).
Proof.
  intros H W. pose proof (cexec_dexec _ _ _ _ H) as H'. pose proof (dexec_inv _ _ _ _ (dinv_init d t) H') as I.
  pose proof (pinv_cexec _ _ _ _ (dinv_init d t) Logic.I H) as P.
  assert (S : stop (slp c) = true) by (rewrite (d_stop _ _ I), (d_req _ _ I), W; reflexivity). split.
  - apply destroying_enabled; auto; [eapply dog_alive; eauto|]. intros Q. unfold pinv in P. rewrite Q in P. destruct (P S); auto.
  - intros l' c' E. pose proof (srank_exec _ _ _ _ I E S) as R. etransitivity; [exact R|].
    destruct I as [I1 I2 I3 I4 I5 I6]. assert (S' : st (slp c) <> TIdle) by (rewrite (i_stop _ _ _ I1); congruence).
    pose proof (i_run _ _ _ I1) as RR. pose proof (dog_alive _ _ _ _ H' W) as A.
    unfold srank, rank_stop, pinv in *. destruct (pc (slp c)), (st (slp c)), (thr (dogst c)); cbn; try congruence; try tauto; try lia.
Qed.

(** *** The lost notification *)

Definition stuck (d : nat) (c : wds) : Prop := lost d (slp c) /\ thr (dogst c) = DSleep /\ who (dogst c) = OStopping.

Lemma stuck_step d c a c' : stuck d c \/ d <= clock (slp c) -> dstep d c a c' -> a <> ASpurious -> elapsed (dogst c) = false ->
  stuck d c' \/ d <= clock (slp c') \/ who (dogst c) = OSource.
Proof.
  intros K H NA E. destruct (Nat.le_gt_cases d (clock (slp c))) as [C|C].
  { right. destruct H as [c A|c w' A|c s' A B|c s' A B|c s' A B|c s' A|c A B|c s' A B|c s' A B|c A B D]; dcbn; auto; left.
    all: match goal with S : sstep _ _ _ _ |- _ => inversion S; subst; unfold goto; dcbn; lia end. }
  destruct K as [((L1 & L2 & L3 & L4 & L5) & T & W)|K]; [|lia]. unfold stuck, lost.
  destruct H as [c A|c w' A|c s' A B|c s' A B|c s' A B|c s' A|c A B|c s' A B|c s' A B|c A B D]; dcbn; try congruence.
  - destruct (aside_inv _ _ A E ltac:(congruence)) as (B1 & B2 & B3 & B4 & B5 & B6 & B7 & B8). left. intuition congruence.
  - inversion B; subst; try congruence.
  - inversion B; subst. lia.
  - inversion A; subst; dcbn. left. auto 10.
  - inversion B; subst; congruence.
Qed.

Lemma stuck_exec d c l c' : dinv d c -> who (dogst c) <> OSource -> stuck d c \/ d <= clock (slp c) -> dexec d c l c' -> ~ In ASpurious l -> stuck d c' \/ d <= clock (slp c').
Proof.
  intros I N K H. revert I N K. induction H as [c|c a c1 l c2 S E IH]; intros I N K NS; auto.
  apply IH.
  - eapply dinv_step; eauto.
  - destruct S as [c A|c w' A|c s' A B|c s' A B|c s' A B|c s' A|c A B|c s' A B|c s' A B|c A B D]; dcbn; try congruence.
    destruct (aside_inv _ _ A (d_elapsed _ _ I) ltac:(congruence)) as (B1 & B2 & B3 & _). intuition congruence.
  - destruct (stuck_step _ _ _ _ K S) as [Q|[Q|Q]]; auto; [intros ->; apply NS; now left|apply (d_elapsed _ _ I)|congruence].
  - intros Q. apply NS. now right.
Qed.

Ltac wgo C := eapply DCons; [apply C; (reflexivity || discriminate || auto)|]; dcbn.
Ltac wside C := eapply DCons; [apply DgAside; left; split; [apply C; reflexivity|];
  cbn [who thr elapsed dogst]; repeat split; (discriminate || congruence || auto)|]; dcbn.
Ltac wsleep C K := eapply DCons; [eapply C; [reflexivity|apply K; (reflexivity || discriminate)]|]; dcbn; cbn [negb].

Lemma stuck_reached d : exists l c, dexec d (wds_init 0) l c /\ stuck d c /\ clock (slp c) = 0 /\ begun c = 0.
Proof.
  eexists; eexists. split.
  - unfold wds_init, wd_init, sinit. wgo DgThread. unfold sinit. wside WCallback. wside WReady.
    wsleep DgSleep StReg. wsleep DgSleep StEnter. wsleep DgSleep StCheck. unfold goto; dcbn.
    wside WDestroyLog. wside WDestroyCallback.
    wsleep DgRequest StStop. wsleep DgNotify StNotify. wsleep DgSleep StBlock. apply DNil.
  - unfold stuck, lost; dcbn. auto 10.
Qed.

(** The destructor of a watch_dog is not prompt: whatever the timeout, it can happen that the destructor has called request_stop, which
    has returned, at the very moment the timeout has begun, and still does not return before the whole timeout has passed,
    unless the thread wakes up spuriously. *)
Theorem wd_sleep_destructor_waits_refuted d : exists l c,
  dexec d (wds_init 0) l c /\ who (dogst c) = OStopping /\ st (slp c) = TDone /\ stop (slp c) = true /\ clock (slp c) = 0 /\
  (forall l' c', dexec d c l' c' -> ~ In ASpurious l' -> who (dogst c') = OThreadGone -> d <= clock (slp c')).
Proof.
  destruct (stuck_reached d) as (l & c & E & K & C & B). exists l, c. pose proof K as ((K1 & K2 & K3 & K4 & K5) & T & W).
  repeat (split; auto). intros l' c' E' N Q.
  destruct (stuck_exec d c l' c' (dexec_inv _ _ _ _ (dinv_init d 0) E) ltac:(congruence) (or_introl K) E' N) as [(_ & _ & X)|X]; [congruence|auto].
Qed.

(** A watch_dog with the timeout 5 that is destroyed at the time 2: the notification is not lost, the thread wakes up, does not
    call the log function, and the destructor returns at the time 2. *)
Example ex_wd_sleep : exists l c, cexec 5 (wds_init 0) l c /\ who (dogst c) = OThreadGone /\ clock (slp c) = 2 /\ logs (dogst c) = 0.
Proof.
  eexists; eexists. split.
  - unfold wds_init, wd_init, sinit.
    Ltac cgo := eapply CCons; [cbn; intuition (discriminate || congruence)| |]; dcbn.
    Ltac cside C := cgo; [apply DgAside; left; split; [apply C; reflexivity|]; cbn [who thr elapsed dogst]; repeat split; (discriminate || congruence || auto)|]; dcbn.
    Ltac csleep C K := cgo; [eapply C; [reflexivity|apply K; (reflexivity || discriminate)]|]; dcbn; cbn [negb].
    cgo; [now apply DgThread|]. unfold sinit; dcbn. cside WCallback. cside WReady.
    csleep DgSleep StReg. csleep DgSleep StEnter. csleep DgSleep StCheck. unfold goto; dcbn. csleep DgSleep StBlock.
    cgo; [apply DgTime; apply (StTime _ _ 2); dcbn; lia|]. dcbn.
    cside WDestroyLog. cside WDestroyCallback.
    csleep DgRequest StStop. csleep DgNotify StNotify.
    cgo; [apply DgSleep; [reflexivity|apply StWake; reflexivity]|]. cbn [Nat.leb Nat.add]. unfold goto; dcbn.
    csleep DgSleep StCheck. unfold goto; dcbn. csleep DgSleep StDereg.
    cgo; [apply DgWake; reflexivity|]. unfold set_thr; dcbn.
    cside WCheck. cside WStop.
    cgo; [apply DgJoin; reflexivity|]. apply CNil.
  - dcbn. auto.
Qed.
