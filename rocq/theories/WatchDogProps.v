(** Theorems about watch_dog (C55). *)
From Verif Require Import Common WatchDogModel.

Definition destroying (s : wd) : bool := match who s with OLogGone | OCallbackGone | OStopping | OThreadGone => true | _ => false end.

Record winv (s : wd) : Prop := {
  w_cause : stopped s = true -> elapsed s = true \/ parent_stopped s = true \/ destroying s = true;
  w_sleep : match thr s with DNone => who s = OSource | DSleep => who s <> OSource /\ logs s = 0
            | DWoken => (elapsed s = true \/ tstop s = true) /\ logs s = 0
            | DLog => elapsed s = true /\ logs s = 0
            | DStop => elapsed s = true \/ tstop s = true | DExit => stopped s = true end;
  w_tstop : tstop s = true -> who s = OStopping \/ who s = OThreadGone;
  w_source : who s = OSource -> thr s = DNone /\ elapsed s = false /\ logs s = 0;
  w_logs : logs s <= 1;
  w_log_elapsed : logs s = 1 -> elapsed s = true;
  w_cancel : cancel s = XDone -> registered s = true -> stopped s = true;
  w_exit : who s = OThreadGone -> thr s = DExit
}.

Lemma winv_init : winv wd_init.
Proof. split; cbn; auto; try discriminate. Qed.

Lemma winv_step s s' : winv s -> wstep s s' -> winv s'.
Proof.
  intros I Hs. destruct I as [I1 I2 I3 I4 I5 I6 I7 I8].
  destruct Hs as [s A|s A|s A|s A|s A|s A|s A B|s A|s A B|s A|s A|s A|s A|s A]; split;
    unfold parent_stopped, destroying, registered in *; cbn [who thr cancel elapsed tstop stopped logs] in *.
  all: try assumption.
  all: try (intros; rewrite ?A in *; (assumption || congruence || lia || (intuition (congruence || lia)))).
  all: try (clear I1 I7; destruct (thr s), (tstop s); cbn [orb]; rewrite ?I2; intuition (congruence || lia)).
  all: intros; rewrite ?A in *.
  - rewrite H. apply orb_true_r.
  - destruct I2 as [I2|I2]; [now left|]. right; right. destruct (I3 I2) as [->| ->]; reflexivity.
Qed.

Lemma winv_steps s : wsteps wd_init s -> winv s.
Proof.
  intros H. remember wd_init as s0 eqn:H0. induction H as [s|s s' s'' H IH Hs]; subst; [apply winv_init|]. eapply winv_step; eauto.
Qed.

(** ** Theorems, for every interleaving of the threads and the clock *)

(** The token is stopped only when the timeout has elapsed, the parent has been stopped or the watch_dog is being destroyed. *)
Theorem watch_dog_stop_cause s :
  wsteps wd_init s -> stopped s = true -> elapsed s = true \/ parent_stopped s = true \/ destroying s = true.
Proof. intros H. apply (w_cause _ (winv_steps s H)). Qed.

(** Once the stop of the parent has been carried out, the token of a watch_dog that has been constructed is stopped. *)
Theorem watch_dog_cancel s :
  wsteps wd_init s -> cancel s = XDone -> who s = OReady -> stopped s = true.
Proof. intros H Hc Hr. apply (w_cancel _ (winv_steps s H)); auto. unfold registered. now rewrite Hr. Qed.

(** After the timeout the thread is never blocked: as long as it has something to do it can do it, and when it has nothing
    to do the token is stopped. *)
Theorem watch_dog_timeout s :
  wsteps wd_init s -> elapsed s = true -> stopped s = true \/ exists s', wstep s s' /\ thr s' <> thr s.
Proof.
  intros H He. pose proof (winv_steps s H) as I. destruct (thr s) eqn:Ht.
  - pose proof (w_sleep _ I) as A. rewrite Ht in A. destruct (w_source _ I A) as (_ & B & _). congruence.
  - right. eexists. split; [apply WWake; auto|]. discriminate.
  - right. eexists. split; [now apply WCheck|]. cbn. destruct (tstop s); discriminate.
  - right. eexists. split; [now apply WLog|]. discriminate.
  - right. eexists. split; [now apply WStop|]. discriminate.
  - left. pose proof (w_sleep _ I) as A. now rewrite Ht in A.
Qed.

(** The log function is called at most once, and only when the timeout has elapsed. *)
Theorem watch_dog_log_once s : wsteps wd_init s -> logs s <= 1 /\ (logs s = 1 -> elapsed s = true).
Proof. intros H. pose proof (winv_steps s H) as I. split; [apply (w_logs _ I)|apply (w_log_elapsed _ I)]. Qed.

(** The destructor does not block for ever and when it has joined the thread, the thread has ended; the tokens that have been
    given out are stopped then. *)
Theorem watch_dog_destroyed s :
  wsteps wd_init s ->
  (who s = OThreadGone -> thr s = DExit /\ stopped s = true) /\
  (who s = OStopping -> tstop s = true -> exists s', wstep s s' /\ (thr s' <> thr s \/ who s' = OThreadGone)).
Proof.
  intros H. pose proof (winv_steps s H) as I. split.
  - intros Hw. pose proof (w_exit _ I Hw) as E. split; auto. pose proof (w_sleep _ I) as A. now rewrite E in A.
  - intros Hw Ht. destruct (thr s) eqn:Hd.
    + pose proof (w_sleep _ I) as A. rewrite Hd in A. congruence.
    + eexists. split; [apply WWake; auto|]. left. discriminate.
    + eexists. split; [now apply WCheck|]. left. cbn. destruct (tstop s); discriminate.
    + eexists. split; [now apply WLog|]. left. discriminate.
    + eexists. split; [now apply WStop|]. left. discriminate.
    + eexists. split; [now apply WJoin|]. now right.
Qed.

Lemma wcons s s' s'' : wstep s s' -> wsteps s' s'' -> wsteps s s''.
Proof. intros H1 H2. induction H2 as [x|x y z H2 IH H3]; [econstructor; [apply WNil|auto]|econstructor; eauto]. Qed.

Ltac go c := eapply wcons; [apply c; (reflexivity || discriminate || auto)|];
  cbn [who thr cancel elapsed tstop stopped logs bad_log registered log_alive parent_stopped orb negb].

Example watch_dog_example : exists s,
  wsteps wd_init s /\ who s = OThreadGone /\ stopped s = true /\ logs s = 1 /\ bad_log s = false.
Proof.
  eexists. split.
  - unfold wd_init. go WThread. go WCallback. go WReady. go WElapse. go WWake. go WCheck. go WLog. go WStop. go WDestroyLog. go WDestroyCallback. go WRequest. go WJoin. apply WNil.
  - repeat split.
Qed.

(** The destructor stops the tokens that have been given out, although neither the timeout has elapsed nor the parent has been
    stopped. *)
Theorem watch_dog_destructor_stops_refuted : exists s,
  wsteps wd_init s /\ stopped s = true /\ elapsed s = false /\ parent_stopped s = false.
Proof.
  eexists. split.
  - unfold wd_init. go WThread. go WCallback. go WReady. go WDestroyLog. go WDestroyCallback. go WRequest. go WWake. go WCheck. go WStop. apply WNil.
  - repeat split.
Qed.

(** m_log is constructed after the thread has been started and destroyed before it is joined: a short timeout calls it
    before its construction, and one that elapses in the destructor calls it after its destruction. *)
Theorem watch_dog_log_lifetime_refuted :
  (exists s, wsteps wd_init s /\ bad_log s = true /\ who s = OThread) /\
  (exists s, wsteps wd_init s /\ bad_log s = true /\ who s = OLogGone).
Proof.
  split; eexists.
  - split.
    + unfold wd_init. go WThread. go WElapse. go WWake. go WCheck. go WLog. apply WNil.
    + split; reflexivity.
  - split.
    + unfold wd_init. go WThread. go WCallback. go WReady. go WDestroyLog. go WElapse. go WWake. go WCheck. go WLog. apply WNil.
    + split; reflexivity.
Qed.

(** It is called only during its lifetime if the timeout elapses neither during the construction nor in the destructor, and
    the destructor does not begin between the end of the timeout and the call. *)
Definition careful (s s' : wd) : Prop :=
  (elapsed s = false -> elapsed s' = true -> who s = OReady) /\
  (who s = OReady -> who s' = OLogGone -> elapsed s = false \/ thr s = DStop \/ thr s = DExit).

Inductive careful_steps : wd -> wd -> Prop :=
| CNil s : careful_steps s s
| CCons s s' s'' : careful_steps s s' -> wstep s' s'' -> careful s' s'' -> careful_steps s s''.

Theorem watch_dog_log_lifetime_partial s : careful_steps wd_init s -> bad_log s = false.
Proof.
  intros H. assert (A : winv s /\ bad_log s = false /\ (elapsed s = true -> who s = OReady \/ thr s = DStop \/ thr s = DExit)); [|apply A].
  remember wd_init as s0 eqn:H0. induction H as [s|s s' s'' H IH Hs Hc]; subst.
  - split; [apply winv_init|]. cbn. split; [reflexivity|discriminate].
  - specialize (IH eq_refl). destruct IH as (I & B & C). split; [eapply winv_step; eauto|]. clear H.
    pose proof (w_sleep _ I) as L. destruct Hc as [C1 C2].
    destruct Hs as [s A|s A|s A|s A|s A|s A|s A D|s A|s A D|s A|s A|s A|s A|s A];
      cbn [who thr cancel elapsed tstop stopped logs bad_log destroying] in *; rewrite ?A in *.
    all: try (split; [assumption|]; intros He; specialize (C He); clear -C A; intuition congruence).
    + split; [assumption|]. intros He. destruct (w_source _ I A) as (_ & E & _). congruence.
    + split; [assumption|]. intros He. right. destruct (C2 eq_refl eq_refl) as [E|[E|E]]; [congruence|auto|auto].
    + split; [assumption|]. intros _. destruct (elapsed s) eqn:He; [now apply C|]. left. now apply C1.
    + destruct L as [L _]. rewrite B. destruct (C L) as [E|[E|E]]; try discriminate. unfold log_alive. rewrite E. auto.
Qed.
