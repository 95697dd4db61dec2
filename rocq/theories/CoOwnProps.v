(** C116: the owners of coroutines that wait on the timer queue. *)
From Coq Require Import Permutation ZifyBool ZifyNat.
From Verif Require Import Common CoTimerModel CoTimerSpec CoTimerProps CoOwnModel CoOwnSpec.
Open Scope Z_scope.

Lemma timer_snoc es e : timer_events (es ++ [e]) = timer_events es ++ match e with OC c => [c] | _ => [] end.
Proof. unfold timer_events. rewrite flat_map_app. cbn. now rewrite app_nil_r. Qed.
Lemma ostep_base s e s' : ostep s e (Some s') -> match e with OC c => cstep (obase s) c (Some (obase s')) | _ => obase s' = obase s end.
Proof. intros H. inversion H; subst; auto. Qed.
Lemma cared_exec s es s' : cared s es s' -> oexec s es s'.
Proof. induction 1; econstructor; eauto. Qed.
(** C116: owners change nothing for the timer queue: what happens to it is an execution of C113. *)
Theorem own_timer t0 es s : oexec (oinit t0) es s -> cexec (cinit t0) (timer_events es) (obase s).
Proof.
  intros H. remember (oinit t0) as s0 eqn:E. induction H as [|s es s1 e s2 H IH St]; subst; [constructor|]. specialize (IH eq_refl). rewrite timer_snoc.
  pose proof (ostep_base _ _ _ St) as B. destruct e; cbn [obase] in B; [econstructor; eauto| |]; rewrite app_nil_r, B; exact IH.
Qed.

(** Each frame is destroyed once. *)
Lemma gone_step s e s' : ostep s e (Some s') -> NoDup (ogone s) /\ (forall h, In h (ogone s) <-> oframe s h = Some FGone) ->
  NoDup (ogone s') /\ (forall h, In h (ogone s') <-> oframe s' h = Some FGone).
Proof.
  intros St [N G].
  assert (D : forall k f b, oframe s k = Some f -> f <> FGone -> NoDup (ogone (odrop s k b)) /\ (forall h, In h (ogone (odrop s k b)) <-> oframe (odrop s k b) h = Some FGone)).
  { intros k f b Hk Hf. cbn. split.
    - apply (Permutation_NoDup (l := k :: ogone s)); [apply Permutation_cons_append|]. constructor; auto. rewrite G. congruence.
    - intros h. rewrite in_app_iff, G. cbn. unfold upd. destruct (Nat.eqb_spec h k) as [->|Hn]; [tauto|]. split; [intros [?|[?|[]]]; congruence|auto]. }
  assert (U : forall k f, oframe s k <> Some FGone -> f <> FGone -> forall h, In h (ogone s) <-> upd (oframe s) k (Some f) h = Some FGone).
  { intros k f Hk Hf h. rewrite G. unfold upd. destruct (Nat.eqb_spec h k) as [->|Hn]; [|reflexivity]. split; congruence. }
  inversion St; subst; cbn [ogone oframe ogo]; auto; try (split; [exact N|apply U; congruence]); eapply D; eauto; discriminate.
Qed.
Theorem own_once t0 es s : oexec (oinit t0) es s -> NoDup (ogone s) /\ forall h, In h (ogone s) <-> oframe s h = Some FGone.
Proof.
  intros H. remember (oinit t0) as s0 eqn:E. induction H as [|s es s1 e s2 H IH St]; subst; [|eapply gone_step; eauto].
  split; [constructor|]. intros h. cbn. split; [intros []|discriminate].
Qed.

(** The coroutines that have not ended *)
Definition handles (b : cstate) : list nat := match crun b with Some (h, _) => [h] | None => [] end ++ map chandle (cqueue b).
Lemma handles_step b e b' : cstep b e (Some b') ->
  match e with
  | Started h _ _ => handles b' = h :: handles b
  | Finished h _ => handles b = h :: handles b'
  | _ => Permutation (handles b) (handles b')
  end.
Proof.
  intros H. inversion H; subst; unfold handles; cbn [crun cqueue]; try match goal with R : crun b = _ |- _ => rewrite R end; auto.
  match goal with Q : cqueue b = _ |- _ => rewrite Q end. rewrite !map_app. cbn. symmetry. apply Permutation_middle.
Qed.
Lemma waits_handles s h : waits_for_timer s h -> In h (handles (obase s)).
Proof. intros (x & I & <-). unfold handles. apply in_app_iff. right. now apply in_map. Qed.
Lemma resumed_waits s h t b : cstep (obase s) (Resumed h t) (Some b) -> waits_for_timer s h.
Proof. intros H. inversion H; subst. exists x. split; auto. match goal with Q : cqueue _ = _ |- _ => rewrite Q end. apply in_elt. Qed.

Record kinv (es : list oevent) (s : ostate) : Prop := {
  k_nodup : NoDup (handles (obase s));
  k_live : forall h, In h (handles (obase s)) -> oframe s h = Some FOwned \/ oframe s h = Some FFree;
  k_owned : forall h, oframe s h = Some FOwned -> (In h (handles (obase s)) \/ exists t, In (OC (Finished h t)) es) /\ ~ In (ODestroyTask h) es /\ ~ In (ORelease h) es;
  k_free : forall h, oframe s h = Some FFree -> (In h (handles (obase s)) \/ released_late es h) /\ ~ In (ODestroyTask h) es;
  k_new : forall h, oframe s h = None -> ~ started es h /\ ~ In (ODestroyTask h) es /\ ~ In (ORelease h) es
}.
Lemma late_snoc es e h : released_late es h -> released_late (es ++ [e]) h.
Proof. intros (a & t & b & c & ->). exists a, t, b, (c ++ [e]). rewrite <- !app_assoc. cbn. now rewrite <- app_assoc. Qed.
Lemma late_now es h t : In (OC (Finished h t)) es -> released_late (es ++ [ORelease h]) h.
Proof. intros I. apply in_split in I as (a & b & ->). exists a, t, b, []. now rewrite <- app_assoc. Qed.
Lemma in_snoc {A} (x : A) l e : In x (l ++ [e]) <-> In x l \/ x = e.
Proof. rewrite in_app_iff. cbn. intuition. Qed.
Lemma kinv_step es s e s' : kinv es s -> careful s e -> ostep s e (Some s') -> kinv (es ++ [e]) s'.
Proof.
  intros [N L Ow Fr Nw] C St.
  assert (Same : forall c, (forall h ds t, c <> Started h ds t) -> (forall h t, c <> Finished h t) -> cstep (obase s) c (Some (obase s')) -> e = OC c -> oframe s' = oframe s -> kinv (es ++ [e]) s').
  { intros c NS NF B -> F. assert (P : Permutation (handles (obase s)) (handles (obase s'))).
    { pose proof (handles_step _ _ _ B) as P. destruct c; auto; [edestruct NS|edestruct NF]; reflexivity. }
    assert (PI : forall h, In h (handles (obase s')) <-> In h (handles (obase s))) by (intros h; split; apply Permutation_in; auto; now symmetry).
    constructor; rewrite ?F.
    - eapply Permutation_NoDup; eauto.
    - intros h. rewrite PI. auto.
    - intros h Hh. destruct (Ow h Hh) as (A & B1 & B2). rewrite PI, !in_snoc. split; [|intuition discriminate]. destruct A as [A|(t & A)]; auto. right. exists t. apply in_snoc. auto.
    - intros h Hh. destruct (Fr h Hh) as (A & B1). rewrite PI, in_snoc. split; [|intuition discriminate]. destruct A as [A|A]; auto using late_snoc.
    - intros h Hh. destruct (Nw h Hh) as (A & B1 & B2). rewrite !in_snoc. split; [|intuition discriminate]. intros (ds & t & I). apply in_snoc in I as [I|I]; [apply A; red; eauto|]. injection I as I. exact (NS _ _ _ (eq_sym I)). }
  pose proof (ostep_base _ _ _ St) as B. inversion St; subst; cbn [obase ogo odrop] in B;
    try (eapply (Same (Resumed h t)) || eapply (Same (Slept u w)) || eapply (Same Quiet); [discriminate|discriminate|exact B|reflexivity|reflexivity]).
  - (* start *) assert (H : oframe s h = None) by assumption. pose proof (handles_step _ _ _ B) as Hs. cbn in Hs. pose proof (Nw h H) as (A & B1 & B2). assert (Hn : ~ In h (handles (obase s))) by (intros I; destruct (L h I); congruence).
    constructor; cbn [obase oframe]; rewrite ?Hs.
    + constructor; auto.
    + intros k [<-|I]; unfold upd; [rewrite Nat.eqb_refl; auto|]. destruct (Nat.eqb_spec k h); auto.
    + intros k Hk. unfold upd in Hk. rewrite !in_snoc. destruct (Nat.eqb_spec k h) as [Hkh|Hkh]; [subst k|].
      * split; [left; left; auto|intuition discriminate].
      * destruct (Ow k Hk) as (Q & Q1 & Q2). split; [|intuition discriminate]. destruct Q as [Q|(u & Q)]; [left; right; auto|right; exists u; apply in_snoc; auto].
    + intros k Hk. unfold upd in Hk. rewrite in_snoc. destruct (Nat.eqb_spec k h) as [Hkh|Hkh]; [subst k|]; [discriminate|]. destruct (Fr k Hk) as (Q & Q1). split; [|intuition discriminate].
      destruct Q as [Q|Q]; [left; right; auto|right; now apply late_snoc].
    + intros k Hk. unfold upd in Hk. rewrite !in_snoc. destruct (Nat.eqb_spec k h) as [Hkh|Hkh]; [subst k|]; [discriminate|]. destruct (Nw k Hk) as (Q & Q1 & Q2). split; [|intuition discriminate].
      intros (ds' & t' & I). apply in_snoc in I as [I|I]; [apply Q; red; eauto|congruence].
  - (* end of an owned one *) pose proof (handles_step _ _ _ B) as Hs. cbn in Hs. rewrite Hs in N, L, Ow, Fr. inversion N as [|? ? Nh N']; subst. constructor; cbn [obase oframe ogo].
    + exact N'.
    + intros k I. apply L. now right.
    + intros k Hk. destruct (Ow k Hk) as (Q & Q1 & Q2). rewrite !in_snoc. split; [|intuition discriminate]. destruct Q as [[<-|Q]|(u & Q)]; [right; exists t; apply in_snoc; auto|auto|right; exists u; apply in_snoc; auto].
    + intros k Hk. destruct (Fr k Hk) as (Q & Q1). rewrite in_snoc. split; [|intuition discriminate]. destruct Q as [[<-|Q]|Q]; [congruence|auto|right; now apply late_snoc].
    + intros k Hk. destruct (Nw k Hk) as (Q & Q1 & Q2). rewrite !in_snoc. split; [|intuition discriminate]. intros (ds' & t' & I). apply in_snoc in I as [I|I]; [apply Q; red; eauto|congruence].
  - (* end of a released one *) pose proof (handles_step _ _ _ B) as Hs. cbn in Hs. rewrite Hs in N, L, Ow, Fr. inversion N as [|? ? Nh N']; subst. constructor; cbn [obase oframe odrop]; unfold upd.
    + exact N'.
    + intros k I. destruct (Nat.eqb_spec k h) as [Hkh|Hkh]; [subst k|]; [contradiction|]. apply L. now right.
    + intros k Hk. destruct (Nat.eqb_spec k h) as [Hkh|Hkh]; [subst k|]; [discriminate|]. destruct (Ow k Hk) as (Q & Q1 & Q2). rewrite !in_snoc. split; [|intuition discriminate].
      destruct Q as [[Q|Q]|(u & Q)]; [congruence|auto|right; exists u; apply in_snoc; auto].
    + intros k Hk. destruct (Nat.eqb_spec k h) as [Hkh|Hkh]; [subst k|]; [discriminate|]. destruct (Fr k Hk) as (Q & Q1). rewrite in_snoc. split; [|intuition discriminate].
      destruct Q as [[Q|Q]|Q]; [congruence|auto|right; now apply late_snoc].
    + intros k Hk. destruct (Nat.eqb_spec k h) as [Hkh|Hkh]; [subst k|]; [discriminate|]. destruct (Nw k Hk) as (Q & Q1 & Q2). rewrite !in_snoc. split; [|intuition discriminate].
      intros (ds' & t' & I). apply in_snoc in I as [I|I]; [apply Q; red; eauto|congruence].
  - (* a task is destroyed *) assert (H : crun (obase s) = None) by assumption. cbn in C. assert (Hn : ~ In h (handles (obase s))).
    { unfold handles. rewrite H. cbn. intros I. apply in_map_iff in I as (x & <- & I). apply C. exists x. auto. }
    constructor; cbn [obase oframe odrop]; unfold upd; auto.
    + intros k I. destruct (Nat.eqb_spec k h) as [Hkh|Hkh]; [subst k|]; [contradiction|auto].
    + intros k Hk. destruct (Nat.eqb_spec k h) as [Hkh|Hkh]; [subst k|]; [discriminate|]. destruct (Ow k Hk) as (Q & Q1 & Q2). rewrite !in_snoc. split; [|intuition congruence].
      destruct Q as [Q|(u & Q)]; [auto|right; exists u; apply in_snoc; auto].
    + intros k Hk. destruct (Nat.eqb_spec k h) as [Hkh|Hkh]; [subst k|]; [discriminate|]. destruct (Fr k Hk) as (Q & Q1). rewrite in_snoc. split; [|intuition congruence]. destruct Q as [Q|Q]; auto using late_snoc.
    + intros k Hk. destruct (Nat.eqb_spec k h) as [Hkh|Hkh]; [subst k|]; [discriminate|]. destruct (Nw k Hk) as (Q & Q1 & Q2). rewrite !in_snoc. split; [|intuition congruence].
      intros (ds' & t' & I). apply in_snoc in I as [I|I]; [apply Q; red; eauto|congruence].
  - (* released *) assert (HO : oframe s h = Some FOwned) by assumption. constructor; cbn [obase oframe]; unfold upd; auto.
    + intros k I. destruct (Nat.eqb_spec k h) as [Hkh|Hkh]; [subst k|]; auto.
    + intros k Hk. destruct (Nat.eqb_spec k h) as [Hkh|Hkh]; [subst k|]; [discriminate|]. destruct (Ow k Hk) as (Q & Q1 & Q2). rewrite !in_snoc. split; [|intuition congruence].
      destruct Q as [Q|(u & Q)]; [auto|right; exists u; apply in_snoc; auto].
    + intros k Hk. rewrite in_snoc. destruct (Nat.eqb_spec k h) as [Hkh|Hkh]; [subst k|].
      * destruct (Ow h HO) as (Q & Q1 & Q2). split; [|intuition congruence]. destruct Q as [Q|(u & Q)]; [auto|right; eapply late_now; eauto].
      * destruct (Fr k Hk) as (Q & Q1). split; [|intuition congruence]. destruct Q as [Q|Q]; auto using late_snoc.
    + intros k Hk. destruct (Nat.eqb_spec k h) as [Hkh|Hkh]; [subst k|]; [discriminate|]. destruct (Nw k Hk) as (Q & Q1 & Q2). rewrite !in_snoc. split; [|intuition congruence].
      intros (ds' & t' & I). apply in_snoc in I as [I|I]; [apply Q; red; eauto|congruence].
Qed.
Lemma kinv_cared t0 es s : cared (oinit t0) es s -> kinv es s.
Proof.
  intros H. remember (oinit t0) as s0 eqn:E. induction H as [|s es s1 e s2 H IH C St]; subst; [|eapply kinv_step; eauto].
  constructor; cbn; try tauto; try discriminate; [constructor|]. intros h _. split; [|tauto]. intros (? & ? & []).
Qed.
(** C116: programs that do not destroy the task of a coroutine that waits are safe, as long as the clock is not close to its end. *)
Theorem own_safe t0 es s D : cared (oinit t0) es s -> (forall h ds t d, In (OC (Started h ds t)) es -> In d ds -> d <= D) -> cnow (obase s) + D <= 9223372036854775807 ->
  forall e, ~ ostep s e None.
Proof.
  intros H B M e St. inversion St; subst.
  - pose proof (kinv_cared _ _ _ H) as K. destruct (k_live _ _ K h) as [X|X]; [|congruence|congruence]. eapply waits_handles, resumed_waits; eauto.
  - refine (cotimer_safe t0 (timer_events es) (obase s) D (own_timer _ _ _ (cared_exec _ _ _ H)) _ M _ H0). intros h ds t d I. apply (B h ds t d).
    unfold timer_events in I. apply in_flat_map in I as (o & Io & I). destruct o; cbn in I; [|contradiction|contradiction]. destruct I as [<-|[]]. exact Io.
Qed.
(** C116: and when the queue is empty and nothing runs, the frame of each coroutine has been destroyed whose task was destroyed, or
    released before its end. *)
Theorem own_no_leak t0 es s h : cared (oinit t0) es s -> cqueue (obase s) = [] -> crun (obase s) = None -> started es h ->
  In (ODestroyTask h) es \/ (In (ORelease h) es /\ ~ released_late es h) -> In h (ogone s).
Proof.
  intros H Q R St D. apply (own_once _ _ _ (cared_exec _ _ _ H)). pose proof (kinv_cared _ _ _ H) as K. destruct (oframe s h) as [[| |]|] eqn:F; auto; exfalso.
  - destruct (k_owned _ _ K h F) as (_ & A & B). tauto.
  - destruct (k_free _ _ K h F) as ([A|A] & B); [|tauto]. unfold handles in A. rewrite Q, R in A. destruct A.
  - destruct (k_new _ _ K h F) as (A & _). auto.
Qed.

(** ** A task destroyed while its coroutine waits *)
(** C116: the handle stays in the queue until it is resumed, which is undefined: no continuation of the program empties the queue, so
    loop() does not return. *)
Theorem own_dangling t0 es s h es' s' : oexec (oinit t0) es s -> waits_for_timer s h -> oframe s h = Some FGone -> oexec s es' s' ->
  waits_for_timer s' h /\ oframe s' h = Some FGone /\ cqueue (obase s') <> [].
Proof.
  intros _ W G H. assert (X : waits_for_timer s' h /\ oframe s' h = Some FGone).
  { induction H as [|s es0 s1 e s2 H IH St]; [auto|]. destruct (IH W G) as [(x & I & Hx) G1]. clear IH W G.
    pose proof (ostep_base _ _ _ St) as B. split.
    - inversion St; subst; cbn [obase ogo odrop] in B; try (exists x; split; auto; cbn; try rewrite B; exact I); inversion B; subst; cbn; try (exists x; split; auto; fail).
      + exists x. split; auto. match goal with Q : cqueue _ = _ |- _ => rewrite Q in I end. apply in_app_iff in I as [I|[->|I]]; try (apply in_app_iff; auto; fail). contradiction.
      + exists x. split; auto. cbn. right. exact I.
    - inversion St; subst; cbn; auto; unfold upd; destruct (Nat.eqb_spec (chandle x) h0) as [E|]; auto; congruence. }
  destruct X as [W' G']. split; auto. split; auto. destruct W' as (x & I & _). intros E. rewrite E in I. destruct I.
Qed.
(** C116: so destroying the task of a waiting coroutine is undefined behaviour, for every clock and every duration. *)
Theorem own_destroyed_refuted t0 d : 0 < d -> t0 + d < 9223372036854775807 -> exists es s, oexec (oinit t0) es s /\ In (ODestroyTask 0%nat) es /\
  ostep s (OC (Resumed 0 (t0 + d + 1))) None.
Proof.
  intros P M. set (q := [Cot (t0 + d) 0 []]).
  exists [OC (Started 0 [d] t0); OC Quiet; ODestroyTask 0; OC Quiet]. exists (OSt (CState (t0 + d + 1) None q) (upd (upd (fun _ => None) 0%nat (Some FOwned)) 0%nat (Some FGone)) [0%nat]).
  split; [|split; [cbn; auto|]].
  - apply (OSnoc _ [OC (Started 0 [d] t0); OC Quiet; ODestroyTask 0] (OSt (CState t0 None q) (upd (upd (fun _ => None) 0%nat (Some FOwned)) 0%nat (Some FGone)) [0%nat]));
      [|apply (OQuiet (OSt (CState t0 None q) _ _)); apply (CTick (CState t0 None q)); cbn; lia].
    apply (OSnoc _ [OC (Started 0 [d] t0); OC Quiet] (OSt (CState t0 None q) (upd (fun _ => None) 0%nat (Some FOwned)) [])); [|apply (ODestroyIt (OSt (CState t0 None q) _ [])); reflexivity].
    apply (OSnoc _ [OC (Started 0 [d] t0)] (OSt (CState t0 (Some (0%nat, [d])) []) (upd (fun _ => None) 0%nat (Some FOwned)) [])).
    + apply (OSnoc _ [] (oinit t0)); [constructor|]. apply (OStart (oinit t0)); [reflexivity|]. apply (CStart (cinit t0)). reflexivity.
    + apply (OQuiet (OSt (CState t0 (Some (0%nat, [d])) []) _ [])). apply (CWait (CState t0 (Some (0%nat, [d])) [])); [reflexivity|exact P|cbn; unfold max_ns; lia].
  - eapply OResumeGone; [reflexivity|]. apply (CResume (CState (t0 + d + 1) None q) (Cot (t0 + d) 0 []) [] []); try reflexivity; [|cbn; lia].
    split; [now left|]. intros y [<-|[]]. apply Z.ltb_irrefl.
Qed.
(** C116: a coroutine that is released after its end is never destroyed. *)
Theorem own_late_refuted t0 : exists es s, cared (oinit t0) es s /\ cqueue (obase s) = [] /\ crun (obase s) = None /\ started es 0%nat /\ In (ORelease 0%nat) es /\
  forall es' s', oexec s es' s' -> ~ In 0%nat (ogone s').
Proof.
  set (f := upd (fun _ => None) 0%nat (Some FOwned)).
  exists [OC (Started 0 [] t0); OC (Finished 0 t0); ORelease 0]. exists (OSt (CState t0 None []) (upd f 0%nat (Some FFree)) []).
  assert (E : cared (oinit t0) [OC (Started 0 [] t0); OC (Finished 0 t0); ORelease 0] (OSt (CState t0 None []) (upd f 0%nat (Some FFree)) [])).
  { apply (KSnoc _ [OC (Started 0 [] t0); OC (Finished 0 t0)] (OSt (CState t0 None []) f [])); [|exact I|apply (OReleaseIt (OSt (CState t0 None []) f [])); reflexivity].
    apply (KSnoc _ [OC (Started 0 [] t0)] (OSt (CState t0 (Some (0%nat, [])) []) f [])); [|exact I|].
    - apply (KSnoc _ [] (oinit t0)); [constructor|exact I|]. apply (OStart (oinit t0)); [reflexivity|]. apply (CStart (cinit t0)). reflexivity.
    - apply (OFinish (OSt (CState t0 (Some (0%nat, [])) []) f [])); [reflexivity|]. apply (CEnd (CState t0 (Some (0%nat, [])) [])). reflexivity. }
  split; [exact E|]. split; [reflexivity|]. split; [reflexivity|]. split; [red; cbn; eauto|]. split; [cbn; auto|]. intros es' s' H.
  enough (X : ~ In 0%nat (handles (obase s')) /\ oframe s' 0%nat = Some FFree /\ ~ In 0%nat (ogone s')) by tauto.
  remember (OSt (CState t0 None []) (upd f 0%nat (Some FFree)) []) as s0 eqn:E0. induction H as [|s es s1 e s2 H IH St].
  - subst. cbn. auto.
  - destruct (IH E0 E) as (A & B & C). clear IH. pose proof (ostep_base _ _ _ St) as Bs.
    inversion St; subst; cbn [obase oframe ogone ogo odrop] in *; try (pose proof (handles_step _ _ _ Bs) as Hs; cbn in Hs).
    + unfold upd. destruct (Nat.eqb_spec 0 h) as [<-|]; [congruence|]. rewrite Hs. cbn. intuition.
    + split; [|auto]. intros I. apply A. eapply Permutation_in; [symmetry; exact Hs|exact I].
    + split; [|auto]. intros I. apply A. rewrite Hs. now right.
    + assert (h <> 0)%nat by (intros ->; apply A; rewrite Hs; now left). unfold upd. destruct (Nat.eqb_spec 0 h) as [<-|]; [congruence|]. rewrite in_snoc. split; [|split; auto].
      * intros I. apply A. rewrite Hs. now right.
      * intros [I|I]; congruence.
    + split; [|auto]. intros I. apply A. eapply Permutation_in; [symmetry; exact Hs|exact I].
    + split; [|auto]. intros I. apply A. eapply Permutation_in; [symmetry; exact Hs|exact I].
    + unfold upd. destruct (Nat.eqb_spec 0 h) as [<-|]; [congruence|]. rewrite in_snoc. intuition.
    + unfold upd. destruct (Nat.eqb_spec 0 h) as [<-|]; [congruence|]. auto.
Qed.

(** ** A concrete case: one coroutine is released while it waits, the task of the other one is destroyed after its end. *)
Example ex_coown : exists s, cared (oinit 100) [OC (Started 7 [5] 100); OC Quiet; ORelease 7; OC (Started 8 [] 100); OC (Finished 8 100); OC (Slept 105 106);
  OC (Resumed 7 106); OC (Finished 7 106); ODestroyTask 8] s /\ cqueue (obase s) = [] /\ crun (obase s) = None /\ ogone s = [7%nat; 8%nat].
Proof.
  set (f1 := upd (fun _ => None) 7%nat (Some FOwned)). set (f2 := upd f1 7%nat (Some FFree)). set (f3 := upd f2 8%nat (Some FOwned)). set (f4 := upd f3 7%nat (Some FGone)).
  set (q := [Cot 105 7 []]). eexists. split; [|split; [|split]].
  - apply (KSnoc _ [OC (Started 7 [5] 100); OC Quiet; ORelease 7; OC (Started 8 [] 100); OC (Finished 8 100); OC (Slept 105 106); OC (Resumed 7 106); OC (Finished 7 106)] (OSt (CState 106 None []) f4 [7%nat]));
      [|now intros (? & [] & _)|apply ODestroyIt; reflexivity].
    apply (KSnoc _ [OC (Started 7 [5] 100); OC Quiet; ORelease 7; OC (Started 8 [] 100); OC (Finished 8 100); OC (Slept 105 106); OC (Resumed 7 106)] (OSt (CState 106 (Some (7%nat, [])) []) f3 []));
      [|exact I|apply (OFinishFree (OSt (CState 106 (Some (7%nat, [])) []) f3 [])); [reflexivity|apply (CEnd (CState 106 (Some (7%nat, [])) [])); reflexivity]].
    apply (KSnoc _ [OC (Started 7 [5] 100); OC Quiet; ORelease 7; OC (Started 8 [] 100); OC (Finished 8 100); OC (Slept 105 106)] (OSt (CState 106 None q) f3 []));
      [|exact I|apply (OResume (OSt (CState 106 None q) f3 [])); [discriminate|apply (CResume (CState 106 None q) (Cot 105 7 []) [] []); try reflexivity]].
    2: { split; [now left|]. intros y [<-|[]]. apply Z.ltb_irrefl. }
    apply (KSnoc _ [OC (Started 7 [5] 100); OC Quiet; ORelease 7; OC (Started 8 [] 100); OC (Finished 8 100)] (OSt (CState 100 None q) f3 []));
      [|exact I|apply (OSleep (OSt (CState 100 None q) f3 [])); apply (CSleep (CState 100 None q) (Cot 105 7 [])); try reflexivity; cbn; try lia].
    2: { split; [now left|]. intros y [<-|[]]. apply Z.ltb_irrefl. }
    apply (KSnoc _ [OC (Started 7 [5] 100); OC Quiet; ORelease 7; OC (Started 8 [] 100)] (OSt (CState 100 (Some (8%nat, [])) q) f3 []));
      [|exact I|apply (OFinish (OSt (CState 100 (Some (8%nat, [])) q) f3 [])); [reflexivity|apply (CEnd (CState 100 (Some (8%nat, [])) q)); reflexivity]].
    apply (KSnoc _ [OC (Started 7 [5] 100); OC Quiet; ORelease 7] (OSt (CState 100 None q) f2 []));
      [|exact I|apply (OStart (OSt (CState 100 None q) f2 [])); [reflexivity|apply (CStart (CState 100 None q)); reflexivity]].
    apply (KSnoc _ [OC (Started 7 [5] 100); OC Quiet] (OSt (CState 100 None q) f1 [])); [|exact I|apply (OReleaseIt (OSt (CState 100 None q) f1 [])); reflexivity].
    apply (KSnoc _ [OC (Started 7 [5] 100)] (OSt (CState 100 (Some (7%nat, [5])) []) f1 []));
      [|exact I|apply (OQuiet (OSt (CState 100 (Some (7%nat, [5])) []) f1 [])); apply (CWait (CState 100 (Some (7%nat, [5])) []) 7%nat 5 []); [reflexivity|lia|cbn; unfold max_ns; lia]].
    apply (KSnoc _ [] (oinit 100)); [constructor|exact I|]. apply (OStart (oinit 100)); [reflexivity|]. apply (CStart (cinit 100)). reflexivity.
  - reflexivity.
  - reflexivity.
  - reflexivity.
Qed.
