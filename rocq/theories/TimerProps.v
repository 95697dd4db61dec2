(** C41: timers fire in deadline order (Awl/Testing/TimeQueue.h). *)
From Coq Require Import Permutation ZifyBool ZifyNat.
From Verif Require Import Common TimerModel.
Open Scope Z_scope.

(** ** Specification, about the events only *)

(** The deadlines of the handle [h] that have been pushed. *)
Definition deadlines (h : nat) (es : list tevent) : list Z :=
  flat_map (fun e => match e with Pushed h' a d => if Nat.eqb h' h then [a + d] else [] | _ => [] end) es.

(** How often [h] has been resumed. *)
Definition resumed (h : nat) (es : list tevent) : nat :=
  length (filter (fun e => match e with Resumed h' _ => Nat.eqb h' h | _ => false end) es).

(** [h] has been pushed more often than resumed. *)
Definition waiting (h : nat) (es : list tevent) : Prop := (resumed h es < length (deadlines h es))%nat.

(** A coroutine is suspended once, before it is pushed again it has been resumed. *)
Definition handles_once (es : list tevent) : Prop := forall h, (length (deadlines h es) <= 1)%nat.

(** When a handle is resumed no waiting handle has an earlier deadline. *)
Definition in_deadline_order (es : list tevent) : Prop :=
  forall l1 h t l2 h' d d', es = l1 ++ Resumed h t :: l2 -> In d (deadlines h l1) ->
    waiting h' l1 -> In d' (deadlines h' l1) -> d <= d'.

(** The number of iterations of [loop]. *)
Definition iterations (es : list tevent) : nat :=
  length (filter (fun e => match e with Resumed _ _ | Slept _ _ => true | _ => false end) es).
Definition pushes (es : list tevent) : nat :=
  length (filter (fun e => match e with Pushed _ _ _ => true | _ => false end) es).

(** ** Proof *)

Definition ptasks (es : list tevent) : list task :=
  flat_map (fun e => match e with Pushed h a d => [Task (a + d) h] | _ => [] end) es.
Definition rhandles (es : list tevent) : list nat :=
  flat_map (fun e => match e with Resumed h _ => [h] | _ => [] end) es.

Definition of_handle (h : nat) (ts : list task) : list task := filter (fun t => Nat.eqb (handle t) h) ts.

Lemma deadlines_ptasks h es : deadlines h es = map target_time (of_handle h (ptasks es)).
Proof.
  induction es as [|e es IH]; [reflexivity|]. cbn [deadlines flat_map ptasks]. fold (deadlines h es) (ptasks es).
  rewrite IH. destruct e; cbn; try reflexivity. destruct (Nat.eqb h0 h); reflexivity.
Qed.

Lemma resumed_rhandles h es : resumed h es = count_occ Nat.eq_dec (rhandles es) h.
Proof.
  induction es as [|e es IH]; [reflexivity|]. unfold resumed in *. cbn [filter rhandles flat_map]. fold (rhandles es).
  destruct e; cbn; auto. destruct (Nat.eqb_spec h0 h), (Nat.eq_dec h0 h); try congruence; cbn; auto.
Qed.

Lemma texec_app cmp s es s' es' s'' : texec cmp s es s' -> texec cmp s' es' s'' -> texec cmp s (es ++ es') s''.
Proof. induction 1; cbn; auto. intros. econstructor; eauto. Qed.

Lemma texec_split cmp s es es' s'' : texec cmp s (es ++ es') s'' -> exists s', texec cmp s es s' /\ texec cmp s' es' s''.
Proof.
  revert s; induction es as [|e es IH]; cbn; intros s E; [eexists; split; [constructor|exact E]|].
  inversion E; subst. destruct (IH _ H4) as (s1 & A & B). exists s1; split; auto. econstructor; eauto.
Qed.

Lemma step_inv cmp s e s' : tstep cmp s e s' ->
  now s <= now s' /\ exists R, Permutation (tasks s ++ ptasks [e]) (tasks s' ++ R)
    /\ rhandles [e] = map handle R /\ Forall (fun t => target_time t < now s') R.
Proof.
  intros H; inversion H; subst; cbn.
  - split; [lia|]. exists []. repeat split; auto. rewrite app_nil_r.
    symmetry; apply Permutation_cons_append.
  - split; [lia|]. exists []. repeat split; auto.
  - inversion H0; subst; cbn.
    + split; [lia|]. exists [t]. rewrite H1, app_nil_r. repeat split; auto.
      rewrite <- app_assoc. apply Permutation_app_head, Permutation_cons_append.
    + split; [lia|]. exists []. repeat split; auto.
Qed.

Lemma exec_inv cmp s es s' : texec cmp s es s' ->
  now s <= now s' /\ exists R, Permutation (tasks s ++ ptasks es) (tasks s' ++ R)
    /\ rhandles es = map handle R /\ Forall (fun t => target_time t < now s') R.
Proof.
  induction 1 as [s|s e s1 es s2 ST EX IH].
  - split; [lia|]. exists []. repeat split; auto.
  - destruct (step_inv _ _ _ _ ST) as (L1 & R1 & P1 & H1 & F1), IH as (L2 & R2 & P2 & H2 & F2).
    split; [lia|]. exists (R1 ++ R2). repeat split.
    + change (ptasks (e :: es)) with (ptasks ([e] ++ es)). unfold ptasks in *. rewrite flat_map_app.
      rewrite app_assoc, P1. rewrite <- app_assoc, (Permutation_app_comm R1), app_assoc, P2.
      rewrite <- app_assoc. now apply Permutation_app_head, Permutation_app_comm.
    + change (rhandles (e :: es)) with (rhandles ([e] ++ es)). unfold rhandles in *.
      rewrite flat_map_app, map_app. congruence.
    + apply Forall_app; split; auto. eapply Forall_impl; [|exact F1]. cbn; lia.
Qed.

Lemma perm_filter_length {A} (f : A -> bool) l l' : Permutation l l' -> length (filter f l) = length (filter f l').
Proof.
  induction 1; cbn; auto; try congruence; repeat (destruct (f _); cbn; auto; try congruence).
Qed.

Lemma count_handles h R : count_occ Nat.eq_dec (map handle R) h = length (of_handle h R).
Proof.
  induction R as [|t R IH]; [reflexivity|]. cbn. destruct (Nat.eq_dec (handle t) h), (Nat.eqb_spec (handle t) h);
    try congruence; cbn; auto.
Qed.

Lemma timer_never_early_lemma t0 es s h : texec compare (tinit t0) es s ->
  (resumed h es <= length (filter (fun d => (d <? now s)%Z) (deadlines h es)))%nat.
Proof.
  intros E. destruct (exec_inv _ _ _ _ E) as (_ & R & P & HR & F). cbn in P.
  rewrite resumed_rhandles, HR, count_handles, deadlines_ptasks.
  assert (A : length (filter (fun d => d <? now s) (map target_time (of_handle h (ptasks es))))
    = length (filter (fun t => Nat.eqb (handle t) h && (target_time t <? now s)) (ptasks es))).
  { clear. unfold of_handle. induction (ptasks es) as [|t l IH]; [reflexivity|]. cbn.
    destruct (Nat.eqb (handle t) h); cbn; auto. destruct (target_time t <? now s); cbn; auto. }
  rewrite A. erewrite (perm_filter_length _ _ _ P). rewrite filter_app, app_length.
  assert (B : filter (fun t => Nat.eqb (handle t) h && (target_time t <? now s)) R = of_handle h R).
  { clear - F. induction F as [|t l L F IH]; [reflexivity|]. cbn. rewrite IH.
    replace (target_time t <? now s) with true by lia. now rewrite andb_true_r. }
  rewrite B. lia.
Qed.

Lemma timer_conservation_lemma cmp t0 es s h : texec cmp (tinit t0) es s ->
  length (deadlines h es) = (resumed h es + length (of_handle h (tasks s)))%nat.
Proof.
  intros E. destruct (exec_inv _ _ _ _ E) as (_ & R & P & HR & F). cbn in P.
  rewrite resumed_rhandles, HR, count_handles, deadlines_ptasks, map_length.
  unfold of_handle. rewrite (perm_filter_length _ _ _ P), filter_app, app_length. lia.
Qed.

(** With one push per handle a waiting handle is in the queue with its deadline. *)
Lemma waiting_in_queue cmp t0 es s h d : texec cmp (tinit t0) es s -> handles_once es ->
  waiting h es -> In d (deadlines h es) -> In (Task d h) (tasks s).
Proof.
  intros E O W D. pose proof (timer_conservation_lemma _ _ _ _ h E) as C. unfold waiting in W.
  destruct (of_handle h (tasks s)) as [|t l] eqn:EF; [cbn in C; lia|].
  assert (T : In t (tasks s) /\ handle t = h).
  { assert (In t (of_handle h (tasks s))) by (rewrite EF; now left). apply filter_In in H.
    destruct H as [H1 H2]. apply Nat.eqb_eq in H2. auto. }
  destruct T as [T1 T2]. destruct (exec_inv _ _ _ _ E) as (_ & R & P & HR & F). cbn in P.
  assert (T3 : In t (ptasks es)) by (eapply Permutation_in; [symmetry; exact P|]; apply in_or_app; auto).
  assert (T4 : In (target_time t) (deadlines h es)).
  { rewrite deadlines_ptasks. apply in_map. apply filter_In; split; auto. now apply Nat.eqb_eq. }
  assert (d = target_time t).
  { specialize (O h). destruct (deadlines h es) as [|x [|y q]]; cbn in *; try lia; intuition congruence. }
  subst. destruct t; auto.
Qed.

Lemma deadlines_app h a b : deadlines h (a ++ b) = deadlines h a ++ deadlines h b.
Proof. unfold deadlines. apply flat_map_app. Qed.

Lemma resumed_app h a b : resumed h (a ++ b) = (resumed h a + resumed h b)%nat.
Proof. unfold resumed. now rewrite filter_app, app_length. Qed.

Lemma order_generic cmp t0 es s : texec cmp (tinit t0) es s -> handles_once es ->
  forall l1 h t l2 h' d d', es = l1 ++ Resumed h t :: l2 -> In d (deadlines h l1) ->
    waiting h' l1 -> In d' (deadlines h' l1) -> cmp (Task d h) (Task d' h') = false.
Proof.
  intros E O l1 h t l2 h' d d' -> D W D'.
  destruct (texec_split _ _ _ _ _ E) as (s1 & E1 & E2).
  assert (O1 : handles_once l1).
  { intros x. specialize (O x). rewrite deadlines_app, app_length in O. lia. }
  inversion E2; subst. pose proof (waiting_in_queue _ _ _ _ _ _ E1 O1 W D') as I'.
  inversion H2; subst. inversion H; subst.
  assert (I1 : In t1 (tasks s1)) by (rewrite H3; apply in_elt).
  assert (d = target_time t1).
  { assert (T4 : In (target_time t1) (deadlines (handle t1) l1)).
    { destruct (exec_inv _ _ _ _ E1) as (_ & R & P & _ & _). cbn in P.
      rewrite deadlines_ptasks. apply in_map. apply filter_In; split; [|apply Nat.eqb_refl].
      eapply Permutation_in; [symmetry; exact P|]; apply in_or_app; auto. }
    specialize (O1 (handle t1)). destruct (deadlines (handle t1) l1) as [|x [|y q]]; cbn in *; try lia; intuition congruence. }
  subst. destruct t1; cbn. now apply H6.
Qed.

(** *** The number of iterations *)

Definition weight (n : Z) (t : task) : nat := if target_time t <? n then 1 else 2.
Fixpoint weights (n : Z) (ts : list task) : nat := match ts with [] => 0%nat | t :: ts' => (weight n t + weights n ts')%nat end.

Lemma weights_app n a b : weights n (a ++ b) = (weights n a + weights n b)%nat.
Proof. induction a as [|x a IH]; cbn [app weights]; [reflexivity|]. rewrite IH. lia. Qed.

Lemma weights_mono n m ts : n <= m -> (weights m ts <= weights n ts)%nat.
Proof.
  intros L. induction ts as [|a ts IH]; cbn [weights]; auto.
  assert (weight m a <= weight n a)%nat; [|lia].
  unfold weight. destruct (target_time a <? m) eqn:A, (target_time a <? n) eqn:B; lia.
Qed.

Lemma step_weight cmp s e s' : tstep cmp s e s' ->
  (forall u w, e = Slept u w -> u < w) ->
  (iterations [e] + weights (now s') (tasks s') <= weights (now s) (tasks s) + 2 * pushes [e])%nat.
Proof.
  intros H SL; inversion H; subst; cbn -[weight].
  - assert (forall n t, weight n t <= 2)%nat by (intros; unfold weight; destruct (_ <? _); lia). specialize (H0 (now s) (Task (now s + timeout) h)). lia.
  - pose proof (weights_mono _ _ (tasks s) H0). lia.
  - inversion H0; subst; cbn -[weight].
    + rewrite H1, !weights_app. cbn -[weight]. unfold weight. replace (target_time t <? now s) with true by lia. lia.
    + specialize (SL _ _ eq_refl). destruct H1 as [I _]. apply in_split in I. destruct I as (a & b & ->).
      rewrite !weights_app. cbn -[weight].
      pose proof (weights_mono (now s) t' a ltac:(lia)). pose proof (weights_mono (now s) t' b ltac:(lia)).
      unfold weight. replace (target_time t <? t') with true by lia. replace (target_time t <? now s) with false by lia. lia.
Qed.

Lemma exec_weight cmp s es s' : texec cmp s es s' -> (forall u w, In (Slept u w) es -> u < w) ->
  (iterations es + weights (now s') (tasks s') <= weights (now s) (tasks s) + 2 * pushes es)%nat.
Proof.
  induction 1 as [s|s e s1 es s2 ST EX IH]; intros SL; [cbn; lia|].
  pose proof (step_weight _ _ _ _ ST ltac:(intros u w ->; apply SL; now left)) as A.
  specialize (IH ltac:(intros u w I; apply SL; now right)).
  unfold iterations, pushes in *. change (e :: es) with ([e] ++ es). rewrite !filter_app, !app_length. lia.
Qed.

(** ** Theorems *)

(** A handle is never resumed before its deadline: at every moment it has been resumed at most
    as often as there are pushes of it whose deadline has passed. *)
Theorem timer_never_early_partial t0 es s : texec compare (tinit t0) es s ->
  forall h, (resumed h es <= length (filter (fun d => (d <? now s)%Z) (deadlines h es)))%nat.
Proof. intros E h. now eapply timer_never_early_lemma; eauto. Qed.
Print Assumptions timer_never_early_partial.

(** When [loop] returns, with an empty queue, every handle has been resumed exactly as often as
    it has been pushed. *)
Theorem timer_all_resumed_partial t0 es s : texec compare (tinit t0) es s -> tasks s = [] ->
  forall h, resumed h es = length (deadlines h es).
Proof. intros E N h. pose proof (timer_conservation_lemma _ _ _ _ h E). rewrite N in H. cbn in H. lia. Qed.
Print Assumptions timer_all_resumed_partial.

(** [loop] makes at most two iterations per push, provided [sleep_until] returns when the clock
    has passed the deadline; so it does not spin for ever. *)
Theorem timer_loop_bounded t0 es s : texec compare (tinit t0) es s ->
  (forall u w, In (Slept u w) es -> u < w) -> (iterations es <= 2 * pushes es)%nat.
Proof. intros E SL. pose proof (exec_weight _ _ _ _ E SL). cbn in H. lia. Qed.
Print Assumptions timer_loop_bounded.

(** The order is the reverse one: when a handle is resumed no waiting handle has a later deadline. *)
Theorem timer_latest_first t0 es s : texec compare (tinit t0) es s -> handles_once es ->
  forall l1 h t l2 h' d d', es = l1 ++ Resumed h t :: l2 -> In d (deadlines h l1) ->
    waiting h' l1 -> In d' (deadlines h' l1) -> d' <= d.
Proof.
  intros E O l1 h t l2 h' d d' EQ D W D'. pose proof (order_generic _ _ _ _ E O _ _ _ _ _ _ _ EQ D W D') as C.
  unfold compare in C. cbn in C. lia.
Qed.
Print Assumptions timer_latest_first.

(** With the arguments of the comparer swapped the property would hold. *)
Theorem timer_order_with_greater t0 es s : texec (fun x y => compare y x) (tinit t0) es s ->
  handles_once es -> in_deadline_order es.
Proof.
  intros E O l1 h t l2 h' d d' EQ D W D'. pose proof (order_generic _ _ _ _ E O _ _ _ _ _ _ _ EQ D W D') as C.
  unfold compare in C. cbn in C. lia.
Qed.
Print Assumptions timer_order_with_greater.

(** Two timers, 1 and 5, both due at 10; the later one is resumed first. *)
Definition two_timers : list tevent := [Pushed 0 0 1; Pushed 1 0 5; Ticked; Resumed 1 10; Resumed 0 10].

Lemma two_timers_run : texec compare (tinit 0) two_timers (TQueue 10 []).
Proof.
  unfold two_timers.
  eapply TCons; [apply (TPush _ (tinit 0) 0 1)|].
  eapply TCons; [apply (TPush _ (push (tinit 0) 0 1) 1 5)|].
  eapply TCons; [apply (TTick _ (push (push (tinit 0) 0 1) 1 5) 10); cbn; lia|].
  eapply TCons; [apply TLoop, (LResume _ (TQueue 10 _) (Task 5 1) [] [Task 1 0]); cbn; try lia; [reflexivity|]|].
  { split; [now left|]. cbn. intros u [<-|[<-|[]]]; reflexivity. }
  eapply TCons; [apply TLoop, (LResume _ (TQueue 10 [Task 1 0]) (Task 1 0) [] []); cbn; try lia; [reflexivity|]|].
  { split; [now left|]. cbn. intros u [<-|[]]; reflexivity. }
  apply TNil.
Qed.

(** Violated: handles that are due are not resumed in the order of their deadlines. *)
Theorem timer_order_refuted : exists t0 es s, texec compare (tinit t0) es s /\ handles_once es /\ ~ in_deadline_order es.
Proof.
  exists 0, two_timers, (TQueue 10 []). split; [apply two_timers_run|]. split.
  - intros h. cbn. destruct h as [|[|h]]; cbn; lia.
  - intros C. specialize (C [Pushed 0 0 1; Pushed 1 0 5; Ticked] 1%nat 10 [Resumed 0 10] 0%nat 5 1 eq_refl).
    cbn in C. unfold waiting in C. cbn in C. specialize (C ltac:(tauto) ltac:(lia) ltac:(tauto)). lia.
Qed.
Print Assumptions timer_order_refuted.

(** Worse: a timer does not fire while a longer one is running.  In every execution that has
    pushed handle 0 with the timeout 1 and handle 1 with the timeout [d], handle 0 is not resumed
    at any time up to [d], if handle 1 was pushed before that. *)
Theorem timer_delayed_by_longest : forall d, 1 < d ->
  forall l1 t l2 s, texec compare (tinit 0) ([Pushed 0 0 1; Pushed 1 0 d] ++ l1 ++ Resumed 0 t :: l2) s ->
    handles_once ([Pushed 0 0 1; Pushed 1 0 d] ++ l1 ++ Resumed 0 t :: l2) -> d < t.
Proof.
  intros d L l1 t l2 s E O. rewrite app_assoc in E, O.
  set (p := [Pushed 0 0 1; Pushed 1 0 d] ++ l1) in *.
  assert (D0 : In 1 (deadlines 0 p)) by (unfold p; rewrite deadlines_app; now left).
  assert (D1 : In d (deadlines 1 p)) by (unfold p; rewrite deadlines_app; now left).
  assert (O1 : handles_once p). { intros x. specialize (O x). rewrite deadlines_app, app_length in O. lia. }
  destruct (Nat.lt_ge_cases (resumed 1 p) (length (deadlines 1 p))) as [W|W].
  { pose proof (timer_latest_first _ _ _ E O p 0%nat t l2 1%nat 1 d eq_refl D0 W D1). lia. }
  destruct (texec_split _ _ _ _ _ E) as (s1 & E1 & E2).
  pose proof (timer_never_early_partial _ _ _ E1 1%nat) as NE.
  specialize (O1 1%nat).
  assert (EQ : deadlines 1 p = [d]).
  { destruct (deadlines 1 p) as [|x [|y q]]; cbn in D1, O1; [tauto| |lia]. destruct D1 as [->|[]]; auto. }
  rewrite EQ in *. cbn in *. destruct (d <? now s1) eqn:N; cbn in *; [|lia].
  inversion E2; subst. inversion H2; subst. inversion H; subst. lia.
Qed.
Print Assumptions timer_delayed_by_longest.
