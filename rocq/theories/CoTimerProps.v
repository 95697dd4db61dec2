(** Coroutines and the timer queue. *)
From Verif Require Import Common CoTimerModel CoTimerSpec.
From Coq Require Import ZifyBool ZifyNat.
Open Scope Z_scope.

Lemma total_cons d a : total (d :: a) = Z.max 0 d + total a.
Proof. reflexivity. Qed.
Lemma total_app a b : total (a ++ b) = total a + total b.
Proof. induction a as [|d a IH]; [reflexivity|]. rewrite <- app_comm_cons, !total_cons. lia. Qed.

(** [h] was started with durations of which [rest] remain, and those before them take until [t] at least. *)
Definition begun (es : list cevent) (h : nat) (rest : list Z) (t : Z) : Prop :=
  exists pre t0, In (Started h (pre ++ rest) t0) es /\ t0 + total pre <= t.
Record cinv (es : list cevent) (s : cstate) : Prop := {
  i_run : forall h r, crun s = Some (h, r) -> begun es h r (cnow s);
  i_queue : forall x, In x (cqueue s) -> begun es (chandle x) (crest x) (ctarget x);
  i_end : forall h t, In (Finished h t) es -> t <= cnow s /\ begun es h [] t;
  i_start : forall h ds t, In (Started h ds t) es -> t <= cnow s
}.
Lemma begun_mono es e h r t t' : begun es h r t -> t <= t' -> begun (es ++ [e]) h r t'.
Proof. intros (pre & t0 & I & L) T. exists pre, t0. rewrite in_app_iff. split; auto. lia. Qed.
Lemma begun_next es e h d r t t' : begun es h (d :: r) t -> t + Z.max 0 d <= t' -> begun (es ++ [e]) h r t'.
Proof. intros (pre & t0 & I & L) T. exists (pre ++ [d]), t0. rewrite in_app_iff, <- app_assoc. split; auto. rewrite total_app. cbn. lia. Qed.
Lemma quiet_in (es : list cevent) e x : In x (es ++ [e]) -> In x es \/ x = e.
Proof. rewrite in_app_iff. cbn. intuition. Qed.

Lemma step_inv es s e s' : cinv es s -> cstep s e (Some s') -> cinv (es ++ [e]) s'.
Proof.
  intros [IR IQ IE IS] ST. inversion ST; subst; constructor; cbn [crun cnow cqueue]; intros.
  (* CStart *)
  - injection H as <- <-. exists [], (cnow s). rewrite in_app_iff. cbn. split; [auto|lia].
  - eapply begun_mono; [apply IQ; auto|lia].
  - apply quiet_in in H as [H|H]; [|discriminate]. apply IE in H as [A B]. split; auto. eapply begun_mono; eauto. lia.
  - apply quiet_in in H as [H|H]; [eauto|]. injection H as -> -> ->. lia.
  (* CReady *)
  - injection H as <- <-. eapply begun_next; [apply IR; eauto|lia].
  - eapply begun_mono; [apply IQ; auto|lia].
  - apply quiet_in in H as [H|H]; [|discriminate]. apply IE in H as [A B]. split; auto. eapply begun_mono; eauto. lia.
  - apply quiet_in in H as [H|H]; [eauto|discriminate].
  (* CWait *)
  - discriminate.
  - destruct H as [<-|H]; cbn; [eapply begun_next; [apply IR; eauto|lia]|eapply begun_mono; [apply IQ; auto|lia]].
  - apply quiet_in in H as [H|H]; [|discriminate]. apply IE in H as [A B]. split; auto. eapply begun_mono; eauto. lia.
  - apply quiet_in in H as [H|H]; [eauto|discriminate].
  (* CEnd *)
  - discriminate.
  - eapply begun_mono; [apply IQ; auto|lia].
  - apply quiet_in in H as [H|H].
    + apply IE in H as [A B]. split; auto. eapply begun_mono; eauto. lia.
    + injection H as -> ->. split; [lia|]. eapply begun_mono; [apply IR; eauto|lia].
  - apply quiet_in in H as [H|H]; [eauto|discriminate].
  (* CTick *)
  - eapply begun_mono; [apply IR; eauto|lia].
  - eapply begun_mono; [apply IQ; auto|lia].
  - apply quiet_in in H as [H|H]; [|discriminate]. apply IE in H as [A B]. split; [lia|]. eapply begun_mono; eauto. lia.
  - apply quiet_in in H as [H|H]; [apply IS in H; lia|discriminate].
  (* CResume *)
  - injection H as <- <-. eapply begun_mono; [apply IQ; rewrite H1, in_app_iff; cbn; auto|lia].
  - eapply begun_mono; [apply IQ; rewrite H1; rewrite in_app_iff in *; cbn; tauto|lia].
  - apply quiet_in in H as [H|H]; [|discriminate]. apply IE in H as [A B]. split; auto. eapply begun_mono; eauto. lia.
  - apply quiet_in in H as [H|H]; [eauto|discriminate].
  (* CSleep *)
  - discriminate.
  - eapply begun_mono; [apply IQ; auto|lia].
  - apply quiet_in in H as [H|H]; [|discriminate]. apply IE in H as [A B]. split; [lia|]. eapply begun_mono; eauto. lia.
  - apply quiet_in in H as [H|H]; [apply IS in H; lia|discriminate].
Qed.
Lemma exec_inv t0 es s : cexec (cinit t0) es s -> cinv es s.
Proof.
  intros E. remember (cinit t0) as s0. induction E; subst; [|eapply step_inv; eauto]. constructor; cbn; try discriminate; contradiction.
Qed.

Lemma starts_app h a b : starts h (a ++ b) = (starts h a + starts h b)%nat.
Proof. unfold starts. now rewrite filter_app, app_length. Qed.
Lemma ends_app h a b : ends h (a ++ b) = (ends h a + ends h b)%nat.
Proof. unfold ends. now rewrite filter_app, app_length. Qed.
Definition running (h : nat) (s : cstate) : nat := match crun s with Some (k, _) => if Nat.eqb k h then 1 else 0 | None => 0 end%nat.
Definition queued (h : nat) (q : list cot) : nat := length (filter (fun x => Nat.eqb (chandle x) h) q).
Lemma exec_count t0 es s : cexec (cinit t0) es s -> forall h, starts h es = (ends h es + running h s + queued h (cqueue s))%nat.
Proof.
  intros E. remember (cinit t0) as s0. induction E; subst; intros k; [reflexivity|]. specialize (IHE eq_refl k). rewrite starts_app, ends_app. unfold running, queued in *.
  inversion H; subst; cbn [crun cqueue starts ends filter length chandle] in *; repeat match goal with Q : crun s1 = _ |- _ => rewrite Q in IHE end; try lia.
  - destruct (Nat.eqb h k); cbn [length]; lia.
  - destruct (Nat.eqb h k); cbn [length] in *; lia.
  - destruct (Nat.eqb h k); cbn [length]; lia.
  - match goal with Q : cqueue s1 = _ |- _ => rewrite Q in IHE end. rewrite filter_app, app_length in *. cbn [filter] in IHE. destruct (Nat.eqb (chandle x) k); cbn [length] in *; lia.
Qed.

(** A coroutine does not end before all its durations have passed one after the other. *)
Theorem cotimer_not_early t0 es s h t : cexec (cinit t0) es s -> In (Finished h t) es ->
  exists ds t1, In (Started h ds t1) es /\ t1 + total ds <= t.
Proof. intros E I. apply exec_inv in E as [_ _ IE _]. apply IE in I as (_ & pre & t1 & J & L). rewrite app_nil_r in J. eauto. Qed.
(** When loop() returns all coroutines have ended, each as often as it was started. *)
Theorem cotimer_all_end t0 es s : cexec (cinit t0) es s -> cqueue s = [] -> crun s = None -> forall h, ends h es = starts h es.
Proof. intros E Q R h. pose proof (exec_count _ _ _ E h) as H. rewrite Q in H. unfold running in H. rewrite R in H. cbn in H. lia. Qed.

Definition weight (now : Z) (x : cot) : nat := (2 * waits (crest x) + if (ctarget x <? now)%Z then 1 else 2)%nat.
Definition weights (now : Z) (q : list cot) : nat := fold_right (fun x n => (weight now x + n)%nat) 0%nat q.
Definition run_weight (s : cstate) : nat := match crun s with Some (_, r) => (2 * waits r)%nat | None => 0%nat end.
Lemma weights_cons now x a : weights now (x :: a) = (weight now x + weights now a)%nat.
Proof. reflexivity. Qed.
Lemma weights_app now a b : weights now (a ++ b) = (weights now a + weights now b)%nat.
Proof. induction a as [|x a IH]; [reflexivity|]. rewrite <- app_comm_cons, !weights_cons. lia. Qed.
Lemma weights_mono now now' q : now <= now' -> (weights now' q <= weights now q)%nat.
Proof. intros L. induction q as [|x q IH]; [reflexivity|]. rewrite !weights_cons. unfold weight. destruct (ctarget x <? now) eqn:A, (ctarget x <? now') eqn:B; lia. Qed.
Lemma weights_drop now now' q x : In x q -> now <= ctarget x -> ctarget x < now' -> now <= now' -> (weights now' q < weights now q)%nat.
Proof.
  intros I A B L. induction q as [|y q IH]; [contradiction|]. rewrite !weights_cons. destruct I as [->|I].
  - pose proof (weights_mono now now' q L). unfold weight. destruct (ctarget x <? now) eqn:E1, (ctarget x <? now') eqn:E2; lia.
  - specialize (IH I). unfold weight. destruct (ctarget y <? now) eqn:E1, (ctarget y <? now') eqn:E2; lia.
Qed.
Lemma iterations_app a b : iterations (a ++ b) = (iterations a + iterations b)%nat.
Proof. unfold iterations. now rewrite filter_app, app_length. Qed.
Lemma all_waits_app a b : all_waits (a ++ b) = (all_waits a + all_waits b)%nat.
Proof. induction a as [|x a IH]; [reflexivity|]. cbn [app]. unfold all_waits in *. cbn [fold_right]. lia. Qed.
Lemma iter_one e : iterations [e] = match e with Resumed _ _ | Slept _ _ => 1%nat | _ => 0%nat end.
Proof. destruct e; reflexivity. Qed.
Lemma all_one e : all_waits [e] = match e with Started _ ds _ => waits ds | _ => 0%nat end.
Proof. destruct e; cbn [all_waits fold_right]; lia. Qed.
Ltac ev := rewrite !iter_one, !all_one.
(** loop() makes at most two iterations for each await. *)
Theorem cotimer_bounded t0 es s : cexec (cinit t0) es s -> sleeps_enough es -> (iterations es <= 2 * all_waits es)%nat.
Proof.
  intros E SL. enough (H : (iterations es + run_weight s + weights (cnow s) (cqueue s) <= 2 * all_waits es)%nat) by lia.
  remember (cinit t0) as s0. induction E; subst; [cbn; lia|]. specialize (IHE eq_refl). assert (SL' : sleeps_enough es) by (intros u w I; apply SL; rewrite in_app_iff; auto). specialize (IHE SL').
  rewrite iterations_app, all_waits_app. unfold run_weight in *. inversion H; subst; cbn [crun cqueue cnow] in *; repeat match goal with Q : crun s1 = _ |- _ => rewrite Q in IHE end.
  - ev. lia.
  - assert (W : waits (d :: r) = waits r) by (unfold waits; cbn [filter]; destruct (0 <? d) eqn:Z0; [lia|reflexivity]). rewrite W in IHE. ev. lia.
  - assert (W : waits (d :: r) = S (waits r)) by (unfold waits; cbn [filter]; destruct (0 <? d) eqn:Z0; [reflexivity|lia]). rewrite W in IHE. rewrite weights_cons. ev.
    unfold weight. cbn [crest ctarget]. destruct (_ <? _); lia.
  - ev. change (waits []) with 0%nat in IHE. lia.
  - pose proof (weights_mono (cnow s1) t (cqueue s1) ltac:(lia)). ev. lia.
  - match goal with Q : cqueue s1 = _ |- _ => rewrite Q in * end. rewrite weights_app in *. rewrite weights_cons in IHE. unfold weight in IHE. destruct (ctarget x <? cnow s1) eqn:A; [|lia]. ev. lia.
  - assert (ctarget x < t) by (apply SL; rewrite in_app_iff; cbn; auto). match goal with Q : ctop _ _ |- _ => destruct Q as [I _] end.
    pose proof (weights_drop (cnow s1) t (cqueue s1) x I ltac:(lia) ltac:(lia) ltac:(lia)). ev. lia.
Qed.
(** There is always a next step until all have ended. *)
Lemma max_exists (q : list cot) : q <> [] -> exists x, ctop q x.
Proof.
  induction q as [|x q IH]; [congruence|]. intros _. destruct q as [|y q].
  - exists x. split; [cbn; auto|]. intros z [<-|[]]. lia.
  - destruct IH as (m & I & M); [congruence|]. destruct (ctarget x <? ctarget m) eqn:C.
    + exists m. split; [now right|]. intros z [<-|J]; [lia|auto].
    + exists x. split; [now left|]. intros z [<-|J]; [lia|]. specialize (M z J). lia.
Qed.
Theorem cotimer_progress t0 es s : cexec (cinit t0) es s -> (crun s = None /\ cqueue s = []) \/ exists e s', cstep s e s' /\ (forall h ds t, e <> Started h ds t) /\ (e = Quiet -> crun s <> None).
Proof.
  intros _. destruct (crun s) as [[h [|d r]]|] eqn:R.
  - right. eexists _, _. split; [apply CEnd; eauto|]. split; discriminate.
  - right. destruct (Z.leb_spec d 0); [eexists _, _; split; [eapply CReady; eauto|]; split; [discriminate|congruence]|].
    destruct (Z.leb_spec (cnow s + d) max_ns); [eexists _, _; split; [eapply CWait; eauto|]; split; [discriminate|congruence]|].
    eexists _, _. split; [eapply COverflow; eauto|]. split; [discriminate|congruence].
  - destruct (cqueue s) as [|y q] eqn:Q; [auto|]. right. destruct (max_exists (cqueue s)) as (x & T); [congruence|]. destruct (Z.ltb_spec (ctarget x) (cnow s)).
    + pose proof T as [I _]. apply in_split in I as (l1 & l2 & L). eexists _, _. split; [eapply CResume; eauto|]. split; discriminate.
    + eexists _, _. split; [eapply CSleep with (t := ctarget x); eauto; lia|]. split; discriminate.
Qed.
(** No overflow while the clock is not too close to its end. *)
Theorem cotimer_safe t0 es s D : cexec (cinit t0) es s -> (forall h ds t d, In (Started h ds t) es -> In d ds -> d <= D) -> cnow s + D <= 9223372036854775807 -> forall e, ~ cstep s e None.
Proof.
  change 9223372036854775807 with max_ns. intros E B M e ST. inversion ST; subst. pose proof (i_run _ _ (exec_inv _ _ _ E) _ _ H) as (pre & t1 & I & _). specialize (B _ _ _ d I). rewrite in_app_iff in B. cbn in B. specialize (B ltac:(auto)). lia.
Qed.

(** ** What is not so *)
(** To wait for ever is not possible: the sum overflows. *)
Theorem cotimer_forever_refuted t0 h : 0 < t0 -> exists s, cexec (cinit t0) [Started h [9223372036854775807] t0] s /\ cstep s Quiet None.
Proof.
  change 9223372036854775807 with max_ns. intros P. exists (CState t0 (Some (h, [max_ns])) []). split.
  - change [Started h [max_ns] t0] with ([] ++ [Started h [max_ns] (cnow (cinit t0))]). eapply CSnoc; [apply CNil|]. apply CStart. reflexivity.
  - eapply COverflow; [reflexivity| |]; cbn; unfold max_ns; lia.
Qed.
(** A coroutine that waits for one nanosecond goes on only when another one, which waits for longer times again and again, has ended:
    there is no bound. *)
Definition starving (n : nat) (s : cstate) : Prop :=
  (exists m, (m <= n)%nat /\ crun s = Some (1%nat, repeat 10 m) /\ cqueue s = [Cot 1 0 []] /\ 10 * Z.of_nat (n - m) <= cnow s) \/
  (exists m t, (m < n)%nat /\ crun s = None /\ cqueue s = [Cot t 1 (repeat 10 m); Cot 1 0 []] /\ 10 * Z.of_nat (n - m) <= t /\ 0 <= cnow s) \/
  (crun s = None /\ cqueue s = [Cot 1 0 []] /\ 10 * Z.of_nat n <= cnow s) \/
  (10 * Z.of_nat n <= cnow s /\ (crun s = Some (0%nat, []) \/ crun s = None) /\ cqueue s = []).
Lemma starving_step n s e s' : starving n s -> cstep s e (Some s') -> (forall h ds t, e <> Started h ds t) ->
  starving n s' /\ (forall t, e = Resumed 0 t -> 10 * Z.of_nat n <= t).
Proof.
  intros I ST NS. destruct I as [(m & M & R & Q & T)|[(m & t & M & R & Q & T & P)|[(R & Q & T)|(T & R & Q)]]].
  - inversion ST as [? h ds|? h d r C D|? h d r C D O|? h d r C D O|? h C|? t' C|? x l1 l2 C L TT D|? x t' C TT D O]; subst; try congruence; (split; [|congruence]).
    + destruct m as [|m]; cbn [repeat] in R; [congruence|]. rewrite R in C. injection C as <- <- <-. lia.
    + destruct m as [|m]; cbn [repeat] in R; [congruence|]. rewrite R in C. injection C as <- <- <-. right. left. exists m, (cnow s + 10). cbn [crun cqueue cnow]. rewrite Q. repeat split; auto; lia.
    + destruct m as [|m]; cbn [repeat] in R; [|congruence]. right. right. left. cbn [crun cqueue cnow]. repeat split; auto. lia.
    + left. exists m. cbn [crun cqueue cnow]. repeat split; auto. lia.
  - inversion ST as [? h ds|? h d r C D|? h d r C D O|? h d r C D O|? h C|? t' C|? x l1 l2 C L TT D|? x t' C TT D O]; subst; try congruence; try (exfalso; eapply NS; reflexivity).
    + split; [|congruence]. right. left. exists m, t. cbn [crun cqueue cnow]. repeat split; auto. lia.
    + rewrite Q in *. destruct TT as [_ TOP]. specialize (TOP (Cot t 1 (repeat 10 m)) ltac:(cbn; auto)). cbn [ctarget] in TOP.
      destruct l1 as [|y l1]; cbn [app] in L.
      * injection L as <- <-. cbn [ctarget chandle crest] in *. split; [|congruence]. left. exists m. cbn [crun cqueue cnow app]. repeat split; auto; lia.
      * destruct l1 as [|z l1]; cbn [app] in L; [|destruct l1; discriminate]. injection L as <- <- <-. cbn [ctarget] in TOP. lia.
    + split; [|congruence]. right. left. exists m, t. cbn [crun cqueue cnow]. repeat split; auto. lia.
  - inversion ST as [? h ds|? h d r C D|? h d r C D O|? h d r C D O|? h C|? t' C|? x l1 l2 C L TT D|? x t' C TT D O]; subst; try congruence; try (exfalso; eapply NS; reflexivity).
    + split; [|congruence]. right. right. left. cbn [crun cqueue cnow]. repeat split; auto. lia.
    + rewrite Q in *. destruct l1 as [|y l1]; [|destruct l1; discriminate]. injection L as <- <-. cbn [chandle crest app]. split; [|intros t E; injection E as <-; lia].
      right. right. right. cbn [crun cqueue cnow]. auto.
    + split; [|congruence]. right. right. left. cbn [crun cqueue cnow]. repeat split; auto. lia.
  - inversion ST as [? h ds|? h d r C D|? h d r C D O|? h d r C D O|? h C|? t' C|? x l1 l2 C L TT D|? x t' C TT D O]; subst; try (exfalso; eapply NS; reflexivity); try (destruct R as [R|R]; congruence); try (split; [|congruence]).
    + right. right. right. cbn [crun cqueue cnow]. auto.
    + right. right. right. cbn [crun cqueue cnow]. repeat split; auto. lia.
    + rewrite Q in *. destruct l1; discriminate.
    + rewrite Q in *. destruct TT as [[] _].
Qed.
Definition starve (n : nat) : cstate := CState 0 (Some (1%nat, repeat 10 n)) [Cot 1 0 []].
Lemma starve_reached n : cexec (cinit 0) [Started 0 [1] 0; Quiet; Started 1 (repeat 10 n) 0] (starve n).
Proof.
  change [Started 0 [1] 0; Quiet; Started 1 (repeat 10 n) 0] with ((([] ++ [Started 0 [1] (cnow (cinit 0))]) ++ [Quiet]) ++ [Started 1 (repeat 10 n) (cnow (CState 0 None [Cot 1 0 []]))]).
  eapply CSnoc; [eapply CSnoc; [eapply CSnoc; [apply CNil|apply CStart; reflexivity]|]|apply CStart; reflexivity].
  change 1 with (cnow (CState 0 (Some (0%nat, [1])) []) + 1) at 2. apply CWait; cbn; unfold max_ns; try reflexivity; lia.
Qed.
Theorem cotimer_starved_refuted n : cexec (cinit 0) [Started 0 [1] 0; Quiet; Started 1 (repeat 10 n) 0] (starve n) /\
  forall es s t, cexec (starve n) es s -> (forall h ds t1, ~ In (Started h ds t1) es) -> In (Resumed 0 t) es -> 10 * Z.of_nat n <= t.
Proof.
  split; [apply starve_reached|]. intros es s t E NS. enough (H : starving n s /\ (In (Resumed 0 t) es -> 10 * Z.of_nat n <= t)) by tauto.
  remember (starve n) as s0. induction E; subst.
  - split; [|contradiction]. left. exists n. unfold starve. cbn [crun cqueue cnow]. repeat split; auto. lia.
  - destruct IHE as [I J]; [reflexivity|intros h ds t1 K; apply (NS h ds t1); rewrite in_app_iff; auto|].
    destruct (starving_step _ _ _ _ I H) as [A B]; [intros h ds t1 ->; apply (NS h ds t1); rewrite in_app_iff; cbn; auto|].
    split; [exact A|]. rewrite in_app_iff. cbn. intros [K|[K|[]]]; auto.
Qed.

(** ** A case *)
(** Two awaits, one of them already over: resumed once, with one sleep. *)
Ltac snoc := match goal with |- cexec _ ?l _ => let a := eval cbn in (removelast l) in let b := eval cbn in (last l Quiet) in change l with (a ++ [b]); eapply CSnoc end.
Example ex_cotimer : exists s, cexec (cinit 100) [Started 7 [-3; 5] 100; Quiet; Quiet; Slept 105 106; Resumed 7 106; Finished 7 106] s /\ cqueue s = [] /\ crun s = None.
Proof.
  eexists. split.
  - snoc; [snoc; [snoc; [snoc; [snoc; [snoc; [apply CNil|]|]|]|]|]|].
    + apply CStart with (s := cinit 100). reflexivity.
    + eapply CReady; [reflexivity|lia].
    + eapply CWait; [reflexivity|lia|cbn; unfold max_ns; lia].
    + eapply CSleep with (x := Cot 105 7 []) (s := CState 100 None [Cot 105 7 []]); cbn; try lia; [reflexivity|]. split; [cbn; auto|]. intros y [<-|[]]. reflexivity.
    + eapply CResume with (s := CState 106 None [Cot 105 7 []]) (x := Cot 105 7 []) (l1 := []) (l2 := []); cbn; try lia; try reflexivity. split; [cbn; auto|]. intros y [<-|[]]. reflexivity.
    + apply CEnd with (s := CState 106 (Some (7%nat, [])) []). reflexivity.
  - split; reflexivity.
Qed.
