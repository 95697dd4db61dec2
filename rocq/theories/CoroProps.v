(** Theorems about the coroutine tasks ProcessTask and UpdateTask. *)
From Coq Require Import Permutation ZifyBool ZifyNat.
From Verif Require Import Common CoroModel CoroSpec CoroProofs.

(** ** C51: awaiting a task is running it *)

Lemma mexec_run u m0 n m r : mrun u n m0 m -> mexec u m r ->
  (exists n' m', r = Ok m' /\ mrun u n' m0 m') \/ (exists n' m', mrun u n' m0 m' /\ mstep u m' r /\ forall x, r <> Ok x).
Proof.
  intros Hr Hx. revert n Hr. induction Hx as [m|m m' r Hs Hx IH|m r Hs Hn]; intros n Hr.
  - left. eauto.
  - apply (IH (S n)). econstructor; eauto.
  - right. eauto.
Qed.

Lemma mtick u m r : stack m <> [] -> tick u m = r -> mstep u m r.
Proof. intros H <-. now constructor. Qed.

Lemma mfire u m i r : stack m = [] -> i < length (timers m) -> fire m i = r -> mstep u m r.
Proof. intros H1 H2 <-. now constructor. Qed.

(** Structured coroutines never terminate the program nor touch a destroyed frame, in whatever order the event loop resumes
    them. *)
Theorem task_safe update b r :
  structured update [] b -> mexec update (minit b) r -> exists m, r = Ok m.
Proof.
  intros Hs Hx. destruct (mexec_run _ _ _ _ _ (MR0 _ _) Hx) as [(n & m & -> & _)|(n & m & Hr & Hst & Hn)]; [eauto|].
  destruct (run_inv _ _ _ _ Hs Hr) as (E & G & P & I). destruct (step_inv _ _ _ _ _ _ _ _ I Hst) as (m' & -> & _). now eauto.
Qed.

(** The outcome of the main coroutine does not depend on the order: it is the one of the sequential program. *)
Theorem task_result update b n m :
  structured update [] b -> mrun update n (minit b) m -> is_done (frames m 0) = true ->
  result (frames m 0) = Some (eval [] b).
Proof.
  intros Hs Hr Hd. destruct (run_inv _ _ _ _ Hs Hr) as (E & G & P & I). destruct (i_zero I) as (Z1 & Z2 & _).
  unfold is_done in Hd. destruct (code (frames m 0)) eqn:Hc; try discriminate. rewrite <- Z2. now apply (i_done I).
Qed.

(** No continuation is lost: when the event loop has nothing to resume, every coroutine has finished. *)
Theorem task_no_lost_wakeup update b n m :
  structured update [] b -> mrun update n (minit b) m -> quiescent m ->
  forall h, h < next m -> is_done (frames m h) = true.
Proof. intros Hs Hr Hq. destruct (run_inv _ _ _ _ Hs Hr) as (E & G & P & I). now apply (quiescent_done _ _ _ _ _ _ _ I). Qed.

(** The program never gets stuck, and every order takes the same number of steps to the end. *)
Theorem task_terminates update b n m :
  structured update [] b -> mrun update n (minit b) m ->
  n <= cost [] b /\ (quiescent m -> n = cost [] b) /\ (~ quiescent m -> exists m', mstep update m (Ok m')).
Proof.
  intros Hs Hr. destruct (run_inv _ _ _ _ Hs Hr) as (E & G & P & I). split; [pose proof (i_cost I); lia|]. split.
  - now apply (quiescent_cost _ _ _ _ _ _ _ I).
  - intros Hq. destruct (stack m) as [|h st] eqn:Hst.
    + destruct (timers m) as [|h ts] eqn:Ht; [exfalso; apply Hq; now split|].
      assert (A : mstep update m (fire m 0)) by (constructor; auto; rewrite Ht; simpl; lia).
      destruct (step_inv _ _ _ _ _ _ _ _ I A) as (m' & B & _). exists m'. now rewrite <- B.
    + assert (A : mstep update m (tick update m)) by (constructor; congruence).
      destruct (step_inv _ _ _ _ _ _ _ _ I A) as (m' & B & _). exists m'. now rewrite <- B.
Qed.

(** So every execution can be, and after [cost] steps is, completed. *)
Theorem task_completes update b n m :
  structured update [] b -> mrun update n (minit b) m -> exists m', mrun update (cost [] b) (minit b) m' /\ quiescent m'.
Proof.
  intros Hs. remember (cost [] b - n) as d eqn:Hd. revert n m Hd. induction d as [|d IH]; intros n m Hd Hr.
  - destruct (task_terminates _ _ _ _ Hs Hr) as (A1 & A2 & A3). exists m. assert (n = cost [] b) by lia. subst n. split; auto.
    destruct (stack m) eqn:Q1; [destruct (timers m) eqn:Q2; [now split|]|];
      (assert (Hq : ~ quiescent m) by (intros [X Y]; congruence); destruct (A3 Hq) as [m' Hst];
       assert (Hr' : mrun update (S (cost [] b)) (minit b) m') by (econstructor; eauto);
       destruct (task_terminates _ _ _ _ Hs Hr') as (B1 & _); lia).
  - destruct (task_terminates _ _ _ _ Hs Hr) as (A1 & A2 & A3).
    assert (Hq : ~ quiescent m) by (intros Hq; specialize (A2 Hq); lia). destruct (A3 Hq) as [m' Hst].
    apply (IH (S n) m'); [lia|]. econstructor; eauto.
Qed.

(** A body with two children, one of which fails after two events; they are awaited in the opposite order. *)
Definition child1 : body := CTimer (CRet 5).
Definition child2 : body := CTimer (CTimer (CThrow 7)).
Definition parent : body :=
  CSpawn child1 (CSpawn child2 (CAwait 1 (fun o2 => CAwait 0 (fun o1 =>
    match o1, o2 with OVal a, OExn e => CRet (a + e) | _, _ => CThrow 1 end)))).

(** Runs the machine, resuming the coroutine at position [f] of the timers; for the examples. *)
Fixpoint drive (update : bool) (fuel : nat) (sched : list nat) (m : machine) : res machine :=
  match fuel with
  | 0 => Ok m
  | S fuel' =>
    match stack m, timers m, sched with
    | [], [], _ => Ok m
    | [], _, [] => Ok m
    | [], _, f :: sched' => let* m' := fire m f in drive update fuel' sched' m'
    | _, _, _ => let* m' := tick update m in drive update fuel' sched m'
    end
  end.

Definition summary (r : res machine) : option (option outcome * list nat * nat) :=
  match r with Ok m => Some (result (frames m 0), destroyed m, next m) | _ => None end.

Example task_example :
  structured false [] parent /\ eval [] parent = OVal 12 /\ cost [] parent = 13 /\
  summary (drive false 50 [0; 0; 0] (minit parent)) = Some (Some (OVal 12), [2; 1], 3) /\
  summary (drive false 50 [1; 1; 0] (minit parent)) = Some (Some (OVal 12), [2; 1], 3) /\
  summary (drive false 12 [1; 1; 0] (minit parent)) = Some (None, [], 3).
Proof.
  split; [|repeat split; reflexivity].
  assert (N : forall l : list bool, l = [false; false] -> forall i, nth_error l i <> Some true) by (intros l -> [|[|[|i]]]; cbn; congruence).
  assert (N0 : forall i, nth_error (@nil bool) i <> Some true) by (intros [|i]; cbn; congruence).
  cbn [parent child1 child2 structured nth_error set_nth app]. split; [auto|]. split; [auto|]. split; [reflexivity|].
  intros o2. split; [reflexivity|]. intros o1. destruct o1, o2; cbn [structured]; auto.
Qed.

(** A task can be awaited again only if it had finished before it was awaited the first time: *)
Definition twice (c : body) : body := CSpawn c (CAwait 0 (fun _ => CAwait 0 (fun o => match o with OVal v => CRet v | OExn e => CThrow e end))).

Theorem task_await_again_refuted :
  exists c, mexec false (minit (twice c)) (Throw LogicError) /\ eval [] c = OVal 5 /\
    summary (drive false 50 [] (minit (twice (CRet 5)))) = Some (Some (OVal 5), [1], 2).
Proof.
  exists (CTimer (CRet 5)). split; [|split; reflexivity].
  eapply MCons; [apply mtick; [discriminate|reflexivity]|].
  eapply MCons; [apply mtick; [discriminate|reflexivity]|].
  eapply MCons; [apply mtick; [discriminate|reflexivity]|].
  eapply MCons; [apply (mfire _ _ 0); [reflexivity|cbn; lia|reflexivity]|].
  eapply MCons; [apply mtick; [discriminate|reflexivity]|].
  eapply MStop; [|intros m' Hm; discriminate].
  apply mtick; [discriminate|reflexivity].
Qed.

(** A coroutine that ends before a task it has started leaves the handle of a destroyed frame with the event loop. *)
Theorem task_dropped_refuted : exists b, mexec false (minit b) UB.
Proof.
  exists (CSpawn (CTimer (CRet 5)) (CRet 0)).
  eapply MCons; [apply mtick; [discriminate|reflexivity]|].
  eapply MCons; [apply mtick; [discriminate|reflexivity]|].
  eapply MStop; [|intros m' Hm; discriminate].
  apply mtick; [discriminate|reflexivity].
Qed.

(** ** C52: the frames *)

(** No frame is destroyed twice, and none that has not finished. *)
Theorem frame_destroyed_once update b n m :
  structured update [] b -> mrun update n (minit b) m ->
  NoDup (destroyed m) /\ (forall c, In c (destroyed m) -> is_done (frames m c) = true) /\ ~ In 0 (destroyed m).
Proof.
  intros Hs Hr. destruct (run_inv _ _ _ _ Hs Hr) as (E & G & P & I). destruct (i_destroyed I) as [A B]. split; auto. split.
  - intros c Hc. destruct (is_done (frames m c)) eqn:Hd; auto. pose proof (B c Hc) as Hlt.
    apply (i_dead I) in Hc; [|lia]. rewrite (i_alive I c ltac:(lia) Hd) in Hc. discriminate.
  - intros Hin. apply B in Hin. lia.
Qed.

(** At the end the frames of all the ProcessTasks but the main one have been destroyed. *)
Theorem frame_no_leak b n m :
  structured false [] b -> mrun false n (minit b) m -> quiescent m -> Permutation (destroyed m) (seq 1 (next m - 1)).
Proof.
  intros Hs Hr Hq. destruct (run_inv _ _ _ _ Hs Hr) as (E & G & P & I). destruct (i_destroyed I) as [A B].
  apply NoDup_Permutation; auto using seq_NoDup. intros c. rewrite in_seq. split.
  - intros Hc. specialize (B c Hc). lia.
  - intros Hc. destruct (i_orphan I c ltac:(lia)) as [(h & i & H1 & H2)|[H1|H1]]; auto.
    + pose proof (quiescent_done _ _ _ _ _ _ _ I Hq h H1) as D. unfold is_done in D.
      destruct (code (frames m h)) eqn:Hc'; try discriminate. destruct (i_done I h H1 Hc') as [_ L]. rewrite L in H2. now destruct i.
    + rewrite (i_owned I eq_refl) in H1; [discriminate|lia].
Qed.

(** An UpdateTask that is released while it is running is destroyed when it ends... *)
Lemma keep_destroy m c x m' : destroy m c = Ok m' -> frames m' x = frames m x \/ x = c.
Proof.
  unfold destroy. destruct (_ && _); cbn; [|discriminate]. intros H. injection H as H. subst. cbn.
  destruct (Nat.eq_dec x c); auto. left. now rewrite upd_neq.
Qed.

Lemma destroyed_grows u b0 E G P n m m' c :
  inv u b0 E G P n m -> mstep u m (Ok m') -> c < next m ->
  (owned (frames m c) = false /\ is_done (frames m c) = false) \/ In c (destroyed m) ->
  (owned (frames m' c) = false /\ is_done (frames m' c) = false) \/ In c (destroyed m').
Proof.
  intros I Hs Hc Hk. remember (Ok m') as r eqn:Hr. destruct Hs as [m Hne|m i Hst Hi].
  - unfold tick in Hr. destruct (stack m) as [|h st] eqn:Hst; [congruence|].
    destruct (top_facts _ _ _ _ _ _ _ _ _ I Hst) as (Hh & Hal & Hnd & [b Hb] & Ct1 & Ct2).
    rewrite Hal in Hr. cbn [guard] in Hr. rewrite Hb in Hr. destruct (i_run I h b Hh Hb) as [Hev Hs].
    assert (Fin : forall o, finish u m h o st = Ok m' -> (owned (frames m' c) = false /\ is_done (frames m' c) = false) \/ In c (destroyed m')).
    { intros o Hf. unfold finish in Hf.
      destruct (destroy_all m (locals (frames m h))) as [m1| |] eqn:Hd; try discriminate. cbn [rbind] in Hf.
      assert (D1 : forall ls m1, (forall x, In (Some x) ls -> In (Some x) (locals (frames m h))) -> destroy_all m ls = Ok m1 ->
        (owned (frames m c) = false -> frames m1 c = frames m c) /\ (In c (destroyed m) -> In c (destroyed m1)) /\ frames m1 h = frames m h).
      { clear -I Hh Hc. induction ls as [|y ls IH]; intros m1 Hin Hd; cbn [destroy_all] in Hd.
        - injection Hd as Hd. subst. auto.
        - destruct (destroy_all m ls) as [m2| |] eqn:Hd2; try discriminate. cbn [rbind] in Hd.
          destruct (IH m2) as (A1 & A2 & A3); auto. { intros x Hx. apply Hin. now right. }
          destruct y as [y|]; [|injection Hd as Hd; subst; auto].
          assert (Hy : In (Some y) (locals (frames m h))) by (apply Hin; now left).
          apply In_nth_error in Hy. destruct Hy as [i Hy]. destruct (i_loc I h i y Hh Hy) as (B1 & B2 & B3 & _).
          pose proof (keep_destroy _ _ c _ Hd) as K1. pose proof (keep_destroy _ _ h _ Hd) as K2.
          unfold destroy in Hd. destruct (_ && _) in Hd; cbn in Hd; [|discriminate]. injection Hd as Hd.
          repeat split.
          + intros Ho. destruct K1 as [K1|K1]; [rewrite K1; auto|subst; congruence].
          + intros Hi. subst m1. cbn. apply in_app_iff. auto.
          + destruct K2 as [K2|K2]; [congruence|lia]. }
      destruct (D1 _ _ (fun x Hx => Hx) Hd) as (A1 & A2 & A3). rewrite A3 in Hf.
      set (m2 := Machine (upd (frames m1) h (complete (frames m h) o)) (next m1) st (timers m1) (destroyed m1)) in Hf.
      assert (K2 : (c <> h -> owned (frames m c) = false -> frames m2 c = frames m c) /\ (In c (destroyed m) -> In c (destroyed m2))).
      { split; [|exact A2]. intros Hne' Ho. cbn. rewrite upd_neq; auto. }
      destruct (if owned (frames m h) then Ok m2 else destroy m2 h) as [m3| |] eqn:H3; try discriminate. cbn [rbind] in Hf.
      assert (K3 : (c <> h -> owned (frames m c) = false -> frames m3 c = frames m c) /\ (In c (destroyed m) -> In c (destroyed m3)) /\
         (owned (frames m h) = false -> In h (destroyed m3))).
      { destruct (owned (frames m h)) eqn:Ho.
        - injection H3 as H3. subst m3. repeat split; try apply K2. discriminate.
        - pose proof (keep_destroy _ _ c _ H3) as K. unfold destroy in H3. destruct (_ && _) in H3; cbn in H3; [|discriminate]. injection H3 as H3.
          repeat split.
          + intros Hne' Ho'. destruct K as [K|K]; [|contradiction]. rewrite K. now apply K2.
          + intros Hi. subst m3. cbn. apply in_app_iff. left. now apply K2.
          + intros _. subst m3. cbn. apply in_app_iff. right. now left. }
      assert (K4 : (c <> h -> owned (frames m c) = false -> owned (frames m' c) = false /\ (is_done (frames m c) = false -> is_done (frames m' c) = false)) /\
         destroyed m' = destroyed m3).
      { destruct (awaiting (frames m h)) as [p|] eqn:Hp.
        - unfold resume_awaiting in Hf. destruct (_ && _) in Hf; cbn [guard] in Hf; [|discriminate].
          destruct (code (frames m3 p)) eqn:Hcp; try discriminate. injection Hf as Hf. subst m'. cbn. split; auto.
          intros Hne' Ho. destruct (Nat.eq_dec c p) as [e|e]; [subst c; rewrite upd_eq; cbn|rewrite upd_neq by auto]; rewrite (proj1 K3) by auto; auto.
        - injection Hf as Hf. subst m3. split; auto. intros Hne' Ho. rewrite (proj1 K3) by auto. auto. }
      destruct K4 as [K4 K5]. destruct Hk as [[Ho Hd']|Hin].
      + destruct (Nat.eq_dec c h) as [e|e].
        * subst c. right. rewrite K5. now apply K3.
        * left. destruct (K4 e Ho) as [X Y]. auto.
      + right. rewrite K5. now apply K3. }
    destruct b as [v|e|k|b k|i k|i k]; cbn [structured] in Hs.
    + eapply Fin; eauto.
    + destruct u; [discriminate|]. eapply Fin; eauto.
    + injection Hr as Hr. subst m'. cbn. destruct Hk as [[A B]|A]; auto. left. ud1 c h; auto.
    + injection Hr as Hr. subst m'. cbn. destruct Hk as [[A B]|A]; auto. left. ud1 c h; auto.
      rewrite upd_neq by lia. auto.
    + destruct (nth_error (locals (frames m h)) i) as [[y|]|] eqn:Hl; try discriminate.
      destruct (alive (frames m y)); cbn [guard] in Hr; [|discriminate].
      destruct (awaiting (frames m y)); [discriminate|].
      destruct (is_done (frames m y)) eqn:Hdy.
      * destruct (result (frames m y)); [|discriminate]. injection Hr as Hr. subst m'. cbn. destruct Hk as [[A B]|A]; auto. left. ud1 c h; auto.
      * injection Hr as Hr. subst m'. cbn. destruct Hk as [[A B]|A]; auto. left. ud1 c h; auto. ud1 c y; auto.
    + destruct (nth_error (locals (frames m h)) i) as [[y|]|] eqn:Hl; try discriminate.
      * destruct (alive (frames m y)); cbn [guard] in Hr; [|discriminate].
        injection Hr as Hr. subst m'. cbn. destruct Hk as [[A B]|A]; auto. left. ud1 c h; auto. ud1 c y; auto.
      * injection Hr as Hr. subst m'. cbn. destruct Hk as [[A B]|A]; auto. left. ud1 c h; auto.
  - unfold fire in Hr. destruct (nth_error (timers m) i); [|discriminate]. destruct (alive _); cbn in Hr; [|discriminate].
    injection Hr as Hr. subst m'. auto.
Qed.

Lemma next_grows u b0 E G P n m m' : inv u b0 E G P n m -> mstep u m (Ok m') -> next m <= next m'.
Proof.
  intros I Hs. remember (Ok m') as r eqn:Hr. destruct Hs as [m Hne|m i Hst Hi].
  - unfold tick in Hr. destruct (stack m) as [|h st] eqn:Hst; [congruence|].
    destruct (top_facts _ _ _ _ _ _ _ _ _ I Hst) as (Hh & Hal & Hnd & [b Hb] & Ct1 & Ct2).
    rewrite Hal in Hr. cbn [guard] in Hr. rewrite Hb in Hr. destruct (i_run I h b Hh Hb) as [Hev Hs].
    assert (Dn : forall x y z, destroy x y = Ok z -> next z = next x).
    { intros x y z. unfold destroy. destruct (_ && _); cbn; [|discriminate]. intros H. injection H as H. now subst. }
    assert (Da : forall ls x z, destroy_all x ls = Ok z -> next z = next x).
    { induction ls as [|y ls IH]; intros x z; cbn [destroy_all]. { intros H; injection H as H; now subst. }
      destruct (destroy_all x ls) as [w| |] eqn:E1; try discriminate. cbn [rbind]. rewrite <- (IH _ _ E1).
      destruct y; [apply Dn|]. intros H; injection H as H; now subst. }
    assert (Fin : forall o, finish u m h o st = Ok m' -> next m <= next m').
    { intros o. unfold finish. destruct (destroy_all m (locals (frames m h))) as [m1| |] eqn:Hd; try discriminate. cbn [rbind].
      apply Da in Hd. set (m2 := Machine _ _ _ _ _). assert (N2 : next m2 = next m) by exact Hd. clearbody m2.
      destruct (if owned (frames m1 h) then Ok m2 else destroy m2 h) as [m3| |] eqn:H3; try discriminate. cbn [rbind].
      assert (N3 : next m3 = next m). { destruct (owned (frames m1 h)); [injection H3 as H3; congruence|]. apply Dn in H3. congruence. }
      destruct (awaiting (frames m1 h)) as [p|]; [|intros H; injection H as H; subst; lia].
      unfold resume_awaiting. destruct (_ && _); cbn [guard]; [|discriminate].
      destruct (code (frames m3 p)); try discriminate. intros H. injection H as H. subst. cbn. lia. }
    destruct b as [v|e|k|b k|i k|i k].
    + eapply Fin; eauto.
    + destruct u; [discriminate|]. eapply Fin; eauto.
    + injection Hr as Hr. subst m'. cbn. lia.
    + injection Hr as Hr. subst m'. cbn. lia.
    + destruct (nth_error (locals (frames m h)) i) as [[y|]|]; try discriminate.
      destruct (alive (frames m y)); cbn [guard] in Hr; [|discriminate].
      destruct (awaiting (frames m y)); [discriminate|]. destruct (is_done (frames m y)).
      * destruct (result (frames m y)); [|discriminate]. injection Hr as Hr. subst m'. cbn. lia.
      * injection Hr as Hr. subst m'. cbn. lia.
    + destruct (nth_error (locals (frames m h)) i) as [[y|]|]; try discriminate.
      * destruct (alive (frames m y)); cbn [guard] in Hr; [|discriminate]. injection Hr as Hr. subst m'. cbn. lia.
      * injection Hr as Hr. subst m'. cbn. lia.
  - unfold fire in Hr. destruct (nth_error (timers m) i); [|discriminate]. destruct (alive _); cbn in Hr; [|discriminate].
    injection Hr as Hr. subst m'. cbn. lia.
Qed.

Theorem frame_released_running b n m n' m' c :
  structured true [] b -> mrun true n (minit b) m -> mrun true n' m m' -> quiescent m' ->
  c < next m -> owned (frames m c) = false -> is_done (frames m c) = false -> In c (destroyed m').
Proof.
  intros Hs Hr Hr' Hq Hc Ho Hd.
  assert (A : exists k, mrun true k (minit b) m' /\ c < next m' /\
     ((owned (frames m' c) = false /\ is_done (frames m' c) = false) \/ In c (destroyed m'))).
  { clear Hq. induction Hr' as [m|n1 m m1 m2 Hr1 IH1 Hst]; [exists n; auto|].
    destruct IH1 as (k & A1 & A2 & A3); auto. destruct (run_inv _ _ _ _ Hs A1) as (E & G & P & I).
    exists (S k). repeat split.
    - econstructor; eauto.
    - pose proof (next_grows _ _ _ _ _ _ _ _ I Hst). lia.
    - eapply destroyed_grows; eauto. }
  destruct A as (k & A1 & A2 & [[_ A3]|A3]); auto.
  now rewrite (task_no_lost_wakeup _ _ _ _ Hs A1 Hq c A2) in A3.
Qed.

Example frame_released_example :
  let b := CSpawn (CTimer (CRet 0)) (CDetach 0 (CTimer (CRet 1))) in
  structured true [] b /\ summary (drive true 50 [1; 0] (minit b)) = Some (Some (OVal 1), [1], 2).
Proof. cbn. repeat split; auto; intros [|[|i]]; cbn; congruence. Qed.

(** ... but the frame of one that has already finished when it is released is never destroyed. *)
Theorem frame_released_leak_refuted :
  exists b n m, structured true [] b /\ mrun true n (minit b) m /\ quiescent m /\
    exists c, 0 < c < next m /\ ~ In c (destroyed m) /\ is_done (frames m c) = true /\ owned (frames m c) = false.
Proof.
  exists (CSpawn (CRet 0) (CDetach 0 (CRet 1))), 4.
  destruct (drive true 4 [] (minit (CSpawn (CRet 0) (CDetach 0 (CRet 1))))) as [m| |] eqn:Hm; try discriminate.
  exists m. cbn in Hm. injection Hm as Hm. repeat split.
  - intros [|i]; cbn; congruence.
  - intros [|[|i]]; cbn; congruence.
  - rewrite <- Hm.
    eapply MRS; [eapply MRS; [eapply MRS; [eapply MRS; [apply MR0|apply mtick; [discriminate|reflexivity]]|apply mtick; [discriminate|reflexivity]]|apply mtick; [discriminate|reflexivity]]|apply mtick; [discriminate|reflexivity]].
  - now rewrite <- Hm.
  - now rewrite <- Hm.
  - exists 1. rewrite <- Hm. cbn. repeat split; try lia.
Qed.
