(** Properties of the update queue (C24). *)
From Coq Require Import Sorting.Permutation ZifyBool ZifyNat.
From Verif Require Import Common QListModel QListProofs QListRel UQueueModel UQueueSpec UQueueProofs.

Section Props.
Context {U : Type}.
Notation uop := (uop (U := U)).

(** Every schedule of pushes, clears and the steps of one applying thread runs without
    undefined behaviour and applies exactly what two plain queues would. *)
Theorem update_queue_refines_fifo : forall (os : list uop) s vs, sqrun sq0 os = Some (s, vs) ->
  exists st, uexec os = Ok (st, vs).
Proof. intros os s vs H. destruct (uexec_sim os s vs H) as (st & _ & _ & _ & E & _). eauto. Qed.

Lemma conserve os : forall (s s' : sq (U := U)) vs, sqrun s os = Some (s', vs) -> forallb (fun o => negb (discards o)) os = true ->
  in_flight s ++ pushed os = applied vs ++ in_flight s'.
Proof.
  induction os as [|o os IH]; cbn [sqrun forallb pushed]; intros s s' vs E D.
  - injection E as <- <-. cbn. now rewrite app_nil_r.
  - destruct (sqstep s o) as [[s1 v]|] eqn:E1; [|discriminate]. destruct (sqrun s1 os) as [[s2 vs2]|] eqn:E2; [|discriminate]. injection E as <- <-.
    apply andb_true_iff in D as [D1 D2]. specialize (IH _ _ _ E2 D2). destruct s as [w ph]. unfold in_flight in *.
    destruct o; try discriminate D1; cbn [sqstep waiting phase_] in E1.
    + injection E1 as <- <-. cbn in *. rewrite <- IH. cbn. now rewrite <- !app_assoc.
    + destruct ph; try discriminate. injection E1 as <- <-. cbn in *. rewrite app_nil_r in IH. auto.
    + destruct ph as [|[|u l]|]; try discriminate. injection E1 as <- <-. cbn in *. now rewrite <- IH.
    + destruct ph; try discriminate. injection E1 as <- <-. cbn in *. auto.
    + destruct ph as [|[|u l]|]; try discriminate. injection E1 as <- <-. cbn in *. auto.
Qed.

(** Without ClearPending and without exceptions, what was pushed is what was applied
    followed by what is still in the queue: nothing is lost, duplicated or reordered.
    Once nothing is in flight the updates applied are those pushed, in order. *)
Theorem update_queue_exactly_once_in_order : forall (os : list uop) s vs, sqrun sq0 os = Some (s, vs) ->
  forallb (fun o => negb (discards o)) os = true ->
  exists st, uexec os = Ok (st, vs) /\ pushed os = applied vs ++ in_flight s.
Proof.
  intros os s vs H D. destruct (update_queue_refines_fifo _ _ _ H) as (st & E). exists st. split; [exact E|].
  exact (conserve os sq0 s vs H D).
Qed.

Lemma subseq_refl (l : list U) : subseq l l.
Proof. induction l; [constructor|now apply sub_keep]. Qed.
Lemma subseq_nil (l : list U) : subseq [] l.
Proof. induction l; [constructor|now apply sub_skip]. Qed.
Lemma subseq_app (a b c d : list U) : subseq a b -> subseq c d -> subseq (a ++ c) (b ++ d).
Proof. intros H. revert c d. induction H; cbn; intros; [auto|apply sub_skip; auto|apply sub_keep; auto]. Qed.
Lemma subseq_trans (a b c : list U) : subseq a b -> subseq b c -> subseq a c.
Proof.
  intros H1 H2. revert a H1. induction H2 as [|x b c H2 IH|x b c H2 IH]; intros a H1; [exact H1|apply sub_skip; auto|].
  inversion H1; subst; [apply sub_skip; auto|apply sub_keep; auto].
Qed.

Lemma order_kept os : forall (s s' : sq (U := U)) vs, sqrun s os = Some (s', vs) ->
  subseq (applied vs ++ in_flight s') (in_flight s ++ pushed os).
Proof.
  induction os as [|o os IH]; cbn [sqrun pushed]; intros s s' vs E.
  - injection E as <- <-. cbn. rewrite app_nil_r. apply subseq_refl.
  - destruct (sqstep s o) as [[s1 v]|] eqn:E1; [|discriminate]. destruct (sqrun s1 os) as [[s2 vs2]|] eqn:E2; [|discriminate]. injection E as <- <-.
    specialize (IH _ _ _ E2). destruct s as [w ph]. unfold in_flight in *.
    destruct o; cbn [sqstep waiting phase_] in E1.
    + injection E1 as <- <-. cbn [applied waiting phase_] in *. rewrite <- !app_assoc in *. exact IH.
    + injection E1 as <- <-. cbn [applied waiting phase_] in *. eapply subseq_trans; [exact IH|]. apply subseq_app; [|apply subseq_refl].
      apply subseq_app; [apply subseq_refl|apply subseq_nil].
    + destruct ph; try discriminate. injection E1 as <- <-. cbn in *. rewrite app_nil_r in IH. exact IH.
    + destruct ph as [|[|u l]|]; try discriminate. injection E1 as <- <-. cbn in *. now apply sub_keep.
    + destruct ph; try discriminate. injection E1 as <- <-. exact IH.
    + destruct ph; try discriminate. injection E1 as <- <-. cbn [applied waiting phase_] in *. eapply subseq_trans; [exact IH|].
      apply subseq_app; [|apply subseq_refl]. rewrite <- (app_nil_l w) at 1. apply subseq_app; [apply subseq_nil|apply subseq_refl].
    + destruct ph as [|[|u l]|]; try discriminate. injection E1 as <- <-. exact IH.
Qed.

(** With clears and exceptions updates can be dropped, but never reordered, duplicated
    or invented. *)
Theorem update_queue_order_kept : forall (os : list uop) s vs, sqrun sq0 os = Some (s, vs) ->
  exists st, uexec os = Ok (st, vs) /\ subseq (applied vs) (pushed os).
Proof.
  intros os s vs H. destruct (update_queue_refines_fifo _ _ _ H) as (st & E). exists st. split; [exact E|].
  eapply subseq_trans; [|exact (order_kept os sq0 s vs H)]. rewrite <- (app_nil_r (applied vs)) at 1. apply subseq_app; [apply subseq_refl|apply subseq_nil].
Qed.

(** The destructor deletes every block that was allocated, exactly once, whenever it runs. *)
Theorem update_queue_frees_every_block : forall (os : list uop) s vs, sqrun sq0 os = Some (s, vs) ->
  exists st ds, uexec os = Ok (st, vs) /\ udestroy st = Ok ds /\ Permutation ds (seq 0 (blocks st)).
Proof.
  intros os s vs H. destruct (uexec_sim os s vs H) as (st & P & F & R & E & HR). exists st, (R ++ F ++ P).
  split; [exact E|]. split; [eapply udestroy_ok; eauto|]. rewrite <- (u_perm _ _ _ _ _ HR).
  rewrite (Permutation_app_comm R), <- app_assoc, (Permutation_app_comm F), <- app_assoc. apply Permutation_app_head. apply Permutation_app_comm.
Qed.

(** What ApplyUpdates reads without holding the mutex, the update and the forward link of
    the message it is at, is not written by a concurrent Push or ClearPending. *)
Theorem update_queue_no_data_race : forall (os : list uop) s vs o st n,
  sqrun sq0 os = Some (s, vs) -> uexec os = Ok (st, vs) -> (o = UClearPending \/ exists u, o = UPush u) ->
  (ph st = AtLoop (Some (El n)) \/ ph st = InCall (Some (El n))) ->
  exists st', ustep st o = Ok (st', UNone) /\ fn st' n = fn st n /\ ph st' = ph st /\
    fnext (fst (ql st')) (Some (El n)) = fnext (fst (ql st)) (Some (El n)).
Proof.
  intros os s vs o st n H E Ho Hp. destruct (uexec_sim os s vs H) as (st0 & P & F & R & E0 & HR). rewrite E in E0. injection E0 as <-.
  assert (Hn : In n R).
  { pose proof (u_ph _ _ _ _ _ HR) as X. destruct (phase_ s), (ph st); try contradiction; destruct Hp as [Hp|Hp]; try discriminate; injection Hp as ->.
    - destruct X as (d & r & -> & _ & Y). destruct r; cbn in Y; [discriminate|]. injection Y as ->. rewrite in_app_iff. cbn; auto.
    - destruct X as (d & x & r & -> & _ & Y). injection Y as ->. rewrite in_app_iff. cbn; auto. }
  assert (K : exists st' s' P' F', ustep st o = Ok (st', UNone) /\ UR s' st' P' F' R /\ fn st' n = fn st n /\ ph st' = ph st).
  { destruct Ho as [->|(u & ->)]; cbn [ustep].
    - destruct (clear_ok _ _ _ _ _ HR) as (st' & Ec & H' & Ef). unfold u_clear in Ec.
      exists st'. destruct (q0 st _) as [q| |] eqn:Eq in Ec; try discriminate. cbn [rbind] in Ec. injection Ec as <-.
      unfold u_clear. rewrite Eq. cbn [rbind]. do 3 eexists. split; [reflexivity|]. split; [exact H'|]. auto.
    - destruct (push_ok _ _ _ _ _ u HR) as (st' & P' & F' & -> & H' & Eh & Ef). cbn [rbind]. exists st'. do 3 eexists. split; [reflexivity|]. split; [exact H'|]. auto. }
  destruct K as (st' & s' & P' & F' & Es & HR' & Ef & Eh). exists st'. split; [exact Es|]. split; [exact Ef|]. split; [exact Eh|].
  destruct HR as [(el & k & S & _) _ _ _], HR' as [(el' & k' & S' & _) _ _ _]. apply in_split in Hn as (r1 & r2 & ->).
  assert (C : forall m, circ m (Nl 2) (map El (r1 ++ n :: r2)) -> fnext m (Some (El n)) = Ok (Some (hd (Nl 2) (map El r2 ++ [Nl 2])))).
  { intros m C. rewrite fnext_ok by (eapply circ_elem_alive; [exact C|]; apply in_map; rewrite in_app_iff; cbn; auto).
    rewrite map_app in C. cbn [map] in C. destruct (circ_elem _ _ _ _ _ C) as (l1 & p & q & l2 & _ & E2 & _ & _ & [L _] & _). rewrite L, E2. reflexivity. }
  rewrite (C _ (r_circ _ _ _ (proj1 S) 2 _ eq_refl)), (C _ (r_circ _ _ _ (proj1 S') 2 _ eq_refl)). reflexivity.
Qed.
End Props.

(** Pushes while an update is being applied and while the loop is between updates;
    reuse of blocks; a clear; an exception. *)
Definition uq_demo : list (uop (U := nat)) :=
  [UPush 1; UPush 2; UPrepare; UPush 3; UCall; UPush 4; UNext; UCall; UNext; UFinish;
   UPush 5; UPrepare; UCall; UNext; UPush 6; UCall; UNext; UCall; UPush 7; UThrow; UClearPending; UPush 8; UPrepare; UCall; UNext; UFinish].
Example uq_demo_spec : option_map (fun p => applied (snd p)) (sqrun sq0 uq_demo) = Some [1; 2; 3; 4; 5; 8].
Proof. vm_compute. reflexivity. Qed.
Example uq_demo_runs : match uexec uq_demo with Ok (st, vs) => applied vs = [1; 2; 3; 4; 5; 8] /\ blocks st = 5 | _ => False end.
Proof. vm_compute. split; reflexivity. Qed.

(** An update that calls ApplyUpdates itself runs into the assertion of the list's move
    assignment (QuickList.h:85). *)
Theorem update_queue_nested_apply_refuted : exists os : list (uop (U := nat)), uexec os = UB /\
  exists os1, os = os1 ++ [UPrepare] /\ exists s vs, sqrun sq0 os1 = Some (s, vs).
Proof.
  exists [UPush 1; UPrepare; UCall; UPush 2; UPrepare]. split; [vm_compute; reflexivity|].
  exists [UPush 1; UPrepare; UCall; UPush 2]. split; [reflexivity|]. do 2 eexists. vm_compute. reflexivity.
Qed.
