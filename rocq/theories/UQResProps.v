(** Properties of UpdateQueue with functions whose copying throws (C102). *)
From Verif Require Import Common UQResModel.
From Verif Require UQueueModel UQueueSpec.
From Coq Require Import Permutation ZifyBool ZifyNat.

(** ** Specification

    The queue of UQueueSpec.v.  A call of Push that throws is as if it had not been made. *)
Section Spec.
Context {U : Type}.
Definition seen (o : xop (U := U)) (v : xobs (U := U)) : option (UQueueModel.uop (U := U) * UQueueModel.uobs (U := U)) :=
  match o, v with
  | XPush _ _, XPushThrew => None
  | XPush u _, _ => Some (UQueueModel.UPush u, UQueueModel.UNone)
  | XClear, _ => Some (UQueueModel.UClearPending, UQueueModel.UNone)
  | XPrepare, _ => Some (UQueueModel.UPrepare, UQueueModel.UNone)
  | XCall, XApplied u => Some (UQueueModel.UCall, UQueueModel.UApplied u)
  | XCall, _ => Some (UQueueModel.UCall, UQueueModel.UNone)
  | XNext, _ => Some (UQueueModel.UNext, UQueueModel.UNone)
  | XThrow, _ => Some (UQueueModel.UThrow, UQueueModel.UThrown)
  | XFinish, _ => Some (UQueueModel.UFinish, UQueueModel.UNone)
  end.
Fixpoint seen_all (os : list (xop (U := U))) (vs : list (xobs (U := U))) : list (UQueueModel.uop (U := U)) * list (UQueueModel.uobs (U := U)) :=
  match os, vs with
  | o :: os', v :: vs' => let r := seen_all os' vs' in match seen o v with Some (a, b) => (a :: fst r, b :: snd r) | None => r end
  | _, _ => ([], [])
  end.
(** The operation of UQueueSpec.v that an operation is, if it does not throw. *)
Definition plain (o : xop (U := U)) : UQueueModel.uop (U := U) :=
  match o with
  | XPush u _ => UQueueModel.UPush u | XClear => UQueueModel.UClearPending | XPrepare => UQueueModel.UPrepare
  | XCall => UQueueModel.UCall | XNext => UQueueModel.UNext | XThrow => UQueueModel.UThrow | XFinish => UQueueModel.UFinish
  end.
(** The number of calls of Push that threw *)
Fixpoint threw (vs : list (xobs (U := U))) : nat :=
  match vs with [] => 0 | XPushThrew :: r => S (threw r) | _ :: r => threw r end.
Definition clears (o : xop (U := U)) : bool := match o with XClear => true | _ => false end.
End Spec.

Import UQueueSpec.
Section Proofs.
Context {U : Type}.
Implicit Types (s : rstate (U := U)) (q : sq (U := U)).

Record J s q : Prop := {
  j_perm : Permutation (pend s ++ freeb s ++ rend s ++ lost s) (seq 0 (made s));
  j_wait : map (fn s) (pend s) = map Some (waiting q);
  j_ph : match ph s, phase_ q with
         | ROutside, SOutside => rend s = []
         | RLoop l, SLoop t | RCall l, SInCall t => (exists d, rend s = d ++ l) /\ map (fn s) l = map Some t
         | _, _ => False
         end }.

Lemma J_nodup s q : J s q -> NoDup (pend s ++ freeb s ++ rend s ++ lost s) /\ forall b, In b (pend s ++ freeb s ++ rend s ++ lost s) -> b < made s.
Proof.
  intros [P _ _]. split; [eapply Permutation_NoDup; [symmetry; exact P|apply seq_NoDup]|].
  intros b H. eapply Permutation_in in H; [|exact P]. apply in_seq in H. lia.
Qed.
Lemma map_upd_out (f : nat -> option U) b x l : ~ In b l -> map (upd f b x) l = map f l.
Proof. intros H. apply map_ext_in. intros a Ha. apply upd_neq. intros ->. auto. Qed.
Lemma nodup_app_out {A} (l1 l2 : list A) x : NoDup (l1 ++ l2) -> In x l1 -> In x l2 -> False.
Proof. induction l1 as [|y l1 IH]; cbn; [tauto|]. intros H [->|H1] H2; inversion H; subst; [apply H3, in_or_app; auto|eauto]. Qed.

Lemma nodup_app_r {A} (l1 l2 : list A) : NoDup (l1 ++ l2) -> NoDup l2.
Proof. induction l1; cbn; auto. intros H. inversion H; auto. Qed.

Lemma fold_upd_out l : forall (f : nat -> option U) b, ~ In b l -> fold_left (fun f b => upd f b None) l f b = f b.
Proof. induction l as [|x l IH]; cbn; intros f b H; auto. rewrite IH by tauto. apply upd_neq. intros ->. tauto. Qed.
Lemma fold_upd_in l : forall (f : nat -> option U) b, In b l -> fold_left (fun f b => upd f b None) l f b = None.
Proof.
  induction l as [|x l IH]; cbn; intros f b H; [tauto|]. destruct (in_dec Nat.eq_dec b l) as [Hi|Hi]; [now apply IH|].
  rewrite fold_upd_out by auto. destruct H as [->|H]; [apply upd_eq|tauto].
Qed.

(** A step is a step of the specification, or a Push that throws and changes nothing that can be seen. *)
Lemma xstep_ok s q o : J s q ->
  match xstep s o with
  | Ok (s', v) =>
      match seen o v with
      | Some (a, b) => exists q', sqstep q a = Some (q', b) /\ J s' q'
      | None => J s' q
      end
  | UB => sqstep q (plain o) = None
  | Throw _ => False
  end.
Proof.
  intros JJ. pose proof (J_nodup _ _ JJ) as [ND LT]. destruct JJ as [P W H].
  assert (Out : forall b, In b (freeb s) -> ~ In b (pend s) /\ ~ In b (rend s)).
  { intros b Hb. split; intros Hp.
    - apply (nodup_app_out _ _ b ND Hp). apply in_or_app. auto.
    - apply nodup_app_r in ND. apply (nodup_app_out _ _ b ND Hb). apply in_or_app. auto. }
  assert (Fresh : ~ In (made s) (pend s) /\ ~ In (made s) (rend s)).
  { split; intros Hp; assert (made s < made s); try lia; apply LT; rewrite !in_app_iff; tauto. }
  assert (PhUpd : forall b x, ~ In b (rend s) -> match ph s, phase_ q with
         | ROutside, SOutside => rend s = []
         | RLoop l, SLoop t | RCall l, SInCall t => (exists d, rend s = d ++ l) /\ map (upd (fn s) b x) l = map Some t
         | _, _ => False end).
  { intros b x Hb. destruct (ph s), (phase_ q); auto; destruct H as [[d E] M]; (split; [eauto|]); rewrite map_upd_out; auto; intros Hi; apply Hb; rewrite E; apply in_or_app; auto. }
  destruct o; cbn [xstep].
  - (* Push *)
    unfold x_push. destruct (freeb s) as [|b f] eqn:Ef.
    + assert (Fine : J (RState (pend s ++ [made s]) [] (rend s) (upd (fn s) (made s) (Some u)) (S (made s)) (lost s) (ph s)) {| waiting := waiting q ++ [u]; phase_ := phase_ q |}).
      { constructor; cbn [pend freeb rend fn made lost ph waiting phase_].
        - rewrite seq_S. cbn. rewrite <- app_assoc. cbn. cbn in P. rewrite <- P. rewrite <- Permutation_middle. apply Permutation_cons_append.
        - rewrite !map_app, map_upd_out, W by tauto. cbn. now rewrite upd_eq.
        - apply PhUpd. tauto. }
      assert (Lost : J (RState (pend s) [] (rend s) (upd (fn s) (made s) (Some u)) (S (made s)) (made s :: lost s) (ph s)) q).
      { constructor; cbn [pend freeb rend fn made lost ph].
        - rewrite seq_S. cbn. cbn in P. rewrite <- P. rewrite !app_assoc, <- Permutation_middle. apply Permutation_cons_append.
        - rewrite map_upd_out; tauto.
        - apply PhUpd. tauto. }
      assert (Same : J s q) by (constructor; auto; rewrite Ef; exact P).
      destruct t as [[|[|t]]|]; cbn [seen]; auto; eexists; (split; [reflexivity|exact Fine]).
    + destruct (Out b (or_introl eq_refl)) as [O1 O2].
      assert (Fine : J (RState (pend s ++ [b]) f (rend s) (upd (fn s) b (Some u)) (made s) (lost s) (ph s)) {| waiting := waiting q ++ [u]; phase_ := phase_ q |}).
      { constructor; cbn [pend freeb rend fn made lost ph waiting phase_].
        - rewrite <- P, <- app_assoc. reflexivity.
        - rewrite !map_app, map_upd_out, W by tauto. cbn. now rewrite upd_eq.
        - now apply PhUpd. }
      assert (Lost : J (RState (pend s) f (rend s) (fn s) (made s) (b :: lost s) (ph s)) q).
      { constructor; cbn [pend freeb rend fn made lost ph]; auto. rewrite <- P. apply Permutation_app_head. cbn.
        rewrite !app_assoc, <- Permutation_middle. reflexivity. }
      destruct t as [[|t]|]; cbn [seen]; auto; eexists; (split; [reflexivity|exact Fine]).
  - (* ClearPending *)
    cbn [seen]. eexists. split; [reflexivity|]. constructor; cbn; auto. rewrite <- P. rewrite !app_assoc. apply Permutation_app_tail, Permutation_app_tail, Permutation_app_comm.
  - (* PrepareData *)
    unfold x_prepare. destruct (rend s) as [|r0 rs] eqn:Er; destruct (ph s) eqn:Ep; cbn [rbind plain seen].
    + destruct (phase_ q) eqn:Eq; try contradiction. eexists. split; [cbn; rewrite Eq; reflexivity|]. constructor; cbn [pend freeb rend fn made lost ph waiting phase_]; auto.
      * rewrite <- P. cbn. rewrite !app_assoc. apply Permutation_app_tail. apply Permutation_app_comm.
      * split; auto. now exists [].
    + destruct (phase_ q) eqn:Eq; try contradiction; cbn; now rewrite Eq.
    + destruct (phase_ q) eqn:Eq; try contradiction; cbn; now rewrite Eq.
    + destruct (phase_ q) eqn:Eq; try contradiction; discriminate.
    + destruct (phase_ q) eqn:Eq; try contradiction; cbn; now rewrite Eq.
    + destruct (phase_ q) eqn:Eq; try contradiction; cbn; now rewrite Eq.
  - (* the call of an update *)
    destruct (ph s) as [|[|b l]|l] eqn:Ep; destruct (phase_ q) as [|t|t] eqn:Eq; try contradiction; cbn [plain]; try (cbn; rewrite Eq; reflexivity).
    + destruct H as [_ M]. destruct t; [|discriminate]. cbn. now rewrite Eq.
    + destruct H as [[d E] M]. destruct t as [|u t]; [discriminate|]. cbn in M. injection M as M1 M2. rewrite M1. cbn [seen].
      eexists. split; [cbn; rewrite Eq; reflexivity|]. constructor; cbn [pend freeb rend fn made lost ph waiting phase_]; auto.
      split; auto. exists (d ++ [b]). now rewrite <- app_assoc.
  - (* it returns *)
    destruct (ph s) as [|l|l] eqn:Ep; destruct (phase_ q) as [|t|t] eqn:Eq; try contradiction; cbn [plain]; try (cbn; rewrite Eq; reflexivity).
    cbn [seen]. eexists. split; [cbn; rewrite Eq; reflexivity|]. constructor; auto.
  - (* it throws *)
    destruct (ph s) as [|l|l] eqn:Ep; destruct (phase_ q) as [|t|t] eqn:Eq; try contradiction; cbn [plain]; try (cbn; rewrite Eq; reflexivity).
    cbn [seen]. eexists. split; [cbn; rewrite Eq; reflexivity|]. constructor; cbn [pend freeb rend fn made lost ph waiting phase_ x_free]; auto.
    + rewrite <- P. now rewrite <- !app_assoc.
    + rewrite <- W. apply map_ext_in. intros b Hb. apply fold_upd_out. intros Hr. apply (nodup_app_out _ _ b ND Hb). rewrite !in_app_iff. auto.
  - (* the end of the loop *)
    destruct (ph s) as [|[|b l]|l] eqn:Ep; destruct (phase_ q) as [|t|t] eqn:Eq; try contradiction; cbn [plain]; try (cbn; rewrite Eq; reflexivity).
    + destruct H as [_ M]. destruct t; [|discriminate].
      cbn [seen]. eexists. split; [cbn; rewrite Eq; reflexivity|]. constructor; cbn [pend freeb rend fn made lost ph waiting phase_ x_free]; auto.
      * rewrite <- P. now rewrite <- !app_assoc.
      * rewrite <- W. apply map_ext_in. intros b Hb. apply fold_upd_out. intros Hr. apply (nodup_app_out _ _ b ND Hb). rewrite !in_app_iff. auto.
    + destruct H as [_ M]. destruct t; [discriminate|]. cbn. now rewrite Eq.
Qed.

Lemma J_init : J rinit sq0.
Proof. constructor; cbn; auto. Qed.

Lemma xrun_ok os : forall s q, J s q ->
  match xrun s os with
  | Ok (s', vs) => exists q', sqrun q (fst (seen_all os vs)) = Some (q', snd (seen_all os vs)) /\ J s' q'
  | UB => exists os1 o os2 s1 vs1 q1, os = os1 ++ o :: os2 /\ xrun s os1 = Ok (s1, vs1) /\
      sqrun q (fst (seen_all os1 vs1)) = Some (q1, snd (seen_all os1 vs1)) /\ sqstep q1 (plain o) = None
  | Throw _ => False
  end.
Proof.
  induction os as [|o os IH]; intros s q I; cbn [xrun].
  - exists q. auto.
  - pose proof (xstep_ok s q o I) as S. destruct (xstep s o) as [[s1 v]| |] eqn:E; cbn [rbind]; auto.
    + assert (K : exists q1, J s1 q1 /\ forall a b, sqrun q (fst (let r := (a, b) in match seen o v with Some (x, y) => (x :: fst r, y :: snd r) | None => r end)) =
        match sqrun q1 a with Some (q2, c) => Some (q2, match seen o v with Some (_, y) => y :: c | None => c end) | None => None end).
      { destruct (seen o v) as [[x y]|] eqn:Es.
        - destruct S as (q1 & S1 & S2). exists q1. split; auto. intros a b. cbn. rewrite S1. destruct (sqrun q1 a) as [[? ?]|]; auto.
        - exists q. split; auto. intros a b. cbn. destruct (sqrun q a) as [[? ?]|]; auto. }
      destruct K as (q1 & J1 & K). specialize (IH s1 q1 J1). destruct (xrun s1 os) as [[s2 vs]| |] eqn:E2; cbn [rbind]; auto.
      * destruct IH as (q2 & R & J2). exists q2. split; auto. cbn [seen_all]. specialize (K (fst (seen_all os vs)) (snd (seen_all os vs))).
        rewrite <- surjective_pairing in K. cbn zeta in K. rewrite R in K. rewrite K. destruct (seen o v) as [[x y]|]; auto.
      * destruct IH as (os1 & o1 & os2 & s3 & vs1 & q3 & -> & R1 & R2 & R3). exists (o :: os1), o1, os2, s3, (v :: vs1), q3.
        split; auto. split; [cbn [xrun]; rewrite E; cbn [rbind]; now rewrite R1|]. split; auto.
        cbn [seen_all]. specialize (K (fst (seen_all os1 vs1)) (snd (seen_all os1 vs1))). rewrite <- surjective_pairing in K. cbn zeta in K. rewrite R2 in K. rewrite K.
        destruct (seen o v) as [[x y]|]; auto.
    + exists [], o, os, s, [], q. auto.
Qed.
End Proofs.

Section Theorems.
Context {U : Type}.

(** ** Theorems *)

(** A call of Push that throws has no effect on what is applied: the rest of the program
    is a run of the queue of C24 in which the call does not occur. *)
Theorem uq_push_throw_strong : forall (os : list (xop (U := U))) s vs, xrun rinit os = Ok (s, vs) ->
  exists q, sqrun sq0 (fst (seen_all os vs)) = Some (q, snd (seen_all os vs)).
Proof.
  intros os s vs E. pose proof (xrun_ok os rinit sq0 J_init) as H. rewrite E in H. destruct H as (q & H & _). eauto.
Qed.

(** Whatever throws, nothing is undefined and no update is empty, except that the program
    itself breaks the rules of ApplyUpdates. *)
Theorem uq_push_throw_safe : forall (os : list (xop (U := U))),
  match xrun rinit os with
  | Ok _ => True
  | Throw _ => False
  | UB => exists os1 o os2 s vs q, os = os1 ++ o :: os2 /\ xrun rinit os1 = Ok (s, vs) /\
      sqrun sq0 (fst (seen_all os1 vs)) = Some (q, snd (seen_all os1 vs)) /\ sqstep q (plain o) = None
  end.
Proof.
  intros os. pose proof (xrun_ok os rinit sq0 J_init) as H. destruct (xrun rinit os) as [[s vs]| |]; auto.
Qed.

Lemma lost_bound os : forall (s s' : rstate (U := U)) vs, xrun s os = Ok (s', vs) -> length (lost s') <= length (lost s) + threw vs.
Proof.
  induction os as [|o os IH]; intros s s' vs H; cbn [xrun] in H; [injection H as <- <-; cbn; lia|].
  destruct (xstep s o) as [[s1 v]| |] eqn:E; try discriminate. cbn [rbind] in H. destruct (xrun s1 os) as [[s2 vs2]| |] eqn:E2; try discriminate.
  cbn [rbind] in H. injection H as <- <-. apply IH in E2.
  assert (length (lost s1) <= length (lost s) + match v with XPushThrew => 1 | _ => 0 end); [|destruct v; cbn; lia].
  destruct o; cbn [xstep] in E.
  - injection E as E. unfold x_push in E. destruct (freeb s); destruct t as [[|[|t]]|]; injection E as <- <-; cbn; lia.
  - injection E as <- <-. cbn. lia.
  - unfold x_prepare in E. destruct (rend s), (ph s); try discriminate. cbn in E. injection E as <- <-. cbn. lia.
  - destruct (ph s) as [|[|b l]|l]; try discriminate. destruct (fn s b); [|discriminate]. injection E as <- <-. cbn. lia.
  - destruct (ph s) as [|l|l]; try discriminate. injection E as <- <-. cbn. lia.
  - destruct (ph s) as [|l|l]; try discriminate. injection E as <- <-. cbn. lia.
  - destruct (ph s) as [|[|b l]|l]; try discriminate. injection E as <- <-. cbn. lia.
Qed.
(** The destructor deletes every message once, except those of calls of Push that threw, at
    most one each.  Partial: a call of Push that throws may lose a message, see
    [uq_push_leak_refuted]. *)
Theorem uq_no_leak_partial : forall (os : list (xop (U := U))) s vs, xrun rinit os = Ok (s, vs) ->
  Permutation (x_destroy s ++ lost s) (seq 0 (made s)) /\ length (lost s) <= threw vs.
Proof.
  intros os s vs E. pose proof (xrun_ok os rinit sq0 J_init) as H. rewrite E in H. destruct H as (q & _ & [P _ _]). split.
  - rewrite <- P. unfold x_destroy. rewrite <- !app_assoc. rewrite (app_assoc (rend s)), (app_assoc (rend s ++ freeb s)).
    rewrite (Permutation_app_comm (rend s ++ freeb s)). rewrite <- app_assoc. apply Permutation_app_head.
    rewrite (app_assoc (freeb s)). apply Permutation_app_tail. apply Permutation_app_comm.
  - apply (lost_bound os rinit s vs E).
Qed.

Definition clean (s : rstate (U := U)) : Prop := forall b, In b (freeb s) -> fn s b = None.
Lemma clean_step s q o s' v : J s q -> clean s -> clears o = false -> xstep s o = Ok (s', v) -> clean s'.
Proof.
  intros JJ C N E. pose proof (J_nodup _ _ JJ) as [ND LT]. destruct o; cbn [xstep] in E; try discriminate N.
  - injection E as E. unfold x_push in E. unfold clean in *. destruct (freeb s) as [|b f] eqn:Ef.
    + destruct t as [[|[|t]]|]; injection E as <- <-; cbn [freeb fn]; try (intros b []); rewrite Ef in *; auto.
    + assert (Nb : ~ In b f) by (intros Hb; apply nodup_app_r in ND; inversion ND; subst; apply H1, in_or_app; auto).
      assert (Up : forall x a, In a f -> upd (fn s) b x a = None) by (intros x a Ha; rewrite upd_neq; [apply C; now right|intros ->; auto]).
      destruct t as [[|t]|]; injection E as <- <-; cbn [freeb fn]; auto. intros a Ha. apply C. now right.
  - unfold x_prepare in E. destruct (rend s), (ph s); try discriminate. cbn in E. injection E as <- <-. exact C.
  - destruct (ph s) as [|[|b l]|l]; try discriminate. destruct (fn s b); [|discriminate]. injection E as <- <-. exact C.
  - destruct (ph s) as [|l|l]; try discriminate. injection E as <- <-. exact C.
  - assert (G : clean (x_free s)).
    { intros b Hb. cbn [x_free freeb fn] in *. destruct (in_dec Nat.eq_dec b (rend s)) as [Hr|Hr]; [now apply fold_upd_in|].
      rewrite fold_upd_out by auto. apply C. apply in_app_iff in Hb. tauto. }
    destruct (ph s) as [|l|l]; try discriminate. injection E as <- <-. exact G.
  - assert (G : clean (x_free s)).
    { intros b Hb. cbn [x_free freeb fn] in *. destruct (in_dec Nat.eq_dec b (rend s)) as [Hr|Hr]; [now apply fold_upd_in|].
      rewrite fold_upd_out by auto. apply C. apply in_app_iff in Hb. tauto. }
    destruct (ph s) as [|[|b l]|l]; try discriminate. injection E as <- <-. exact G.
Qed.
(** When ApplyUpdates has returned, or an update has thrown, the queue keeps no copy of an
    update that is not waiting.  Partial: ClearPending keeps the copies, see
    [uq_release_refuted]. *)
Theorem uq_release_partial : forall (os : list (xop (U := U))) s vs, forallb (fun o => negb (clears o)) os = true ->
  xrun rinit os = Ok (s, vs) -> ph s = ROutside -> forall b, In b (x_destroy s) -> ~ In b (pend s) -> fn s b = None.
Proof.
  intros os s vs N E Ph b Hb Np.
  assert (K : forall os s0 q, J s0 q -> clean s0 -> forallb (fun o => negb (clears o)) os = true -> forall s vs, xrun s0 os = Ok (s, vs) -> clean s /\ exists q', J s q').
  { clear - U. induction os as [|o os IH]; intros s0 q I C N s vs E; cbn [xrun forallb] in *; [injection E as <- <-; eauto|].
    apply andb_prop in N as [N1 N2]. apply Bool.negb_true_iff in N1. pose proof (xstep_ok s0 q o I) as S.
    destruct (xstep s0 o) as [[s1 v]| |] eqn:E1; try discriminate. cbn [rbind] in E. destruct (xrun s1 os) as [[s2 vs2]| |] eqn:E2; try discriminate. injection E as <- <-.
    assert (exists q1, J s1 q1) as (q1 & J1) by (destruct (seen o v) as [[x y]|]; [destruct S as (q1 & _ & S); eauto|eauto]).
    apply (IH s1 q1 J1 (clean_step _ _ _ _ _ I C N1 E1) N2 _ _ E2). }
  destruct (K os rinit sq0 J_init ltac:(intros ? []) N s vs E) as (C & q & [_ _ P]). rewrite Ph in P. destruct (phase_ q); try contradiction.
  unfold x_destroy in Hb. rewrite P in Hb. cbn in Hb. apply in_app_iff in Hb. apply C. tauto.
Qed.
End Theorems.
Print Assumptions uq_push_throw_strong.
Print Assumptions uq_push_throw_safe.
Print Assumptions uq_no_leak_partial.
Print Assumptions uq_release_partial.

(** The code loses a message if the copy assignment in Push throws: a new one, with the
    copy of the function in it, or one of the free ones. *)
Theorem uq_push_leak_refuted : exists (os : list (xop (U := nat))) s vs, xrun rinit os = Ok (s, vs) /\
  exists b, b < made s /\ ~ In b (x_destroy s) /\ fn s b <> None.
Proof.
  eexists [XPush 7 (Some 1)], _, _. split; [reflexivity|]. exists 0. cbn. repeat split; auto. discriminate.
Qed.
Theorem uq_push_recycled_leak_refuted : exists (os : list (xop (U := nat))) s vs, xrun rinit os = Ok (s, vs) /\
  made s = 1 /\ x_destroy s = [].
Proof. eexists [XPush 7 None; XPrepare; XCall; XNext; XFinish; XPush 8 (Some 0)], _, _. split; [reflexivity|]. auto. Qed.
(** ClearPending does not release the functions: the queue keeps the copy of an update
    that will never be applied, with what it has captured. *)
Theorem uq_release_refuted : exists (os : list (xop (U := nat))) s vs, xrun rinit os = Ok (s, vs) /\
  ph s = ROutside /\ pend s = [] /\ exists b, In b (x_destroy s) /\ fn s b = Some 7.
Proof. eexists [XPush 7 None; XClear; XPrepare; XFinish], _, _. split; [reflexivity|]. cbn. repeat split; auto. exists 0. auto. Qed.
Print Assumptions uq_push_leak_refuted.
Print Assumptions uq_push_recycled_leak_refuted.
Print Assumptions uq_release_refuted.

(** ** A case *)
Example ex_uq_res :
  match xrun rinit [XPush 1 None; XPush 2 (Some 0); XPush 3 None; XPrepare; XCall; XPush 4 None; XNext; XCall; XNext; XFinish; XPush 5 (Some 0); XPrepare; XCall; XThrow] with
  | Ok (s, vs) => vs = [XNone; XPushThrew; XNone; XNone; XApplied 1; XNone; XNone; XApplied 3; XNone; XNone; XPushThrew; XNone; XApplied 4; XThrown] /\
      made s = 3 /\ x_destroy s = [1; 2] /\ lost s = [0] /\ map (fn s) [0; 1; 2] = [None; None; None]
  | _ => False
  end.
Proof. vm_compute. auto 10. Qed.
