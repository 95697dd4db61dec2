(** The update queue, down to the list pointers, refines two plain queues. *)
From Coq Require Import Sorting.Permutation ZifyBool ZifyNat.
From Verif Require Import Common QListModel QListSpec QListProofs QListRel QListSim UQueueModel UQueueSpec.

Section Proofs.
Context {U : Type}.
Notation ustate := (ustate (U := U)).
Notation sq := (sq (U := U)).

Definition three (R F P : list nat) (el : nat -> where_) (k : nat) : qspec := {| lists := [(2, R); (1, F); (0, P)]; elems := el; born := k |}.
Definition alloc (el : nat -> where_) (k : nat) : Prop := forall n, el n = if n <? k then Out else Unborn.

Record UR (s : sq) (st : ustate) (P F R : list nat) : Prop := {
  u_sim : exists el k, Sim (ql st) (three R F P el k) /\ alloc el (blocks st);
  u_perm : Permutation (P ++ F ++ R) (seq 0 (blocks st));
  u_wait : map (fn st) P = map Some (waiting s);
  u_ph : match phase_ s, ph st with
         | SOutside, Outside => R = []
         | SLoop l, AtLoop p => exists d r, R = d ++ r /\ map (fn st) r = map Some l /\ p = Some (hd (Nl 2) (map El r))
         | SInCall l, InCall p => exists d n r, R = d ++ n :: r /\ map (fn st) r = map Some l /\ p = Some (El n)
         | _, _ => False
         end }.

Lemma perm_nodup P F R k : Permutation (P ++ F ++ R) (seq 0 k) -> NoDup (P ++ F ++ R).
Proof. intros H. apply (Permutation_NoDup (Permutation_sym H)). apply seq_NoDup. Qed.
Lemma perm_lt l k n : Permutation l (seq 0 k) -> In n l -> n < k.
Proof. intros H Hn. apply (Permutation_in _ H) in Hn. apply in_seq in Hn. lia. Qed.
Lemma mem_of_false n s : ~ In n s -> mem_of n s = false.
Proof. intros H. destruct (mem_of n s) eqn:E; [|auto]. apply mem_of_in in E. tauto. Qed.
Lemma alloc_out el k n : alloc el k -> n < k -> alloc (upd el n Out) k.
Proof. intros A L m. unfold upd. destruct (Nat.eqb_spec m n); [subst; destruct (Nat.ltb_spec n k); [auto|lia]|apply A]. Qed.
Lemma alloc_new el k : alloc el k -> alloc (upd el k Out) (S k).
Proof. intros A m. unfold upd. destruct (Nat.eqb_spec m k); [subst; destruct (Nat.ltb_spec k (S k)); [auto|lia]|]. rewrite A. destruct (Nat.ltb_spec m k), (Nat.ltb_spec m (S k)); auto; lia. Qed.
Lemma map_upd_other (f : nat -> option U) n v l : ~ In n l -> map (upd f n v) l = map f l.
Proof. intros H. apply map_ext_in. intros x Hx. apply upd_neq. intros ->. auto. Qed.

Lemma nd3 (n : nat) P F R : NoDup (P ++ (n :: F) ++ R) -> ~ In n P /\ ~ In n F /\ ~ In n R.
Proof. intros H. cbn in H. apply NoDup_remove in H as [_ H]. rewrite !in_app_iff in H. tauto. Qed.

Lemma addable_three R F P el k n : el n = Out -> ~ In n P -> ~ In n F -> ~ In n R -> addable (three R F P el k) n = true.
Proof. intros E H1 H2 H3. unfold addable, member, three. cbn [elems lists existsb snd]. now rewrite E, !mem_of_false by auto. Qed.

(** One list operation, by the simulation of quick_list. *)
Lemma qstep_sim st e o e' v : Sim st e -> sstep e o = Some (e', v) -> exists st', qstep st o = Ok (st', v) /\ Sim st' e'.
Proof. apply sim_step. Qed.

Lemma sim_ext st e e' : Sim st e -> lists e' = lists e -> (forall n, elems e' n = elems e n) -> born e' = born e -> Sim st e'.
Proof.
  destruct e as [ls el bn], e' as [ls' el' bn']. cbn. intros (H1 & H2 & (bs & C1 & C2) & H4) -> E ->. cbn in *.
  split; [|split; [|split]]; cbn; auto.
  - eapply rel_el; eauto.
  - exists bs. split; [auto|]. intros n. rewrite E. auto.
Qed.

Lemma push_ok s st P F R u : UR s st P F R ->
  exists st' P' F', u_push u st = Ok st' /\ UR {| waiting := waiting s ++ [u]; phase_ := phase_ s |} st' P' F' R /\
    ph st' = ph st /\ (forall n : nat, In n R -> fn st' n = fn st n).
Proof.
  intros [(el & k & S & A) Pm Wt Ph]. unfold u_push.
  destruct (qstep_sim _ _ (QEmpty free_blocks) _ _ S eq_refl) as (q1 & -> & S1). cbn [rbind].
  pose proof (perm_nodup _ _ _ _ Pm) as ND.
  destruct F as [|n F]; cbn [length Nat.eqb].
  - set (n := blocks st) in *. assert (Un : el n = Unborn) by (rewrite A; destruct (Nat.ltb_spec n n); [lia|auto]).
    assert (Nin : ~ In n (P ++ [] ++ R)) by (intros X; apply (perm_lt _ _ _ Pm) in X; lia). rewrite !in_app_iff in Nin.
    destruct (qstep_sim _ _ (QNewElem n) (three R [] P (upd el n Out) (Datatypes.S k)) VUnit S1) as (q2 & -> & S2).
    { cbn. rewrite Un. reflexivity. }
    cbn [rbind].
    destruct (qstep_sim _ _ (QPushBack pending n) (three R [] (P ++ [n]) (upd (upd el n Out) n Out) (Datatypes.S k)) VUnit S2) as (q3 & -> & S3).
    { cbn -[addable]. rewrite addable_three; [reflexivity|apply upd_eq|tauto|cbn; tauto|tauto]. }
    cbn [rbind]. exists {| ql := q3; fn := upd (fn st) n (Some u); blocks := Datatypes.S n; ph := ph st |}, (P ++ [n]), []. split; [reflexivity|]. split; [|split; [reflexivity|]].
    + constructor; cbn [ql fn blocks ph waiting phase_].
      * exists (upd (upd el n Out) n Out), (Datatypes.S k). split; [exact S3|]. apply alloc_out; [|lia]. now apply alloc_new.
      * rewrite seq_S. cbn [plus app]. rewrite <- Pm, <- !app_assoc. apply Permutation_app_head. cbn. apply Permutation_cons_append.
      * rewrite !map_app, map_upd_other by tauto. rewrite Wt. cbn. now rewrite upd_eq.
      * destruct (phase_ s), (ph st); auto.
        -- destruct Ph as (d & r & -> & E & ->). exists d, r. split; [auto|]. split; [|auto]. rewrite map_upd_other; [auto|]. rewrite in_app_iff in Nin. tauto.
        -- destruct Ph as (d & x & r & -> & E & ->). exists d, x, r. split; [auto|]. split; [|auto]. rewrite map_upd_other; [auto|]. rewrite in_app_iff in Nin. cbn in Nin. tauto.
    + cbn. intros x Hx. apply upd_neq. intros ->. tauto.
  - destruct (qstep_sim _ _ (QPopFront free_blocks) (three R F P el k) (VElem n) S1 eq_refl) as (q2 & -> & S2). cbn [rbind].
    destruct (nd3 _ _ _ _ ND) as (N1 & N2 & N3).
    assert (Ln : n < blocks st) by (apply (perm_lt _ _ _ Pm); rewrite !in_app_iff; cbn; auto).
    destruct (qstep_sim _ _ (QPushBack pending n) (three R F (P ++ [n]) (upd el n Out) k) VUnit S2) as (q3 & -> & S3).
    { cbn -[addable]. rewrite addable_three; auto. rewrite A. destruct (Nat.ltb_spec n (blocks st)); [reflexivity|lia]. }
    cbn [rbind]. exists {| ql := q3; fn := upd (fn st) n (Some u); blocks := blocks st; ph := ph st |}, (P ++ [n]), F. split; [reflexivity|]. split; [|split; [reflexivity|]].
    + constructor; cbn [ql fn blocks ph waiting phase_].
      * exists (upd el n Out), k. split; [exact S3|]. now apply alloc_out.
      * rewrite <- Pm, <- !app_assoc. reflexivity.
      * rewrite !map_app, map_upd_other by auto. rewrite Wt. cbn. now rewrite upd_eq.
      * destruct (phase_ s), (ph st); auto.
        -- destruct Ph as (d & r & -> & E & ->). exists d, r. split; [auto|]. split; [|auto]. rewrite map_upd_other; [auto|]. rewrite in_app_iff in N3. tauto.
        -- destruct Ph as (d & x & r & -> & E & ->). exists d, x, r. split; [auto|]. split; [|auto]. rewrite map_upd_other; [auto|]. rewrite in_app_iff in N3. cbn in N3. tauto.
    + cbn. intros x Hx. apply upd_neq. intros ->. tauto.
Qed.

Lemma clear_ok s st P F R : UR s st P F R ->
  exists st', u_clear st = Ok st' /\ UR {| waiting := []; phase_ := phase_ s |} st' [] (F ++ P) R /\ fn st' = fn st.
Proof.
  intros [(el & k & S & A) Pm Wt Ph]. unfold u_clear, q0. cbn [fold_left].
  destruct (qstep_sim _ _ (QSpliceBack free_blocks pending) (three R (F ++ P) [] el k) VUnit S eq_refl) as (q1 & E1 & S1).
  cbn [rbind]. rewrite E1. cbn [rbind]. eexists. split; [reflexivity|]. split; [|reflexivity].
  constructor; cbn; auto.
  - exists el, k. auto.
  - rewrite <- Pm, <- app_assoc. cbn. rewrite (app_assoc P F R), (app_assoc F P R). apply Permutation_app_tail. apply Permutation_app_comm.
Qed.

Lemma prepare_ok s st P F R : UR s st P F R -> phase_ s = SOutside ->
  exists st', u_prepare st = Ok st' /\ UR {| waiting := []; phase_ := SLoop (waiting s) |} st' [] F P.
Proof.
  intros [(el & k & S & A) Pm Wt Ph] E. rewrite E in Ph. destruct (ph st) eqn:Es; try contradiction. subst R. unfold u_prepare.
  destruct (qstep_sim _ _ (QMoveAssign rendering pending) (three P F [] el k) VUnit S eq_refl) as (q1 & -> & S1).
  cbn [rbind]. assert (C : circ (fst q1) (Nl 2) (map El P)) by (apply (r_circ _ _ _ (proj1 S1)); reflexivity).
  change (Nl rendering) with (Nl 2). rewrite fnext_ok by (eapply circ_null_alive; eauto). rewrite (circ_first _ _ _ C). cbn [rbind].
  eexists. split; [reflexivity|]. constructor; cbn [ql fn blocks ph waiting phase_].
  - exists el, k. auto.
  - rewrite <- Pm. cbn. rewrite app_nil_r. apply Permutation_app_comm.
  - reflexivity.
  - exists [], P. auto.
Qed.

Lemma forget_other l : forall (f : nat -> option U) n, ~ In n l -> fold_left (fun g x => upd g x None) l f n = f n.
Proof. induction l as [|x l IH]; cbn; intros f n H; [auto|]. rewrite IH by tauto. apply upd_neq. intros ->. auto. Qed.

Lemma free_ok s st P F R : UR s st P F R ->
  exists st', u_free st = Ok st' /\ UR {| waiting := waiting s; phase_ := SOutside |} st' P (F ++ R) [].
Proof.
  intros [(el & k & S & A) Pm Wt _]. unfold u_free.
  destruct (qstep_sim _ _ (QIter rendering) _ (VList R) S eq_refl) as (q1 & -> & S1). cbn [rbind].
  destruct (qstep_sim _ _ (QSpliceBack free_blocks rendering) (three [] (F ++ R) P el k) VUnit S1 eq_refl) as (q2 & -> & S2). cbn [rbind].
  eexists. split; [reflexivity|]. constructor; cbn [ql fn blocks ph waiting phase_]; auto.
  - exists el, k. auto.
  - rewrite app_nil_r. exact Pm.
  - rewrite <- Wt. apply map_ext_in. intros n Hn. apply forget_other.
    pose proof (perm_nodup _ _ _ _ Pm) as ND. intros X. clear -ND Hn X. induction P as [|y P IH]; [destruct Hn|].
    cbn in ND. apply NoDup_cons_iff in ND as [N1 N2]. destruct Hn as [<-|Hn]; [|auto]. apply N1. rewrite !in_app_iff. auto.
Qed.

Theorem ustep_sim s st P F R o s' v : UR s st P F R -> sqstep s o = Some (s', v) ->
  exists st' P' F' R', ustep st o = Ok (st', v) /\ UR s' st' P' F' R'.
Proof.
  intros H E. destruct o; cbn [sqstep ustep] in *.
  - injection E as <- <-. destruct (push_ok _ _ _ _ _ u H) as (st' & P' & F' & -> & H' & _). cbn [rbind]. eauto 8.
  - injection E as <- <-. destruct (clear_ok _ _ _ _ _ H) as (st' & -> & H' & _). cbn [rbind]. eauto 8.
  - destruct (phase_ s) eqn:Eph; try discriminate. injection E as <- <-. destruct (prepare_ok _ _ _ _ _ H Eph) as (st' & -> & H'). cbn [rbind]. eauto 8.
  - destruct (phase_ s) as [|[|u l]|] eqn:Eph; try discriminate. injection E as <- <-. destruct H as [S Pm Wt Ph]. rewrite Eph in Ph.
    destruct (ph st) as [|p|]; try contradiction. destruct Ph as (d & r & -> & Er & ->). destruct r as [|n r]; [discriminate|]. cbn in Er. injection Er as En Er.
    cbn [map hd]. rewrite En. do 4 eexists. split; [reflexivity|]. constructor; cbn [ql fn blocks ph waiting phase_]; [exact S|exact Pm|exact Wt|].
    exists d, n, r. auto.
  - destruct (phase_ s) as [| |l] eqn:Eph; try discriminate. injection E as <- <-. destruct H as [S Pm Wt Ph]. rewrite Eph in Ph.
    destruct (ph st) as [| |p]; try contradiction. destruct Ph as (d & n & r & -> & Er & ->). destruct S as (el & k & S & A).
    assert (C : circ (fst (ql st)) (Nl 2) (map El (d ++ n :: r))) by (apply (r_circ _ _ _ (proj1 S)); reflexivity).
    rewrite fnext_ok by (eapply circ_elem_alive; [exact C|]; apply in_map; rewrite in_app_iff; cbn; auto).
    rewrite map_app in C. cbn [map] in C. destruct (circ_elem _ _ _ _ _ C) as (l1 & p & q & l2 & _ & E2 & _ & _ & [L _] & _). rewrite L.
    cbn [rbind]. do 4 eexists. split; [reflexivity|]. constructor; cbn [ql fn blocks ph waiting phase_]; [eauto|exact Pm|exact Wt|].
    exists (d ++ [n]), r. split; [now rewrite <- app_assoc|]. split; [auto|]. f_equal. destruct r; cbn in *; now injection E2.
  - destruct (phase_ s) as [| |l] eqn:Eph; try discriminate. injection E as <- <-. destruct (free_ok _ _ _ _ _ H) as (st' & Ef & H').
    destruct H as [S Pm Wt Ph]. rewrite Eph in Ph. destruct (ph st); try contradiction. rewrite Ef. cbn [rbind]. eauto 8.
  - destruct (phase_ s) as [|[|]|l] eqn:Eph; try discriminate. injection E as <- <-. destruct (free_ok _ _ _ _ _ H) as (st' & Ef & H').
    destruct H as [S Pm Wt Ph]. rewrite Eph in Ph. destruct (ph st); try contradiction. destruct Ph as (d & r & -> & Er & ->). destruct r; [|discriminate].
    cbn. rewrite Ef. cbn [rbind]. eauto 8.
Qed.

Theorem urun_sim os : forall s st P F R s' vs, UR s st P F R -> sqrun s os = Some (s', vs) ->
  exists st' P' F' R', urun st os = Ok (st', vs) /\ UR s' st' P' F' R'.
Proof.
  induction os as [|o os IH]; cbn [sqrun urun]; intros s st P F R s' vs H E.
  - injection E as <- <-. eauto 8.
  - destruct (sqstep s o) as [[s1 v]|] eqn:E1; [|discriminate]. destruct (sqrun s1 os) as [[s2 vs2]|] eqn:E2; [|discriminate]. injection E as <- <-.
    destruct (ustep_sim _ _ _ _ _ _ _ _ H E1) as (st1 & P1 & F1 & R1 & -> & H1). cbn [rbind].
    destruct (IH _ _ _ _ _ _ _ H1 E2) as (st2 & P2 & F2 & R2 & -> & H2). cbn [rbind]. eauto 8.
Qed.

Lemma uinit_ok : exists st, uinit = Ok st /\ UR sq0 st [] [] [].
Proof.
  unfold uinit, q0. cbn [fold_left ql rbind].
  destruct (qstep_sim _ _ (QNewList pending) {| lists := [(0, [])]; elems := elems sinit; born := 0 |} VUnit sim_init eq_refl) as (q1 & E1 & S1).
  destruct (qstep_sim _ _ (QNewList free_blocks) {| lists := [(1, []); (0, [])]; elems := elems sinit; born := 0 |} VUnit S1 eq_refl) as (q2 & E2 & S2).
  destruct (qstep_sim _ _ (QNewList rendering) (three [] [] [] (elems sinit) 0) VUnit S2 eq_refl) as (q3 & E3 & S3).
  rewrite E1. cbn [rbind]. rewrite E2. cbn [rbind]. rewrite E3. cbn [rbind]. eexists. split; [reflexivity|].
  constructor; cbn; auto. exists (fun _ => Unborn), 0. split; [exact S3|]. intros n. destruct n; reflexivity.
Qed.

Theorem uexec_sim os s vs : sqrun sq0 os = Some (s, vs) ->
  exists st P F R, uexec os = Ok (st, vs) /\ UR s st P F R.
Proof.
  intros E. unfold uexec. destruct uinit_ok as (st & -> & H). cbn [rbind]. eapply urun_sim; eauto.
Qed.

Lemma udestroy_ok s st P F R : UR s st P F R -> udestroy st = Ok (R ++ F ++ P).
Proof.
  intros [(el & k & S & A) _ _ _]. unfold udestroy.
  destruct (qstep_sim _ _ (QIter rendering) _ (VList R) S eq_refl) as (q1 & -> & _).
  destruct (qstep_sim _ _ (QIter free_blocks) _ (VList F) S eq_refl) as (q2 & -> & _).
  destruct (qstep_sim _ _ (QIter pending) _ (VList P) S eq_refl) as (q3 & -> & _). reflexivity.
Qed.
End Proofs.
