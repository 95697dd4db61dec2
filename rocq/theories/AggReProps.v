(** C91: functions of an aggregator that throw or use the aggregator. *)
From Coq Require Import ZifyBool ZifyNat.
From Verif Require Import Common AggregatorModel AggregatorProps AggReModel.

(** ** Specification *)
Section Spec.
Context {V : Type} (n : nat).
Notation body := (@body V).
(** The indices are checked at compile time. *)
Inductive allowed_body : body -> Prop :=
| ab_done t : allowed_body (Done t)
| ab_do o k : allowed n o -> (forall t, allowed_body (k t)) -> allowed_body (Do o k).
(** A body that sets nothing before it cancels *)
Inductive quiet : body -> Prop :=
| q_done t : quiet (Done t)
| q_cancel k : quiet (Do ACancel k).
(** A body that sets a value first *)
Definition sets_first (b : body) : Prop := exists i v k, b = Do (ASet i v) k /\ i < n.
End Spec.

Section Proofs.
Context {V : Type} (moved : nat -> V -> V) (n : nat).
Notation events := (list (@aop V * option (list V))).

Definition step (a : @agg V) (o : @aop V) : res (@agg V * option (list V)) := match o with ASet i v => set_ moved a i v | ACancel => Ok (cancel a, None) end.
Inductive flat : @agg V -> events -> @agg V -> Prop :=
| fl_nil a : flat a [] a
| fl_cons a o c a1 es a2 : step a o = Ok (a1, c) -> flat a1 es a2 -> flat a ((o, c) :: es) a2.
Lemma flat_app a es a1 es2 a2 : flat a es a1 -> flat a1 es2 a2 -> flat a (es ++ es2) a2.
Proof. intros F G. induction F; cbn [app]; auto. econstructor; eauto. Qed.
Lemma flat_arun a es a' : flat a es a' -> arun moved a (map fst es) = Ok (map snd es).
Proof. intros F. induction F as [|a o c a1 es a2 E F IH]; [reflexivity|]. cbn [map fst snd arun]. unfold step in E. rewrite E. cbn [rbind]. now rewrite IH. Qed.

Definition sized (a : @agg V) : Prop := length (m_values a) = n.
Definition full (a : @agg V) : Prop := forallb (fun o : option V => match o with Some _ => true | None => false end) (m_values a) = true.
Lemma full_set (vs : list (option V)) i v : forallb (fun o : option V => match o with Some _ => true | None => false end) vs = true ->
  forallb (fun o : option V => match o with Some _ => true | None => false end) (set_nth vs i (Some v)) = true.
Proof.
  revert i. induction vs as [|x vs IH]; intros [|i] H; cbn in *; auto; apply andb_prop in H as [H1 H2]; [auto|]. rewrite H1. cbn. auto.
Qed.
Lemma full_moved k (vs : list (option V)) : forallb (fun o : option V => match o with Some _ => true | None => false end) vs = true ->
  forallb (fun o : option V => match o with Some _ => true | None => false end) (map (fun p => option_map (moved (fst p)) (snd p)) (combine (seq k (length vs)) vs)) = true.
Proof.
  revert k. induction vs as [|[x|] vs IH]; intros k H; cbn in *; try discriminate; auto.
Qed.
Lemma set_total a i v : sized a -> i < n -> exists a' c, set_ moved a i v = Ok (a', c) /\ sized a' /\ m_cancelled a' = m_cancelled a /\ (m_cancelled a = true -> c = None) /\
  (full a -> full a' /\ (m_cancelled a = false -> c <> None)).
Proof.
  intros S L. destruct a as [vs b]. unfold sized, full in *. cbn [m_values m_cancelled] in *. unfold set_, guard. cbn [m_values m_cancelled]. replace (i <? length vs) with true by lia.
  rewrite all_spec. destruct (forallb _ (set_nth vs i (Some v))) eqn:Q; [destruct b|]; cbn [andb negb].
  - eexists; eexists; split; [reflexivity|]. cbn. rewrite set_nth_length. repeat split; auto; discriminate.
  - destruct (take_ok moved 0 _ Q) as (args & -> & E). cbn [rbind]. eexists; eexists; split; [reflexivity|]. cbn [m_values m_cancelled].
    split; [rewrite map_length, combine_length, seq_length, set_nth_length; lia|]. split; auto. split; [discriminate|]. intros _. split; [now apply full_moved|discriminate].
  - eexists; eexists; split; [reflexivity|]. cbn [m_values m_cancelled]. rewrite set_nth_length. split; auto. split; auto. split; auto. intros F. apply (full_set _ i v) in F. congruence.
Qed.
Lemma step_total a o : sized a -> allowed n o -> exists a' c, step a o = Ok (a', c) /\ sized a'.
Proof.
  intros S A. destruct o as [i v|]; cbn [step]; [|exists (cancel a), None; auto]. destruct (set_total a i v S A) as (a' & c & E & S' & _). eauto.
Qed.

Definition fine (a : @agg V) (k : nat) (x : res (option (@agg V * nat * bool * events))) : Prop :=
  match x with Ok None => True | Ok (Some (a', k', _, es)) => sized a' /\ flat a es a' /\ Forall (allowed n) (map fst es) | _ => False end.
Lemma body_fine op b : (forall k a o, sized a -> allowed n o -> fine a k (op k a o)) -> allowed_body n b -> forall k a, sized a -> fine a k (run_body op k a b).
Proof.
  intros H B. induction B as [t|o g A _ IH]; intros k a S; cbn [run_body]; [split; auto; split; [constructor|constructor]|].
  specialize (H k a o S A). destruct (op k a o) as [[[[[a1 k1] t] es]|]| |]; cbn [rbind fine] in *; try contradiction; auto. destruct H as (S1 & F1 & L1).
  specialize (IH t k1 a1 S1). destruct (run_body op k1 a1 (g t)) as [[[[[a2 k2] t2] es2]|]| |]; cbn [rbind fine] in *; try contradiction; auto. destruct IH as (S2 & F2 & L2).
  split; auto. split; [eapply flat_app; eauto|]. rewrite map_app. now apply Forall_app.
Qed.
Lemma op_fine (f : nat -> list V -> @body V) : (forall k args, allowed_body n (f k args)) -> forall d k a o, sized a -> allowed n o -> fine a k (run_op moved f d k a o).
Proof.
  intros AF. induction d as [|d IH]; intros k a o S A; cbn [run_op]; [exact I|]. destruct o as [i v|].
  - destruct (set_total a i v S A) as (a1 & c & E & S1 & _). rewrite E. cbn [rbind]. destruct c as [args|].
    + unfold first_event. pose proof (body_fine (run_op moved f d) (f k args) IH (AF _ _) (Datatypes.S k) a1 S1) as H.
      destruct (run_body (run_op moved f d) (Datatypes.S k) a1 (f k args)) as [[[[[a2 k2] t2] es2]|]| |]; cbn [rbind fine] in *; try contradiction; auto. destruct H as (S2 & F2 & L2).
      split; auto. split; [econstructor; eauto|]. cbn [map fst]. constructor; auto.
    + cbn [fine]. split; auto. split; [econstructor; [exact E|constructor]|]. cbn. auto.
  - cbn [fine]. split; auto. split; [econstructor; [reflexivity|constructor]|]. cbn. auto.
Qed.
End Proofs.

Lemma op_cancel {V} (moved : nat -> V -> V) f d k a : run_op moved f (S d) k a ACancel = Ok (Some (cancel a, k, false, [(ACancel, None)])).
Proof. reflexivity. Qed.
Lemma op_set {V} (moved : nat -> V -> V) f d k a i v : run_op moved f (S d) k a (ASet i v) =
  (let* (a1, c) := set_ moved a i v in match c with None => Ok (Some (a1, k, false, [(ASet i v, None)])) | Some args => first_event (ASet i v, Some args) (run_body (run_op moved f d) (S k) a1 (f k args)) end).
Proof. reflexivity. Qed.

(** ** Theorems *)
(** A program whose function throws and uses the aggregator: whatever it does, every operation makes
    the call that it would make if the operations had been executed one after another, in the order
    in which they have begun, by a function that does nothing; C43 says which calls these are. *)
Theorem aggregator_reentrant {V} (moved : nat -> V -> V) n f os depth : Forall (allowed n) os -> (forall k args, allowed_body n (f k args)) ->
  exists x, run_ops moved f depth 0 (agg_init n) os = Ok x /\
  match x with
  | None => True
  | Some (_, ts, es) => length ts = length os /\ Forall (allowed n) (map fst es) /\ arun moved (agg_init n) (map fst es) = Ok (map snd es)
  end.
Proof.
  intros A AF.
  assert (H : forall os k a, Forall (allowed n) os -> sized n a -> exists x, run_ops moved f depth k a os = Ok x /\
    match x with None => True | Some (a', ts, es) => length ts = length os /\ Forall (allowed n) (map fst es) /\ flat moved a es a' end).
  { clear os A. induction os as [|o os IH]; intros k a A S; cbn [run_ops].
    - eexists. split; [reflexivity|]. repeat split; constructor.
    - inversion A as [|? ? A1 A2]; subst. pose proof (op_fine moved n f AF depth k a o S A1) as H. destruct (run_op moved f depth k a o) as [[[[[a1 k1] t] es]|]| |]; cbn [rbind fine] in *; try contradiction.
      + destruct H as (S1 & F1 & L1). destruct (IH k1 a1 A2 S1) as (y & -> & Q). cbn [rbind]. destruct y as [[[a2 ts] es2]|]; [|now exists None]. destruct Q as (Q1 & Q2 & Q3). eexists. split; [reflexivity|].
        split; [cbn; congruence|]. split; [rewrite map_app; now apply Forall_app|eapply flat_app; eauto].
      + now exists None. }
  destruct (H os 0 (agg_init n) A) as (x & E & Q); [unfold sized; apply repeat_length|]. exists x. split; auto. destruct x as [[[a ts] es]|]; auto. destruct Q as (Q1 & Q2 & Q3). split; auto. split; auto. eapply flat_arun; eauto.
Qed.
Print Assumptions aggregator_reentrant.

(** A function that sets nothing before it cancels can do anything: a stack with room for two
    operations is enough. *)
Theorem aggregator_quiet_partial {V} (moved : nat -> V -> V) n f os depth : Forall (allowed n) os -> (forall k args, allowed_body n (f k args)) -> (forall k args, quiet (f k args)) -> 2 <= depth ->
  exists a ts es, run_ops moved f depth 0 (agg_init n) os = Ok (Some (a, ts, es)).
Proof.
  intros A AF Q D. destruct depth as [|[|d]]; try lia.
  assert (C : forall d b k a, allowed_body n b -> sized n a -> m_cancelled a = true -> exists y, run_body (run_op moved f (S d)) k a b = Ok (Some y)).
  { clear - moved. intros d b k a B. revert k a. induction B as [t|o g A _ IH]; intros k a S M; cbn [run_body]; [eauto|].
    assert (X : exists a1 k1 t1 es1, run_op moved f (Datatypes.S d) k a o = Ok (Some (a1, k1, t1, es1)) /\ sized n a1 /\ m_cancelled a1 = true).
    { destruct o as [i v|]; cbn [run_op]; [|do 4 eexists; split; [reflexivity|]; auto]. destruct (set_total moved n a i v S A) as (a' & c & -> & S' & M' & N & _). rewrite (N M). cbn [rbind].
      do 4 eexists. split; [reflexivity|]. split; auto. congruence. }
    destruct X as (a1 & k1 & t1 & es1 & -> & S1 & M1). cbn [rbind]. destruct (IH t1 k1 a1 S1 M1) as ([[[a2 k2] t2] es2] & ->). cbn [rbind]. eauto. }
  assert (H : forall k a o, sized n a -> allowed n o -> exists a' k' t es, run_op moved f (S (S d)) k a o = Ok (Some (a', k', t, es)) /\ sized n a').
  { intros k a o S Ao. pose proof (op_fine moved n f AF (Datatypes.S (Datatypes.S d)) k a o S Ao) as Fi.
    enough (exists y, run_op moved f (Datatypes.S (Datatypes.S d)) k a o = Ok (Some y)) as ([[[a' k'] t] es] & E) by (rewrite E in Fi; cbn in Fi; exists a', k', t, es; tauto).
    destruct o as [i v|]; [|rewrite op_cancel; eauto]. rewrite op_set. destruct (set_total moved n a i v S Ao) as (a1 & c & -> & S1 & _). cbn [rbind]. destruct c as [args|]; [|eauto]. unfold first_event.
    specialize (Q k args). specialize (AF k args). destruct (f k args) as [t|o g]; [cbn [run_body rbind]; eauto|].
    inversion Q; subst. inversion AF as [|? ? _ AG]; subst. cbn [run_body]. rewrite op_cancel. cbn [rbind].
    destruct (C d (g false) (Datatypes.S k) (cancel a1) (AG false) S1 eq_refl) as ([[[a2 k2] t2] es2] & ->). cbn [rbind]. eauto. }
  assert (R : forall os k a, Forall (allowed n) os -> sized n a -> exists y, run_ops moved f (S (S d)) k a os = Ok (Some y)).
  { clear os A. induction os as [|o os IH]; intros k a A S; cbn [run_ops]; [eauto|]. inversion A; subst. destruct (H k a o S) as (a' & k' & t & es & -> & S'); auto. cbn [rbind].
    destruct (IH k' a') as ([[a2 ts] es2] & ->); auto. cbn [rbind]. eauto. }
  destruct (R os 0 (agg_init n) A) as ([[a ts] es] & E); [unfold sized; apply repeat_length|]. eauto.
Qed.
Print Assumptions aggregator_quiet_partial.

(** A function that begins with a set is called for ever, whatever the depth of the stack, by the
    first set that completes the arguments. *)
Theorem aggregator_recursion {V} (moved : nat -> V -> V) n f os depth : Forall (allowed n) os -> (forall k args, sets_first n (f k args)) ->
  (exists pre i v, os = pre ++ [ASet i v] /\ complete n os /\ ~ cancelled pre) -> run_ops moved f depth 0 (agg_init n) os = Ok None.
Proof.
  intros A SF (pre & i & v & E & CO & NC).
  assert (DV : forall d k a i v, sized n a -> full a -> m_cancelled a = false -> i < n -> run_op moved f d k a (ASet i v) = Ok None).
  { induction d as [|d IH]; intros k a i0 v0 S F M L; cbn [run_op]; [reflexivity|]. destruct (set_total moved n a i0 v0 S L) as (a1 & c & -> & S1 & M1 & _ & X). destruct (X F) as [F1 N]. cbn [rbind].
    destruct c as [args|]; [|destruct (N M); auto]. destruct (SF k args) as (i1 & v1 & g & -> & L1). unfold first_event. cbn [run_body]. rewrite IH; auto; congruence. }
  assert (H : forall os r a k, Forall (allowed n) os -> good moved n r a -> (exists pre i v, os = pre ++ [ASet i v] /\ fires n (rev r ++ pre) (ASet i v) = true) -> run_ops moved f depth k a os = Ok None).
  { clear - SF DV. induction os as [|o os IH]; intros r a k A G (pre & i & v & E & FI); [destruct pre; discriminate|]. inversion A as [|? ? Ao A']; subst. cbn [run_ops].
    assert (DO : forall i v, o = ASet i v -> fires n (rev r) o = true -> run_op moved f depth k a o = Ok None).
    { intros i0 v0 -> FO. destruct depth as [|d]; [reflexivity|]. cbn [run_op]. destruct (set_good moved n r a i0 v0 Ao G) as (a1 & c & Es & G1 & C). rewrite FO in C. destruct C as (args & -> & _). rewrite Es. cbn [rbind].
      destruct (SF k args) as (i1 & v1 & g & -> & L1). unfold first_event. cbn [run_body].
      assert (S1 : sized n a1) by apply G1.
      assert (F1 : full a1).
      { destruct G1 as (G1 & G2 & G3). unfold full. rewrite (forallb_nth moved n _ (fun _ => true)); [apply forallb_forall; auto|]. intros j Lj. rewrite G3 by lia. cbn [option_map]. f_equal.
        rewrite (slot_some moved n). cbn [rev]. apply (fires_spec moved) in FO as (_ & CO & _). specialize (CO j ltac:(lia)). destruct (latest j (rev r ++ [ASet i0 v0])); congruence. }
      assert (M1 : m_cancelled a1 = false).
      { destruct G1 as (_ & -> & _). cbn [rev]. apply (fires_spec moved) in FO as (_ & _ & NC). apply not_true_iff_false. intros X. apply existsb_exists in X as (x & I & Ex). apply NC. exists x. split; auto. apply in_app_or in I as [I|[<-|[]]]; auto. discriminate. }
      rewrite (DV d (Datatypes.S k) a1 i1 v1 S1 F1 M1 L1). reflexivity. }
    destruct (fires n (rev r) o) eqn:FO.
    { destruct o as [i0 v0|]; [|discriminate]. rewrite (DO i0 v0 eq_refl eq_refl). reflexivity. }
    destruct pre as [|o' pre]; cbn [app] in E; injection E as -> ->; [rewrite app_nil_r in FI; congruence|].
    assert (NX : depth = 0 \/ exists a1, run_op moved f depth k a o' = Ok (Some (a1, k, false, [(o', None)])) /\ good moved n (o' :: r) a1).
    { destruct depth as [|d]; [now left|right]. destruct o' as [i0 v0|]; cbn [run_op].
      - destruct (set_good moved n r a i0 v0 Ao G) as (a1 & c & -> & G1 & C). rewrite FO in C. subst c. cbn [rbind]. eauto.
      - exists (cancel a). split; auto. now apply cancel_good. }
    destruct NX as [-> |(a1 & -> & G1)]; [reflexivity|]. cbn [rbind]. rewrite (IH (o' :: r) a1 k A' G1); [reflexivity|]. exists pre, i, v. split; auto. cbn [rev]. rewrite <- app_assoc. exact FI. }
  apply (H os [] (agg_init n) 0 A (good_init moved n)). exists pre, i, v. split; auto. cbn [rev app]. apply (fires_spec moved). split; [eauto|]. split; auto. now rewrite <- E.
Qed.
Print Assumptions aggregator_recursion.

(** ** Violations *)
(** A function that starts the next round by setting a value: it never returns. *)
Theorem aggregator_reentrant_refuted : exists (f : nat -> list nat -> @body nat) os, Forall (allowed 2) os /\ (forall k args, allowed_body 2 (f k args)) /\
  forall depth, run_ops (fun _ v => v) f depth 0 (agg_init 2) os = Ok None.
Proof.
  exists (fun _ args => Do (ASet 0 (hd 0 args + 1)) (fun _ => Done false)), [ASet 0 1; ASet 1 2].
  assert (A : Forall (allowed 2) [ASet 0 1; ASet 1 2]) by (repeat constructor). split; [exact A|]. split; [intros; repeat constructor|]. intros depth. apply aggregator_recursion; auto.
  - intros k args. do 3 eexists. split; [reflexivity|lia].
  - exists [ASet 0 1], 1, 2. split; [reflexivity|]. split.
    + intros [|[|i]] L; cbn; try discriminate. lia.
    + intros (o & [<-|[]] & E). discriminate E.
Qed.
(** A function that throws has taken its arguments: when one of them is set again, the function gets
    the other one as moving has left it. *)
Theorem aggregator_throw_refuted : exists (f : nat -> list (list nat) -> @body (list nat)) os a ts es, Forall (allowed 2) os /\
  run_ops (fun _ _ => []) f 2 0 (agg_init 2) os = Ok (Some (a, ts, es)) /\ ts = [false; true; false] /\
  map snd es = [None; Some [[1]; [2]]; Some [[]; [2]]] /\ ~ is_latest 2 os [[]; [2]].
Proof.
  exists (fun k _ => Done (Nat.eqb k 0)), [ASet 0 [1]; ASet 1 [2]; ASet 1 [2]]. do 3 eexists. split; [repeat constructor|]. split; [vm_compute; reflexivity|]. split; [reflexivity|]. split; [reflexivity|].
  intros [_ H]. specialize (H 0 ltac:(lia)). discriminate H.
Qed.
(** ** A concrete case: the function cancels, sets both values and throws what it is given *)
Example aggregator_reentrant_demo :
  let f := fun (_ : nat) (args : list nat) => Do ACancel (fun _ => Do (ASet 0 7) (fun _ => Do (ASet 1 8) (fun t => Done (negb t)))) in
  exists a, run_ops (fun _ v => v) f 2 0 (agg_init 2) [ASet 0 1; ASet 1 2; ASet 0 3] =
    Ok (Some (a, [false; true; false], [(ASet 0 1, None); (ASet 1 2, Some [1; 2]); (ACancel, None); (ASet 0 7, None); (ASet 1 8, None); (ASet 0 3, None)])) /\ m_values a = [Some 3; Some 8].
Proof. eexists. split; vm_compute; reflexivity. Qed.
