(** The invariant of frames and callbacks is kept by each step. *)
From Coq Require Import ZifyBool ZifyNat.
From Verif Require Import Common JStopModel JStopSpec JStopWord JStopAbs JStopInv.

Ltac proj := cbn [sp lk lst sig ob num stk tk sr fr lg s_stk s_lk s_sp s_lst s_sig s_ob s_objs s_num s_lg s_fr] in *.
Ltac counts := intros; rewrite ?countf_cons; cbn [is_ctor is_rm winner]; unfold countf; cbn [filter length];
  repeat match goal with |- context [Nat.eqb ?x ?y] => destruct (Nat.eqb x y) end; cbn [Nat.b2n]; lia.
Ltac ins := repeat match goal with H : In _ (_ :: _) |- _ => destruct H as [H|H]; [match type of H with _ = ?x => is_var x; subst x | _ => first [discriminate H | injection H; clear H; intros] end|] | H : In _ [] |- _ => destruct H end.
Ltac noin := intros; intro; ins; try discriminate; ins.

Section Threads.
Context (n : nat).
Section Step.
Context (a : ast) (t : nat) (f0 : frame) (st : list frame).
Context (Ht : t < n) (Est : stk a t = f0 :: st) (I1 : inv1 n a) (I2 : inv2 n a).

Ltac quiet fs :=
  eapply (inv2_keep n a _ t _ fs st Ht Est I2); proj;
  [ reflexivity | try reflexivity | try reflexivity | try reflexivity | try reflexivity | try reflexivity | try reflexivity
  | intros; try reflexivity; try (apply begun_keep; discriminate)
  | intros f' Hf'; ins
  | counts | counts
  | try (right; counts)
  | intros d X; try (now destruct X)
  | intros d f' Hf' X; ins; try (now destruct X)
  | intros d Hf'; ins; try discriminate
  | noin | intros d; try discriminate ].

Lemma inv2_quiet a' : lstep t a st f0 a' ->
  match f0 with
  | FReqCas _ => sp a' = sp a
  | FReqLoop => lst a = []
  | FReq | FReqLock | FReqLockCas _ | FAdd _ _ | FAddInl _ _ | FRm _ | FRmCas _ _ | FRmSpin _ => True
  | FAddChk _ _ _ => lg a' = lg a
  | FRmBody c => ~ In c (lst a)
  | FRmCheck _ => sig a <> Some t
  | _ => False end -> inv2 n a'.
Proof.
  intros H Q.
  pose proof (top_J n a t f0 st Est I2) as HJ.
  inversion H as [? ? Hc | | | | | | | | | | | | | | | | | | | | | | ]; subst; try (now destruct Q); try (inversion Hc; subst); clear H; unfold J in HJ; cbn [Jw fcb JC] in HJ; proj.
  all: try (exfalso; apply (f_equal (@length event)) in Q; rewrite app_length in Q; cbn in Q; lia).
  all: try (exfalso; congruence).
  all: try (exfalso; apply Q; match goal with E : lst a = _ |- _ => rewrite E end; apply in_elt).
  all: match goal with |- inv2 _ ?x => match x with context [s_stk _ t (?f1 :: st)] => quiet [f1] | context [s_stk _ t st] => quiet (@nil frame) end end.
  all: try match goal with |- J _ _ _ => unfold J, fresh in *; cbn [Jw fcb JC]; intuition congruence end.
  all: try (left; assumption).
  1,2: unfold J, fresh in *; cbn [Jw fcb JC]; destruct H0 as [E1 E2]; rewrite E1, E2;
    (split; [split; [auto|]; intros Z; apply orb_false_elim in Z as [? Z]; apply Nat.leb_gt in Z; split; [assumption|lia] | tauto]).
  intros X. pose proof (j_fr n a I2 v f H1) as [_ G]. destruct f; try (now destruct X); [|destruct removed; [destruct X|]]; cbn in X; subst; cbn [fcb JC] in G; intuition congruence.
Qed.

(** The lemma for other steps *)
Ltac gen fs := eapply (inv2_gen n a t f0 st Ht Est I2 _ fs); proj.
Lemma nobegun_signal c h u : begun c (h ++ [ESignal u]) <-> begun c h.
Proof. apply begun_keep. discriminate. Qed.

Lemma JC_same x i b b' f : (b' <-> b) -> JC x i b f -> JC x i b' f.
Proof. intros H. destruct f; cbn [JC]; try destruct removed; rewrite ?H; auto. Qed.

Lemma wfu_low l f : wfu l -> In f l -> match f with FUser | FReqBody _ _ _ | FAddInl _ _ => True | _ => False end.
Proof. intros H. induction H; intros Hf; [destruct Hf as [<-|[]]; exact I| |]; (destruct Hf as [<-|[<-|Hf]]; [exact I|exact I|exact (IHwfu Hf)]). Qed.
Lemma lib_low f : f0 <> FUser -> In f st -> match f with FUser | FReqBody _ _ _ | FAddInl _ _ => True | _ => False end.
Proof. intros N. apply wfu_low. eapply wfs_lib; [|exact N]. rewrite <- Est. apply (i_shape n a I1). Qed.
Lemma stk_top fs u f : In f fs -> u = t -> In f (upd (stk a) t (fs ++ st) u).
Proof. intros H ->. rewrite upd_eq. apply in_or_app. now left. Qed.
Lemma keep_in fs u f : (f0 = f -> In f fs) -> In f (stk a u) -> In f (upd (stk a) t (fs ++ st) u).
Proof.
  intros H Hf. destruct (in_oth _ _ _ _ _ _ Est Hf) as [[-> E]|Ho]; [|now apply oth_upd]. apply stk_top; [|reflexivity]. auto.
Qed.
Lemma still_winner fs : Nat.b2n (winner f0) <= countf winner fs -> winner f0 = true -> tot n winner (upd (stk a) t (fs ++ st)) <> 0.
Proof.
  intros H W. pose proof (tot_upd_app n winner _ _ fs _ _ Ht Est). pose proof (tot_in n winner (stk a) t f0 Ht ltac:(rewrite Est; now left) W).
  rewrite W in *. cbn [Nat.b2n] in *. lia.
Qed.
(** What is said of a callback whose marks do not change *)
Lemma keep_ref fs c : c < num a -> a_ref (ob a c) = true -> (forall f, f0 = f -> execf c f -> exists f', In f' fs /\ execf c f') -> (forall c, f0 <> FRmDrop c) ->
  In c (lst a) \/ a_fin (ob a c) = true \/ (exists u f, In f (upd (stk a) t (fs ++ st) u) /\ execf c f) \/ (exists u, In (FRmDrop c) (upd (stk a) t (fs ++ st) u)).
Proof.
  intros Hc Hr He Hd. destruct (j_ref n a I2 c Hc Hr) as [|[|[(u & f & H & X)|(u & H)]]]; [tauto|tauto| |]; right; right.
  - left. destruct (in_oth _ _ _ _ _ _ Est H) as [[-> E]|Ho]; [|exists u, f; split; [now apply oth_upd|exact X]].
    destruct (He f (eq_sym E) X) as (f' & ? & ?). exists t, f'. split; [now apply stk_top|assumption].
  - right. exists u. apply keep_in; [|exact H]. intros E. now destruct (Hd c).
Qed.
Lemma keep_self fs u c m : (forall c, f0 <> FRmDrop c) -> oth (stk a) t st u (FReqBody c m true) -> a_life (ob a c) = LGone \/ In (FRmDrop c) (stk a u) ->
  a_life (ob a c) = LGone \/ In (FRmDrop c) (upd (stk a) t (fs ++ st) u).
Proof. intros Hd Ho [H|H]; [now left|right]. apply keep_in; [|exact H]. intros E. now destruct (Hd c). Qed.

Lemma inv2_signal o : f0 = FReqCas o -> sp a = false -> lk a = false -> inv2 n (s_lg (s_stk (s_lk (s_sp a true) true) t (FReqSet :: st)) (ESignal t)).
Proof.
  intros E0 Hsp Hlk. pose proof I2 as [K1 K2 K3 K4 K5 K6 K7 K8 K9 K10 K11 K12].
  assert (Hsr : 1 <= sr a). { apply (i_src n a I1). eapply tot_in; [exact Ht|rewrite Est; now left|]. now subst. }
  gen [FReqSet]; rewrite ?E0, ?Hsp; try assumption; try (intros; ins; fail); try counts.
  - reflexivity.
  - intros f Hf. ins. split; exact I.
  - intros u f Ho. apply J_oth; proj; auto; [lia|]. intros c _ _. apply JC_same, nobegun_signal.
  - intros c Hc. destruct (K5 c Hc) as (? & ? & ? & ? & ? & ?). rewrite nobegun_signal. auto 8.
  - intros _ Z. pose proof (tot_upd_app n winner _ _ [FReqSet] _ _ Ht Est) as G. rewrite Z, E0 in G. cbn in G. lia.
  - intros c f Hf X. ins. destruct X.
  - intros u c m Ho. apply (keep_self [FReqSet] u c m); [rewrite E0; discriminate|exact Ho].
  - intros c Hc Hr. apply (keep_ref [FReqSet]); try assumption; [|rewrite E0; discriminate]. rewrite E0. intros f <- [].
  - intros c. rewrite nobegun_signal. apply K12.
Qed.

Lemma inv2_set : f0 = FReqSet -> inv2 n (s_stk (s_sig a t) t (FReqLoop :: st)).
Proof.
  intros E0. pose proof I2 as [K1 K2 K3 K4 K5 K6 K7 K8 K9 K10 K11 K12].
  pose proof (fun u f => one_winner n a t f0 st Ht Est I1 u f) as HW.
  gen [FReqLoop]; rewrite ?E0; try assumption; try (intros; ins; fail); try counts.
  - reflexivity.
  - intros f Hf. ins. split; [reflexivity|exact I].
  - intros u f Ho Hj. specialize (HW u f ltac:(now rewrite E0) Ho). revert Hj.
    intros [Hw Hc]. split; [|exact Hc].
    destruct f; cbn [Jw winner] in *; try discriminate; auto.
    intros E. proj. destruct Ho as [[N _]|[_ Ho]]; [congruence|]. now pose proof (lib_low _ ltac:(rewrite E0; discriminate) Ho).
  - intros _ Z. exfalso. apply (still_winner [FReqLoop]); [now rewrite E0|now rewrite E0|exact Z].
  - intros c f Hf X. ins. destruct X.
  - intros u c m Ho. apply (keep_self [FReqLoop] u c m); [rewrite E0; discriminate|exact Ho].
  - intros c Hc Hr. apply (keep_ref [FReqLoop]); try assumption; [|rewrite E0; discriminate]. rewrite E0. intros f <- [].
Qed.

Lemma inv2_pop c l : f0 = FReqLoop -> lst a = c :: l -> inv2 n (s_stk (s_lk (s_lst a l) false) t (FReqRun c (negb (isnil l)) :: st)).
Proof.
  intros E0 El. pose proof I2 as [K1 K2 K3 K4 K5 K6 K7 K8 K9 K10 K11 K12].
  pose proof (fun u f => one_winner n a t f0 st Ht Est I1 u f) as HW.
  pose proof (top_J n a t f0 st Est I2) as HJ. rewrite E0 in HJ. destruct HJ as [HJ _]. cbn [Jw] in HJ.
  rewrite El in *. apply NoDup_cons_iff in K4 as [Hnc Hnd].
  destruct (K5 c ltac:(now left)) as (C1 & C2 & C3 & C4 & C5 & C6).
  gen [FReqRun c (negb (isnil l))]; rewrite ?E0; try assumption; try (intros; ins; fail); try counts.
  - reflexivity.
  - intros f Hf. ins. split; cbn [Jw fcb JC]; proj.
    + split; [exact HJ|]. destruct l; [reflexivity|discriminate].
    + auto 10.
  - intros u f Ho. specialize (HW u f ltac:(now rewrite E0) Ho). apply J_oth; proj; auto.
    intros d _ _. assert (Hsub : In d l -> In d (lst a)) by (rewrite El; now right).
    destruct f; cbn [JC]; try destruct removed; try tauto.
  - intros d Hd. apply K5. now right.
  - intros _ Z. exfalso. apply (still_winner [FReqRun c (negb (isnil l))]); [now rewrite E0|now rewrite E0|exact Z].
  - intros d f Hf X v Hv. ins. cbn in X. subst d. pose proof (K1 v _ Hv) as [_ G]. cbn [fcb JC] in G. rewrite El in G. destruct G as (_ & _ & _ & G). apply G. now left.
  - intros u d m Ho. apply (keep_self [FReqRun c (negb (isnil l))] u d m); [rewrite E0; discriminate|exact Ho].
  - intros d Hd Hr. destruct (Nat.eq_dec d c) as [->|N].
    + right; right; left. exists t, (FReqRun c (negb (isnil l))). split; [apply (stk_top [FReqRun c (negb (isnil l))]); [now left|reflexivity]|reflexivity].
    + destruct (keep_ref [FReqRun c (negb (isnil l))] d Hd Hr) as [H|H]; [rewrite E0; intros f <- []|rewrite E0; discriminate| |right; exact H].
      rewrite El in H. destruct H as [->|H]; [now destruct N|now left].
Qed.

Lemma inv2_run c m : f0 = FReqRun c m -> inv2 n (s_lg (s_stk (s_ob a c (o_rem (ob a c) true)) t (FUser :: FReqBody c m false :: st)) (EBegin c t)).
Proof.
  intros E0. pose proof I2 as [K1 K2 K3 K4 K5 K6 K7 K8 K9 K10 K11 K12].
  pose proof (fun u f => one_winner n a t f0 st Ht Est I1 u f) as HW.
  pose proof (top_J n a t f0 st Est I2) as HJ. rewrite E0 in HJ. destruct HJ as [HJ (C1 & C2 & C3 & C4 & C5 & C6)]. cbn [Jw] in HJ.
  assert (HB : forall d, d <> c -> (begun d (lg a ++ [EBegin c t]) <-> begun d (lg a))) by (intros d N; apply begun_keep; congruence).
  assert (HBc : begun c (lg a ++ [EBegin c t])) by (apply begun_snoc; right; now exists t).
  assert (HO : forall d, a_ref (upd (ob a) c (o_rem (ob a c) true) d) = a_ref (ob a d) /\ a_life (upd (ob a) c (o_rem (ob a c) true) d) = a_life (ob a d)
     /\ a_fin (upd (ob a) c (o_rem (ob a c) true) d) = a_fin (ob a d) /\ a_st (upd (ob a) c (o_rem (ob a c) true) d) = a_st (ob a d)).
  { intros d. destruct (Nat.eq_dec d c) as [->|N]; [rewrite upd_eq|rewrite upd_neq by exact N]; auto. }
  gen [FUser; FReqBody c m false]; rewrite ?E0; try assumption; try (intros; ins; fail); try counts.
  - reflexivity.
  - intros f Hf. ins; (split; [exact I || exact HJ|]); [exact I|]. cbn [fcb JC]. proj. rewrite upd_eq. cbn. auto 10.
  - intros u f Ho. specialize (HW u f ltac:(now rewrite E0) Ho). apply J_oth; proj; auto.
    intros d Ef Hd. destruct (Nat.eq_dec d c) as [->|N].
    + rewrite upd_eq. destruct f; cbn [JC winner fcb] in *; try discriminate; intuition congruence.
    + rewrite upd_neq by exact N. apply JC_same. now apply HB.
  - intros d Hd. destruct (K5 d Hd) as (? & ? & ? & ? & ? & ?). assert (d <> c) by congruence. rewrite upd_neq by assumption. rewrite HB by assumption. auto 8.
  - intros _ Z. exfalso. apply (still_winner [FUser; FReqBody c m false]); [now rewrite E0|now rewrite E0|exact Z].
  - intros d. destruct (HO d) as (-> & -> & _ & ->). auto.
  - intros d. destruct (HO d) as (-> & -> & _ & _). auto.
  - intros d f Hf X v Hv. ins; [destruct X|]. cbn in X. subst d. apply (K9 v t c f0 Hv); [rewrite Est; now left|now rewrite E0].
  - intros u d m' Ho. destruct (HO d) as (_ & -> & _ & _). apply (keep_self [FUser; FReqBody c m false] u d m'); [rewrite E0; discriminate|exact Ho].
  - intros d Hd. destruct (HO d) as (-> & _ & -> & _). intros Hr. apply (keep_ref [FUser; FReqBody c m false] d Hd Hr); [|rewrite E0; discriminate].
    rewrite E0. intros f <- X. exists (FReqBody c m false). split; [right; now left|exact X].
  - intros d Hd. apply begun_snoc in Hd as [Hd|[u E]]; [now apply K12|]. injection E as -> _. exact C1.
Qed.

Lemma inv2_fin c m fs : f0 = FReqBody c m false -> (fs = [FReqLock] \/ fs = [] /\ lst a = []) -> inv2 n (s_stk (s_ob a c (o_fin (ob a c))) t (fs ++ st)).
Proof.
  intros E0 Hfs. pose proof I2 as [K1 K2 K3 K4 K5 K6 K7 K8 K9 K10 K11 K12].
  pose proof (fun u f => one_winner n a t f0 st Ht Est I1 u f) as HW.
  pose proof (top_J n a t f0 st Est I2) as HJ. rewrite E0 in HJ. destruct HJ as [HJ (C1 & C2 & C3 & C4 & C5 & C6 & C7)]. cbn [Jw] in HJ.
  assert (HO : forall d, a_ref (upd (ob a) c (o_fin (ob a c)) d) = a_ref (ob a d) /\ a_life (upd (ob a) c (o_fin (ob a c)) d) = a_life (ob a d)
     /\ a_st (upd (ob a) c (o_fin (ob a c)) d) = a_st (ob a d)).
  { intros d. destruct (Nat.eq_dec d c) as [->|N]; [rewrite upd_eq|rewrite upd_neq by exact N]; auto. }
  assert (Hfs' : forall f, In f fs -> f = FReqLock) by (destruct Hfs as [->|[-> _]]; intros; ins; reflexivity).
  gen fs; rewrite ?E0; try assumption.
  - reflexivity.
  - intros f Hf. rewrite (Hfs' f Hf). split; [exact (proj1 HJ)|exact I].
  - intros u f Ho. specialize (HW u f ltac:(now rewrite E0) Ho). apply J_oth; proj; auto.
    intros d Ef Hd. destruct (Nat.eq_dec d c) as [->|N].
    + rewrite upd_eq. destruct f; cbn [JC winner fcb] in *; try discriminate; cbn; intuition congruence.
    + rewrite upd_neq by exact N. auto.
  - destruct Hfs as [->|[-> _]]; counts.
  - destruct Hfs as [->|[-> _]]; counts.
  - intros d Hd. destruct (K5 d Hd) as (? & ? & ? & ? & ? & ?). assert (d <> c) by congruence. rewrite upd_neq by assumption. auto 8.
  - intros _ Z. destruct Hfs as [->|[_ H]]; [exfalso|exact H]. apply (still_winner [FReqLock]); [now rewrite E0|now rewrite E0|exact Z].
  - intros d. destruct (HO d) as (-> & -> & ->). auto.
  - intros d. destruct (HO d) as (-> & -> & _). auto.
  - intros d f Hf X v Hv. rewrite (Hfs' f Hf) in X. destruct X.
  - intros d f Hf. now specialize (Hfs' _ Hf).
  - intros d m' Hf. now specialize (Hfs' _ Hf).
  - intros u d m' Ho. destruct (HO d) as (_ & -> & _). apply (keep_self fs u d m'); [rewrite E0; discriminate|exact Ho].
  - intros d Hd. destruct (HO d) as (-> & _ & _). intros Hr. destruct (Nat.eq_dec d c) as [->|N]; [right; left; now rewrite upd_eq|].
    rewrite upd_neq by exact N. apply (keep_ref fs d Hd Hr); [|rewrite E0; discriminate].
    rewrite E0. intros f <- X. cbn in X. congruence.
Qed.

Lemma inv2_removed c m fs : f0 = FReqBody c m true -> (fs = [FReqLock] \/ fs = [] /\ lst a = []) -> inv2 n (s_stk a t (fs ++ st)).
Proof.
  intros E0 Hfs. pose proof I2 as [K1 K2 K3 K4 K5 K6 K7 K8 K9 K10 K11 K12].
  pose proof (top_J n a t f0 st Est I2) as HJ. rewrite E0 in HJ. destruct HJ as [HJ _]. cbn [Jw] in HJ.
  assert (Hfs' : forall f, In f fs -> f = FReqLock) by (destruct Hfs as [->|[-> _]]; intros; ins; reflexivity).
  eapply (inv2_keep n a _ t _ fs st Ht Est I2); proj; try reflexivity; rewrite ?E0.
  - intros f Hf. rewrite (Hfs' f Hf). split; [exact (proj1 HJ)|exact I].
  - destruct Hfs as [->|[-> _]]; counts.
  - destruct Hfs as [->|[-> _]]; counts.
  - destruct Hfs as [->|[_ H]]; [right; counts|now left].
  - intros d [].
  - intros d f Hf X. rewrite (Hfs' f Hf) in X. destruct X.
  - intros d Hf. now specialize (Hfs' _ Hf).
  - intros d m' Hf. now specialize (Hfs' _ Hf).
  - discriminate.
Qed.

Lemma inv2_inline c mv o : f0 = FAddChk c mv o -> inv2 n (s_lg (s_stk a t (FUser :: FAddInl c mv :: st)) (EBegin c t)).
Proof.
  intros E0. pose proof I2 as [K1 K2 K3 K4 K5 K6 K7 K8 K9 K10 K11 K12].
  pose proof (fun u f => one_ctor n a t f0 st Ht Est I1 I2 c u f) as HU.
  pose proof (top_J n a t f0 st Est I2) as HJ. rewrite E0 in HJ. destruct HJ as [HJ (C1 & C2 & C3 & C4 & C5 & C6 & C7)]. cbn [Jw] in HJ.
  assert (HB : forall d, d <> c -> (begun d (lg a ++ [EBegin c t]) <-> begun d (lg a))) by (intros d N; apply begun_keep; congruence).
  assert (HBc : begun c (lg a ++ [EBegin c t])) by (apply begun_snoc; right; now exists t).
  gen [FUser; FAddInl c mv]; rewrite ?E0; try assumption; try (intros; ins; fail); try counts.
  - reflexivity.
  - intros f Hf. ins; (split; [exact I|]); [exact I|]. cbn [fcb JC]. proj. auto 10.
  - intros u f Ho. specialize (HU u f ltac:(rewrite E0; cbn; now rewrite Nat.eqb_refl) Ho). apply J_oth; proj; auto.
    intros d Ef Hd. destruct (Nat.eq_dec d c) as [->|N].
    + destruct f; cbn [JC is_ctor fcb] in *; try discriminate; injection Ef as ->; rewrite ?Nat.eqb_refl in HU; try discriminate; try destruct removed; intuition congruence.
    + apply JC_same. now apply HB.
  - intros d Hd. destruct (K5 d Hd) as (? & ? & ? & ? & ? & ?). assert (d <> c) by congruence. rewrite HB by assumption. auto 8.
  - intros Hs Z. apply K6; [exact Hs|]. pose proof (tot_upd_app n winner _ _ [FUser; FAddInl c mv] _ _ Ht Est) as G. cbn [app] in *. rewrite Z, E0 in G. cbn in G. lia.
  - intros d f Hf X v Hv. ins; destruct X.
  - intros u d m' Ho. apply (keep_self [FUser; FAddInl c mv] u d m'); [rewrite E0; discriminate|exact Ho].
  - intros d Hd Hr. apply (keep_ref [FUser; FAddInl c mv] d Hd Hr); [|rewrite E0; discriminate].
    rewrite E0. intros f <- [].
  - intros d Hd. apply begun_snoc in Hd as [Hd|[u E]]; [now apply K12|]. injection E as -> _. exact C1.
Qed.

Lemma inv2_push c mv x : f0 = FAddPush c mv ->
  inv2 n (s_stk (s_lk (s_objs (s_lst (s_ob a c (o_ref (ob a c))) (c :: lst a)) x (sr a)) false) t (FAddRet c true :: st)).
Proof.
  intros E0. pose proof I2 as [K1 K2 K3 K4 K5 K6 K7 K8 K9 K10 K11 K12].
  pose proof (fun u f => one_ctor n a t f0 st Ht Est I1 I2 c u f) as HU.
  pose proof (top_J n a t f0 st Est I2) as HJ. rewrite E0 in HJ. destruct HJ as [HJ (C1 & C2 & C3 & C4 & C5 & C6 & C7)]. cbn [Jw] in HJ.
  assert (Hsp : sp a = false) by (apply (i_push n a I1), (tot_in n is_push (stk a) t f0 Ht); [rewrite Est; now left|now rewrite E0]).
  assert (Hnw : forall u f, oth (stk a) t st u f -> winner f = false).
  { intros u f Ho. destruct (winner f) eqn:W; [exfalso|reflexivity]. destruct (Nat.lt_ge_cases u n) as [Hu|Hu].
    - pose proof (tot_in n winner (stk a) u f Hu (oth_in _ _ _ _ _ _ Est Ho) W). pose proof (i_win n a I1). rewrite Hsp in *. cbn [Nat.b2n] in *. lia.
    - pose proof (oth_in _ _ _ _ _ _ Est Ho) as Hf. rewrite (i_out n a I1 u Hu) in Hf. ins. discriminate. }
  gen [FAddRet c true]; rewrite ?E0; try assumption; try (intros; ins; fail); try counts.
  - reflexivity.
  - intros f Hf. ins. split; [exact I|]. cbn [fcb JC]. proj. rewrite upd_eq. cbn. intuition discriminate.
  - intros u f Ho. specialize (HU u f ltac:(rewrite E0; cbn; now rewrite Nat.eqb_refl) Ho). specialize (Hnw u f Ho). apply J_oth; proj; auto.
    intros d Ef Hd. destruct (Nat.eq_dec d c) as [->|N].
    + rewrite upd_eq. destruct f; cbn [JC is_ctor fcb winner] in *; try discriminate; injection Ef as ->; rewrite ?Nat.eqb_refl in HU; try discriminate; intuition congruence.
    + rewrite upd_neq by exact N. assert (HI : In d (c :: lst a) <-> In d (lst a)) by (cbn; intuition congruence).
      destruct f; cbn [JC]; try destruct removed; rewrite ?HI; auto.
  - constructor; assumption.
  - intros d [<-|Hd].
    + rewrite upd_eq. cbn. rewrite C2. intuition discriminate.
    + destruct (K5 d Hd) as (? & ? & ? & ? & ? & ?). assert (d <> c) by congruence. rewrite upd_neq by assumption. auto 8.
  - intros d. destruct (Nat.eq_dec d c) as [->|N]; [rewrite upd_eq; cbn; congruence|rewrite upd_neq by exact N; auto].
  - intros d. destruct (Nat.eq_dec d c) as [->|N]; [rewrite upd_eq; cbn; congruence|rewrite upd_neq by exact N; auto].
  - intros d f Hf X v Hv. ins; destruct X.
  - intros u d m' Ho. specialize (Hnw _ _ Ho). discriminate.
  - intros d Hd. destruct (Nat.eq_dec d c) as [->|N]; [intros _; left; now left|]. rewrite upd_neq by exact N. intros Hr.
    destruct (keep_ref [FAddRet c true] d Hd Hr) as [H|H]; [rewrite E0; intros f <- []|rewrite E0; discriminate|left; now right|right; exact H].
Qed.

Lemma inv2_added c ok : f0 = FAddRet c ok -> inv2 n (s_stk (s_ob a c (o_add (ob a c) ok)) t st).
Proof.
  intros E0. pose proof I2 as [K1 K2 K3 K4 K5 K6 K7 K8 K9 K10 K11 K12].
  pose proof (fun u f => one_ctor n a t f0 st Ht Est I1 I2 c u f) as HU.
  pose proof (top_J n a t f0 st Est I2) as HJ. rewrite E0 in HJ. destruct HJ as [HJ (C1 & C2 & C3 & C4)]. cbn [Jw] in HJ.
  assert (HO : forall d, a_ref (upd (ob a) c (o_add (ob a c) ok) d) = a_ref (ob a d) /\ a_fin (upd (ob a) c (o_add (ob a c) ok) d) = a_fin (ob a d)
     /\ a_rem (upd (ob a) c (o_add (ob a c) ok) d) = a_rem (ob a d) /\ (a_life (upd (ob a) c (o_add (ob a c) ok) d) = LGone <-> a_life (ob a d) = LGone)).
  { intros d. destruct (Nat.eq_dec d c) as [->|N]; [rewrite upd_eq|rewrite upd_neq by exact N; tauto]. cbn. intuition congruence. }
  gen (@nil frame); rewrite ?E0; try assumption; try (intros; ins; fail); try counts.
  - reflexivity.
  - intros u f Ho. specialize (HU u f ltac:(rewrite E0; cbn; now rewrite Nat.eqb_refl) Ho). apply J_oth; proj; auto.
    intros d Ef Hd. destruct (Nat.eq_dec d c) as [->|N].
    + rewrite upd_eq. destruct f; cbn [JC is_ctor fcb] in *; try discriminate; injection Ef as ->; rewrite ?Nat.eqb_refl in HU; try discriminate; try destruct removed; cbn; intuition congruence.
    + rewrite upd_neq by exact N. auto.
  - intros d Hd. destruct (HO d) as (-> & -> & -> & H4). rewrite H4. auto.
  - intros Hs Z. apply K6; [exact Hs|]. pose proof (tot_upd_app n winner _ _ [] _ _ Ht Est) as G. cbn [app] in *. rewrite Z, E0 in G. cbn in G. lia.
  - intros d. destruct (Nat.eq_dec d c) as [->|N]; [rewrite upd_eq; cbn; congruence|rewrite upd_neq by exact N; auto].
  - intros d. destruct (HO d) as (-> & _ & _ & H4). rewrite H4. auto.
  - intros u d m' Ho. destruct (HO d) as (_ & _ & _ & H4). rewrite H4. apply (keep_self [] u d m'); [rewrite E0; discriminate|exact Ho].
  - intros d Hd. destruct (HO d) as (-> & -> & _ & _). intros Hr. apply (keep_ref [] d Hd Hr); [|rewrite E0; discriminate].
    rewrite E0. intros f <- [].
Qed.

Lemma inv2_unlink c l1 l2 : f0 = FRmBody c -> lst a = l1 ++ c :: l2 ->
  inv2 n (s_stk (s_fr (s_lk (s_lst (s_ob a c (o_gone (ob a c))) (l1 ++ l2)) false)) t st).
Proof.
  intros E0 El. pose proof I2 as [K1 K2 K3 K4 K5 K6 K7 K8 K9 K10 K11 K12].
  pose proof (fun u f => one_rm n a t f0 st Ht Est I1 I2 c u f) as HU.
  pose proof (top_J n a t f0 st Est I2) as HJ. rewrite E0 in HJ. destruct HJ as [HJ (C1 & C2 & C3)]. cbn [Jw] in HJ.
  assert (Hin : In c (lst a)) by (rewrite El; apply in_elt).
  assert (Hnin : ~ In c (l1 ++ l2)) by (rewrite El in K4; now apply NoDup_remove_2 in K4).
  assert (HI : forall d, d <> c -> (In d (l1 ++ l2) <-> In d (lst a))).
  { intros d N. rewrite El, !in_app_iff. cbn [In]. intuition congruence. }
  gen (@nil frame); rewrite ?E0; try assumption; try (intros; ins; fail); try counts.
  - reflexivity.
  - intros u f Ho. specialize (HU u f ltac:(rewrite E0; cbn; now rewrite Nat.eqb_refl) Ho). apply J_oth; proj; auto.
    + rewrite El. destruct l1; discriminate.
    + intros d Ef Hd. destruct (Nat.eq_dec d c) as [->|N].
      * destruct f; cbn [JC is_rm fcb] in *; try discriminate; injection Ef as ->; rewrite ?Nat.eqb_refl in HU; try discriminate; try destruct removed; intuition congruence.
      * rewrite upd_neq by exact N. destruct f; cbn [JC]; try destruct removed; rewrite ?HI by exact N; auto.
  - rewrite El in K4. now apply NoDup_remove_1 in K4.
  - intros d Hd. assert (N : d <> c) by congruence. rewrite upd_neq by exact N. apply K5. now apply HI.
  - intros Hs Z. exfalso. pose proof (tot_upd_app n winner _ _ [] _ _ Ht Est) as G. cbn [app] in *. rewrite Z, E0 in G. cbn in G.
    rewrite (K6 Hs) in Hin; [destruct Hin|lia].
  - intros d. destruct (Nat.eq_dec d c) as [->|N]; [rewrite upd_eq; discriminate|rewrite upd_neq by exact N; auto].
  - intros d. destruct (Nat.eq_dec d c) as [->|N]; [rewrite upd_eq; reflexivity|rewrite upd_neq by exact N; auto].
  - intros u d m' Ho H. destruct (Nat.eq_dec d c) as [->|N]; [left; now rewrite upd_eq|]. rewrite upd_neq by exact N.
    apply (keep_self [] u d m'); [rewrite E0; discriminate|exact Ho|exact H].
  - intros d Hd. destruct (Nat.eq_dec d c) as [->|N]; [rewrite upd_eq; discriminate|]. rewrite upd_neq by exact N. rewrite HI by exact N. intros Hr.
    apply (keep_ref [] d Hd Hr); [|rewrite E0; discriminate]. rewrite E0. intros f <- [].
Qed.

Lemma inv2_drop c : f0 = FRmDrop c -> inv2 n (s_stk (s_fr (s_ob a c (o_gone (ob a c)))) t st).
Proof.
  intros E0. pose proof I2 as [K1 K2 K3 K4 K5 K6 K7 K8 K9 K10 K11 K12].
  pose proof (fun u f => one_rm n a t f0 st Ht Est I1 I2 c u f) as HU.
  pose proof (top_J n a t f0 st Est I2) as HJ. rewrite E0 in HJ. destruct HJ as [HJ (C1 & C2 & C3 & C4)]. cbn [Jw] in HJ.
  assert (HX : forall u f, oth (stk a) t st u f -> ~ execf c f).
  { intros u f Ho. apply (K9 t u); [rewrite Est, E0; now left|]. eapply oth_in; eassumption. }
  gen (@nil frame); rewrite ?E0; try assumption; try (intros; ins; fail); try counts.
  - reflexivity.
  - intros u f Ho. specialize (HU u f ltac:(rewrite E0; cbn; now rewrite Nat.eqb_refl) Ho). specialize (HX u f Ho). apply J_oth; proj; auto.
    intros d Ef Hd. destruct (Nat.eq_dec d c) as [->|N].
    + destruct f; cbn [JC is_rm fcb execf] in *; try discriminate; injection Ef as ->; rewrite ?Nat.eqb_refl in HU; try discriminate; try destruct removed; intuition congruence.
    + rewrite upd_neq by exact N. auto.
  - intros d Hd. assert (N : d <> c) by congruence. rewrite upd_neq by exact N. now apply K5.
  - intros Hs Z. apply K6; [exact Hs|]. pose proof (tot_upd_app n winner _ _ [] _ _ Ht Est) as G. cbn [app] in *. rewrite Z, E0 in G. cbn in G. lia.
  - intros d. destruct (Nat.eq_dec d c) as [->|N]; [rewrite upd_eq; discriminate|rewrite upd_neq by exact N; auto].
  - intros d. destruct (Nat.eq_dec d c) as [->|N]; [rewrite upd_eq; reflexivity|rewrite upd_neq by exact N; auto].
  - intros u d m' Ho H. destruct (Nat.eq_dec d c) as [->|N]; [left; now rewrite upd_eq|]. rewrite upd_neq by exact N.
    destruct H as [H|H]; [now left|right]. apply (keep_in []); [|exact H]. rewrite E0. congruence.
  - intros d Hd. destruct (Nat.eq_dec d c) as [->|N]; [rewrite upd_eq; discriminate|]. rewrite upd_neq by exact N. intros Hr.
    destruct (K11 d Hd Hr) as [|[|[(u & f & H & X)|(u & H)]]]; [tauto|tauto| |]; right; right.
    + left. exists u, f. split; [|exact X]. apply (keep_in []); [|exact H]. rewrite E0. intros <-. destruct X.
    + right. exists u. apply (keep_in []); [|exact H]. rewrite E0. congruence.
Qed.

(** The destructor is called by the callback itself *)
Lemma inv2_self c : f0 = FRmCheck c -> sig a = Some t -> inv2 n (s_stk a t (FRmDrop c :: if a_rem (ob a c) then set_removed c st else st)).
Proof.
  intros E0 Hsig. pose proof I2 as [K1 K2 K3 K4 K5 K6 K7 K8 K9 K10 K11 K12].
  pose proof (fun u f => one_rm n a t f0 st Ht Est I1 I2 c u f) as HU.
  pose proof (fun f => lib_low f ltac:(rewrite E0; discriminate)) as HL.
  pose proof (top_J n a t f0 st Est I2) as HJ. rewrite E0 in HJ. destruct HJ as [HJ (C1 & C2 & C3 & C4)]. cbn [Jw] in HJ.
  (* the frames that execute the callback are in this stack, and they are marked *)
  assert (Hall : forall u f, oth (stk a) t st u f -> execf c f -> u = t /\ a_rem (ob a c) = true /\ exists m, f = FReqBody c m false).
  { intros u f Ho X. pose proof (oth_J n a t f0 st Est I2 u f Ho) as [Gw G].
    assert (Hu : u = t) by (destruct f; try (now destruct X); cbn [Jw] in Gw; destruct Gw; congruence).
    split; [exact Hu|]. destruct f; try (now destruct X); cbn in X.
    - destruct Ho as [[N _]|[_ Ho]]; [now destruct N|]. now pose proof (HL _ Ho).
    - destruct removed; [destruct X|]. subst c0. split; [|now exists more]. cbn [fcb JC] in G. tauto. }
  assert (Hcnt : forall p, (forall d m, p (FReqBody d m true) = p (FReqBody d m false)) -> countf p (if a_rem (ob a c) then set_removed c st else st) = countf p st).
  { intros p Hp. destruct (a_rem (ob a c)); [now apply countf_removed|reflexivity]. }
  set (st' := if a_rem (ob a c) then set_removed c st else st) in *.
  assert (Hst' : forall f, In f st' -> In f st \/ exists m, f = FReqBody c m true /\ In (FReqBody c m false) st).
  { intros f Hf. subst st'. destruct (a_rem (ob a c)); [|now left]. apply in_removed in Hf as [[Hf _]|Hf]; [now left|now right]. }
  assert (Hne : forall f, In f st' -> ~ execf c f).
  { intros f Hf X. subst st'. destruct (a_rem (ob a c)) eqn:Er.
    - apply in_removed in Hf as [[Hf Hx]|(m & -> & _)]; [|destruct X]. destruct (Hall t f) as (_ & _ & m & ->); [right; now split|exact X|]. now specialize (Hx m false eq_refl).
    - destruct (Hall t f) as (_ & E & _); [right; now split|exact X|]. congruence. }
  assert (Hback : forall f, In f st -> ~ execf c f -> In f st').
  { intros f Hf X. subst st'. destruct (a_rem (ob a c)); [|exact Hf]. apply removed_in; [exact Hf|]. intros m ->. now apply X. }
  assert (Hin : forall u f, In f (upd (stk a) t (FRmDrop c :: st') u) -> (u = t /\ f = FRmDrop c) \/ (u <> t /\ In f (stk a u)) \/ (u = t /\ In f st')).
  { intros u f H. destruct (Nat.eq_dec u t) as [->|N]; [rewrite upd_eq in H; destruct H as [<-|H]; tauto|rewrite upd_neq in H by exact N; tauto]. }
  assert (Hout : forall u f, In f (stk a u) -> ~ execf c f -> f <> f0 -> In f (upd (stk a) t (FRmDrop c :: st') u)).
  { intros u f H X N. destruct (in_oth _ _ _ _ _ _ Est H) as [[_ E]|[[Nu Ho]|[-> Ho]]]; [now destruct N|now rewrite upd_neq|]. rewrite upd_eq. right. auto. }
  assert (Hother : forall u f, In f (stk a u) -> u <> t -> ~ execf c f).
  { intros u f H N X. destruct (Hall u f) as (E & _); [left; now split|exact X|now destruct N]. }
  assert (Htot : forall p, (forall d m, p (FReqBody d m true) = p (FReqBody d m false)) -> p FUser = false ->
    tot n p (upd (stk a) t (FRmDrop c :: st')) + Nat.b2n (p f0) = tot n p (stk a) + Nat.b2n (p (FRmDrop c))).
  { intros p Hp _. pose proof (tot_upd n p (stk a) t (FRmDrop c :: st') Ht) as G. rewrite Est, !countf_cons, (Hcnt p Hp) in G. lia. }
  assert (Hpt : forall v f, In f (stk a v) -> is_rm c f = true -> f = f0).
  { intros v f H E. destruct (in_oth _ _ _ _ _ _ Est H) as [[_ ->]|Ho]; [reflexivity|]. rewrite (HU v f) in E; [discriminate|rewrite E0; cbn; now rewrite Nat.eqb_refl|exact Ho]. }
  constructor; proj; try assumption.
  - intros u f Hf. destruct (Hin u f Hf) as [[-> ->]|[[N Hf']|[-> Hf']]].
    + split; [exact I|]. cbn [fcb JC]. auto.
    + apply K1. exact Hf'.
    + destruct (Hst' f Hf') as [Hf2|(m & -> & Hf2)]; [apply (oth_J n a t f0 st Est I2 t f); right; now split|].
      pose proof (oth_J n a t f0 st Est I2 t (FReqBody c m false) (or_intror (conj eq_refl Hf2))) as [Gw G]. split; [exact Gw|]. cbn [fcb JC] in *. tauto.
  - intros d. pose proof (Htot (is_ctor d) ltac:(reflexivity) eq_refl) as G. rewrite E0 in G. cbn in G. specialize (K2 d). lia.
  - intros d. pose proof (Htot (is_rm d) ltac:(reflexivity) eq_refl) as G. rewrite E0 in G. cbn in G. specialize (K3 d). lia.
  - intros Hs. pose proof (Htot winner ltac:(reflexivity) eq_refl) as G. rewrite E0 in G. cbn in G. intros Z. apply K6; [exact Hs|lia].
  - intros u v d f Hd Hf X. destruct (Nat.eq_dec d c) as [->|N].
    + destruct (Hin v f Hf) as [[-> ->]|[[N Hf']|[-> Hf']]]; [destruct X|now apply (Hother v f)|now apply (Hne f)].
    + assert (Hd' : In (FRmDrop d) (stk a u)).
      { destruct (Hin u _ Hd) as [[_ E]|[[_ H]|[-> H]]]; [congruence|exact H|]. destruct (Hst' _ H) as [H'|(m & E & _)]; [|discriminate]. rewrite Est. now right. }
      destruct (Hin v f Hf) as [[-> ->]|[[N' Hf']|[-> Hf']]]; [destruct X|now apply (K9 u v d f)|].
      destruct (Hst' _ Hf') as [H'|(m & -> & _)]; [|destruct X]. apply (K9 u t d f Hd'); [|exact X]. rewrite Est. now right.
  - intros u d m Hf. destruct (Nat.eq_dec d c) as [->|N].
    + destruct (Nat.eq_dec u t) as [->|Nu]; [right; rewrite upd_eq; now left|]. rewrite upd_neq in Hf |- * by exact Nu. now apply K10 in Hf.
    + assert (Hf' : In (FReqBody d m true) (stk a u)).
      { destruct (Hin u _ Hf) as [[_ E]|[[_ H]|[-> H]]]; [discriminate|exact H|]. destruct (Hst' _ H) as [H'|(m' & E & _)]; [|congruence]. rewrite Est. now right. }
      destruct (K10 u d m Hf') as [H|H]; [now left|right]. apply Hout; [exact H|intros []|rewrite E0; discriminate].
  - intros d Hd Hr. destruct (Nat.eq_dec d c) as [->|N]; [right; right; right; exists t; rewrite upd_eq; now left|].
    destruct (K11 d Hd Hr) as [|[|[(u & f & H & X)|(u & H)]]]; [tauto|tauto| |]; right; right.
    + left. exists u, f. split; [|exact X]. apply Hout; [exact H| |rewrite E0; intros ->; destruct X].
      intros X'. destruct f; cbn in X, X'; try (now destruct X); try congruence. destruct removed; [now destruct X|congruence].
    + right. exists u. apply Hout; [exact H|intros []|rewrite E0; discriminate].
Qed.
End Step.

(** Events that are not calls of callbacks *)
Lemma inv2_log a e : inv2 n a -> (forall c t, e <> EBegin c t) -> inv2 n (s_lg a e).
Proof.
  intros [K1 K2 K3 K4 K5 K6 K7 K8 K9 K10 K11 K12] N.
  assert (HB : forall c, begun c (lg a ++ [e]) <-> begun c (lg a)) by (intros c; apply begun_keep; auto).
  constructor; proj; auto.
  - intros u f Hf. specialize (K1 u f Hf). revert K1. apply J_oth; proj; auto. intros c _ _. now apply JC_same.
  - intros c Hc. rewrite HB. auto.
  - intros c. rewrite HB. auto.
Qed.

Lemma inv2_lib t f st a a' : t < n -> stk a t = f :: st -> inv1 n a -> inv2 n a -> lstep t a st f a' -> inv2 n a'.
Proof.
  intros Ht Est I1 I2 H.
  pose proof (top_J n a t f st Est I2) as [HJ _].
  inversion H as [? ? Hc | | | | | | | | | | | | | | | | | | | | | | ]; subst.
  - inversion Hc; subst; (eapply inv2_quiet; [exact Ht|exact Est|exact I2|exact H|]); try exact I; reflexivity.
  - eapply inv2_signal; eauto.
  - eapply inv2_quiet; [exact Ht|exact Est|exact I2|exact H|]. reflexivity.
  - eapply inv2_set; eauto.
  - eapply inv2_quiet; [exact Ht|exact Est|exact I2|exact H|]. assumption.
  - eapply inv2_pop; eauto.
  - eapply inv2_run; eauto.
  - destruct r; [eapply (inv2_removed a t _ st Ht Est I2 _ _ [FReqLock]); eauto|eapply (inv2_fin a t _ st Ht Est I1 I2 _ _ [FReqLock]); eauto].
  - destruct HJ as [_ HJ]. apply (inv2_log (s_stk _ _ _)); [|discriminate].
    destruct r; [eapply (inv2_removed a t _ st Ht Est I2 _ _ []); eauto|eapply (inv2_fin a t _ st Ht Est I1 I2 _ _ []); eauto].
  - eapply inv2_quiet; [exact Ht|exact Est|exact I2|exact H|]. exact I.
  - eapply inv2_inline; eauto.
  - eapply inv2_quiet; [exact Ht|exact Est|exact I2|exact H|]. reflexivity.
  - eapply inv2_quiet; [exact Ht|exact Est|exact I2|exact H|]. reflexivity.
  - eapply inv2_push; eauto.
  - eapply inv2_quiet; [exact Ht|exact Est|exact I2|exact H|]. exact I.
  - apply (inv2_log (s_stk _ _ _)); [|discriminate]. eapply inv2_added; eauto.
  - eapply inv2_quiet; [exact Ht|exact Est|exact I2|exact H|]. exact I.
  - apply (inv2_log (s_stk _ _ _)); [|discriminate]. eapply inv2_unlink; eauto.
  - eapply inv2_quiet; [exact Ht|exact Est|exact I2|exact H|]. assumption.
  - eapply inv2_self; eauto.
  - eapply inv2_quiet; [exact Ht|exact Est|exact I2|exact H|]. assumption.
  - eapply inv2_quiet; [exact Ht|exact Est|exact I2|exact H|]. exact I.
  - apply (inv2_log (s_stk _ _ _)); [|discriminate]. eapply inv2_drop; eauto.
Qed.

(** ** User code *)
Lemma inv2_objs a x y : inv2 n a -> (sr a = 0 -> y = 0) -> inv2 n (s_objs a x y).
Proof.
  intros [K1 K2 K3 K4 K5 K6 K7 K8 K9 K10 K11 K12] N. constructor; proj; auto.
  intros u f Hf. specialize (K1 u f Hf). revert K1. apply J_oth; proj; auto.
Qed.
Lemma inv2_fr a : inv2 n a -> inv2 n (s_fr a).
Proof. intros [K1 K2 K3 K4 K5 K6 K7 K8 K9 K10 K11 K12]. constructor; proj; auto. Qed.

Lemma no_frame a c u f : inv2 n a -> num a <= c -> In f (stk a u) -> fcb f <> Some c.
Proof. intros I2 Hc Hf E. destruct (j_fr n a I2 u f Hf) as [_ G]. rewrite E in G. destruct G. lia. Qed.

Section User.
Context (a : ast) (t : nat) (st : list frame).
Context (Ht : t < n) (Est : stk a t = FUser :: st) (I1 : inv1 n a) (I2 : inv2 n a).

Lemma user_in fs u f : In f (stk a u) -> In f (upd (stk a) t (fs ++ FUser :: st) u).
Proof. intros H. destruct (Nat.eq_dec u t) as [->|N]; [rewrite upd_eq; apply in_or_app; right; now rewrite <- Est|now rewrite upd_neq]. Qed.
Lemma user_out fs u f : In f (upd (stk a) t (fs ++ FUser :: st) u) -> (u = t /\ In f fs) \/ In f (stk a u).
Proof.
  destruct (Nat.eq_dec u t) as [->|N]; [rewrite upd_eq|rewrite upd_neq by exact N; auto].
  intros H. apply in_app_or in H as [H|H]; [now left|right]. now rewrite Est.
Qed.
Lemma tot_user p fs : tot n p (upd (stk a) t (fs ++ FUser :: st)) = tot n p (stk a) + countf p fs.
Proof.
  pose proof (tot_upd n p (stk a) t (fs ++ FUser :: st) Ht) as G. rewrite Est in G.
  assert (countf p (fs ++ FUser :: st) = countf p fs + countf p (FUser :: st)) by (unfold countf; now rewrite filter_app, app_length). lia.
Qed.
Ltac tu p fs := let G := fresh in pose proof (tot_user p fs) as G; cbn [app] in G; rewrite G; clear G.
Lemma tot_zero p : (forall u f, In f (stk a u) -> p f = false) -> tot n p (stk a) = 0.
Proof. intros H. destruct (tot n p (stk a)) eqn:E; [reflexivity|]. destruct (tot_pos n p (stk a)) as (u & f & _ & Hf & P); [lia|]. rewrite (H u f Hf) in P. discriminate. Qed.

Lemma inv2_construct mv : inv2 n (s_stk (s_num (s_ob a (num a) o_new) (S (num a))) t (FAdd (num a) mv :: FUser :: st)).
Proof.
  pose proof I2 as [K1 K2 K3 K4 K5 K6 K7 K8 K9 K10 K11 K12].
  pose proof (fun u f Hf => no_frame a (num a) u f I2 (le_n _) Hf) as HN.
  assert (HNL : ~ In (num a) (lst a)) by (intros H; destruct (K5 _ H); lia).
  assert (HNB : ~ begun (num a) (lg a)) by (intros H; apply K12 in H; lia).
  assert (HO : forall d, d <> num a -> upd (ob a) (num a) o_new d = ob a d) by (intros; now apply upd_neq).
  constructor; proj; try assumption.
  - intros u f Hf. apply (user_out [FAdd (num a) mv]) in Hf as [[-> Hf]|Hf].
    + ins. split; [exact I|]. cbn [fcb JC]. proj. rewrite upd_eq. cbn. auto 10.
    + specialize (HN u f Hf). specialize (K1 u f Hf). revert K1. apply J_oth; proj; auto.
      intros d Ed _. rewrite HO by congruence. auto.
  - intros d. tu (is_ctor d) [FAdd (num a) mv]. unfold countf. cbn [filter is_ctor]. destruct (Nat.eqb_spec (num a) d) as [E|N].
    + rewrite tot_zero; [cbn; lia|]. intros u f Hf. specialize (HN u f Hf). destruct f; try reflexivity; cbn [fcb is_ctor] in *; apply Nat.eqb_neq; congruence.
    + specialize (K2 d). cbn. lia.
  - intros d. tu (is_rm d) [FAdd (num a) mv]. specialize (K3 d). cbn. lia.
  - intros d Hd. destruct (K5 d Hd) as (? & ? & ? & ? & ? & ?). rewrite HO by congruence. repeat split; auto.
  - intros Hs. tu winner [FAdd (num a) mv]. cbn. intros Z. apply K6; [exact Hs|lia].
  - intros d Hd. destruct (Nat.eq_dec d (num a)) as [->|N]; [rewrite upd_eq; discriminate|rewrite HO by exact N; apply K7; lia].
  - intros d Hd. destruct (Nat.eq_dec d (num a)) as [->|N]; [rewrite upd_eq; discriminate|rewrite HO by exact N; apply K8; lia].
  - intros u v d f Hd Hf X. apply (user_out [FAdd (num a) mv]) in Hd as [[-> Hd]|Hd]; [ins|]. apply (user_out [FAdd (num a) mv]) in Hf as [[-> Hf]|Hf]; [ins; destruct X|]. now apply (K9 u v d f).
  - intros u d m Hf. apply (user_out [FAdd (num a) mv]) in Hf as [[-> Hf]|Hf]; [ins|]. pose proof (HN u _ Hf). cbn in H. rewrite HO by congruence.
    destruct (K10 u d m Hf) as [|H']; [now left|right]. now apply (user_in [FAdd (num a) mv]).
  - intros d Hd. destruct (Nat.eq_dec d (num a)) as [->|N]; [rewrite upd_eq; discriminate|rewrite HO by exact N]. intros Hr.
    destruct (K11 d ltac:(lia) Hr) as [|[|[(u & f & H & X)|(u & H)]]]; [tauto|tauto| |]; right; right.
    + left. exists u, f. split; [now apply (user_in [FAdd (num a) mv])|exact X].
    + right. exists u. now apply (user_in [FAdd (num a) mv]).
  - intros d Hd. apply K12 in Hd. lia.
Qed.

(** A callback that is not under construction or destruction *)
Lemma alive_frame c u f : a_life (ob a c) = LAlive -> In f (stk a u) -> fcb f = Some c -> execf c f \/ False.
Proof.
  intros E Hf Ec. destruct (j_fr n a I2 u f Hf) as [_ G]. rewrite Ec in G. destruct G as [_ G].
  destruct f; cbn [fcb JC execf] in *; try discriminate; injection Ec as ->; try (now left); try (destruct G; congruence).
  destruct removed; [|now left]. exfalso. destruct (j_self n a I2 u c more Hf) as [H|H]; [congruence|].
  destruct (j_fr n a I2 u _ H) as [_ (_ & G' & _)]. congruence.
Qed.

Lemma inv2_destroy c : a_life (ob a c) = LAlive -> c < num a -> a_st (ob a c) = true ->
  inv2 n (s_stk (s_ob a c (o_dying (ob a c))) t (FRm c :: FUser :: st)).
Proof.
  intros Ea Hc Est'. pose proof I2 as [K1 K2 K3 K4 K5 K6 K7 K8 K9 K10 K11 K12].
  pose proof (fun u f => alive_frame c u f Ea) as HF.
  pose proof (K7 c Hc Ea) as Hr. rewrite Est' in Hr. symmetry in Hr.
  assert (HO : forall d, a_ref (upd (ob a) c (o_dying (ob a c)) d) = a_ref (ob a d) /\ a_fin (upd (ob a) c (o_dying (ob a c)) d) = a_fin (ob a d)
     /\ a_rem (upd (ob a) c (o_dying (ob a c)) d) = a_rem (ob a d) /\ (a_life (upd (ob a) c (o_dying (ob a c)) d) = LGone <-> a_life (ob a d) = LGone)).
  { intros d. destruct (Nat.eq_dec d c) as [->|N]; [rewrite upd_eq|rewrite upd_neq by exact N; tauto]. cbn. rewrite Ea. intuition discriminate. }
  constructor; proj; try assumption.
  - intros u f Hf. apply (user_out [FRm c]) in Hf as [[-> Hf]|Hf].
    + ins. split; [exact I|]. cbn [fcb JC]. proj. rewrite upd_eq. cbn. auto.
    + specialize (HF u f Hf). specialize (K1 u f Hf). revert K1. apply J_oth; proj; auto.
      intros d Ed _. destruct (Nat.eq_dec d c) as [->|N]; [rewrite upd_eq|rewrite upd_neq by exact N; auto].
      destruct (HF Ed) as [X|[]]. destruct f; try (now destruct X); [|destruct removed; [now destruct X|]]; cbn [JC]; cbn; intuition congruence.
  - intros d. tu (is_ctor d) [FRm c]. specialize (K2 d). cbn. lia.
  - intros d. tu (is_rm d) [FRm c]. unfold countf. cbn [filter is_rm]. destruct (Nat.eqb_spec c d) as [E|N].
    + rewrite tot_zero; [cbn; lia|]. intros u f Hf. specialize (HF u f Hf). rewrite E in HF.
      destruct f; try reflexivity; cbn [fcb is_rm execf] in *; apply Nat.eqb_neq; intros ->; now destruct (HF eq_refl).
    + specialize (K3 d). cbn. lia.
  - intros d Hd. destruct (HO d) as (-> & -> & -> & H4). rewrite H4. auto.
  - intros Hs. tu winner [FRm c]. cbn. intros Z. apply K6; [exact Hs|lia].
  - intros d Hd. destruct (Nat.eq_dec d c) as [->|N]; [rewrite upd_eq; discriminate|rewrite upd_neq by exact N; auto].
  - intros d Hd. destruct (HO d) as (-> & _ & _ & H4). rewrite H4. auto.
  - intros u v d f Hd Hf X. apply (user_out [FRm c]) in Hd as [[-> Hd]|Hd]; [ins|]. apply (user_out [FRm c]) in Hf as [[-> Hf]|Hf]; [ins; destruct X|]. now apply (K9 u v d f).
  - intros u d m Hf. apply (user_out [FRm c]) in Hf as [[-> Hf]|Hf]; [ins|]. destruct (HO d) as (_ & _ & _ & H4). rewrite H4.
    destruct (K10 u d m Hf) as [|H']; [now left|right]. now apply (user_in [FRm c]).
  - intros d Hd. destruct (HO d) as (-> & -> & _ & _). intros Hr'.
    destruct (K11 d Hd Hr') as [|[|[(u & f & H & X)|(u & H)]]]; [tauto|tauto| |]; right; right.
    + left. exists u, f. split; [now apply (user_in [FRm c])|exact X].
    + right. exists u. now apply (user_in [FRm c]).
Qed.

Lemma inv2_undrop c : a_life (ob a c) = LAlive -> c < num a -> a_st (ob a c) = false -> inv2 n (s_ob a c (o_gone (ob a c))).
Proof.
  intros Ea Hc Est'. pose proof I2 as [K1 K2 K3 K4 K5 K6 K7 K8 K9 K10 K11 K12].
  pose proof (K7 c Hc Ea) as Hr. rewrite Est' in Hr. symmetry in Hr.
  assert (HF : forall u f, In f (stk a u) -> fcb f <> Some c).
  { intros u f Hf E. destruct (alive_frame c u f Ea Hf E) as [X|[]]. destruct (K1 u f Hf) as [_ G].
    destruct f; try (now destruct X); [|destruct removed; [now destruct X|]]; cbn in E; injection E as ->; cbn [fcb JC] in G; intuition congruence. }
  assert (HNL : ~ In c (lst a)) by (intros H; destruct (K5 _ H) as (_ & ? & _); congruence).
  assert (HO : forall d, d <> c -> upd (ob a) c (o_gone (ob a c)) d = ob a d) by (intros; now apply upd_neq).
  constructor; proj; try assumption.
  - intros u f Hf. specialize (HF u f Hf). specialize (K1 u f Hf). revert K1. apply J_oth; proj; auto. intros d Ed _. rewrite HO by congruence. auto.
  - intros d Hd. rewrite HO by congruence. auto.
  - intros d Hd. destruct (Nat.eq_dec d c) as [->|N]; [rewrite upd_eq; discriminate|rewrite HO by exact N; auto].
  - intros d Hd. destruct (Nat.eq_dec d c) as [->|N]; [rewrite upd_eq; reflexivity|rewrite HO by exact N; auto].
  - intros u d m Hf. pose proof (HF u _ Hf). cbn in H. rewrite HO by congruence. eauto.
  - intros d Hd. destruct (Nat.eq_dec d c) as [->|N]; [rewrite upd_eq; discriminate|rewrite HO by exact N; auto].
Qed.

Lemma inv2_return fs e : (fs = [] \/ fs = [FReq; FUser]) -> (forall c t, e <> EBegin c t) -> inv2 n (s_stk a t (fs ++ st)).
Proof.
  intros Hfs N.
  assert (Hfs' : forall f, In f fs -> f = FReq \/ f = FUser) by (destruct Hfs as [->| ->]; intros; ins; auto).
  eapply (inv2_keep n a _ t _ fs st Ht Est I2); proj; try reflexivity.
  - intros f Hf. destruct (Hfs' f Hf) as [->| ->]; split; exact I.
  - destruct Hfs as [->| ->]; counts.
  - destruct Hfs as [->| ->]; counts.
  - right. cbn. lia.
  - intros c [].
  - intros c f Hf X. destruct (Hfs' f Hf) as [->| ->]; destruct X.
  - intros c Hf. now destruct (Hfs' _ Hf).
  - intros c m Hf. now destruct (Hfs' _ Hf).
  - discriminate.
Qed.
End User.

Lemma inv2_user t st a a' : t < n -> stk a t = FUser :: st -> inv1 n a -> inv2 n a -> ustep n t a st a' -> inv2 n a'.
Proof.
  intros Ht Est I1 I2 H. inversion H; subst; clear H.
  - apply inv2_objs; [exact I2|auto].
  - apply inv2_fr, inv2_objs; [exact I2|auto].
  - apply inv2_objs; [exact I2|lia].
  - apply inv2_fr, inv2_objs; [exact I2|lia].
  - apply inv2_log; [exact I2|discriminate].
  - apply inv2_log; [exact I2|discriminate].
  - apply (inv2_return a t st Ht Est I2 [FReq; FUser] (EReq 0 true)); [now right|discriminate].
  - apply (inv2_log (s_stk _ _ _)); [|discriminate]. now apply inv2_construct.
  - apply (inv2_log (s_stk (s_ob a c _) t _) (EDying c t)); [|discriminate]. now apply inv2_destroy.
  - apply inv2_log; [|discriminate]. apply inv2_log; [|discriminate]. now apply inv2_undrop.
  - apply (inv2_log (s_stk _ _ _)); [|discriminate]. apply (inv2_return a t _ Ht Est I2 [] (EReq 0 true)); [now left|discriminate].
  - apply (inv2_log (s_stk _ _ _)); [|discriminate]. apply (inv2_return a t _ Ht Est I2 [] (EReq 0 true)); [now left|discriminate].
Qed.
End Threads.
