(** C40: interval_map *)
From Coq Require Import ZifyBool.
From Verif Require Import Common IntervalModel IntervalProofs.
Local Open Scope Z_scope.

(** ** Specification: the value of the last assignment whose interval contains the key *)
Section Spec.
Context {V : Type} (hi : Z).
Definition covers (o : Z * Z * V) (k : Z) : bool := let '(a, b, _) := o in (a <=? k) && (k <=? b).
Fixpoint latest (os : list (Z * Z * V)) (k : Z) : option V :=
  match os with
  | [] => None
  | o :: r => match latest r k with Some v => Some v | None => if covers o k then Some (snd o) else None end
  end.
(** Intervals of keys; one that ends at the largest key comes before any other that
    contains it. *)
Definition fits (os : list (Z * Z * V)) : Prop :=
  forall pre a b v post, os = pre ++ (a, b, v) :: post -> b <= hi /\ (b = hi -> latest pre hi = None).
(** No interval is assigned the value of the nearest key to the left or right unless it is
    adjacent. *)
Definition no_gaps (os : list (Z * Z * V)) : Prop :=
  forall pre a b v post, os = pre ++ (a, b, v) :: post -> a <= b ->
    (forall p, p < a - 1 -> latest pre p = Some v -> exists j, p < j < a /\ latest pre j <> None) /\
    (forall n, b + 1 < n -> latest pre n = Some v -> exists j, b < j < n /\ latest pre j <> None).
End Spec.

Section Props.
Context {V : Type} (veq : V -> V -> bool) (veq_ok : forall x y, veq x y = true <-> x = y) (hi : Z) (overflow : res Z).
Notation good := (good hi).
Notation assigns := (assigns veq hi overflow).

Lemma latest_snoc (os : list (Z * Z * V)) a b v k : latest (os ++ [(a, b, v)]) k = if (a <=? k) && (k <=? b) then Some v else latest os k.
Proof.
  induction os as [|o os IH]; cbn [app latest].
  - cbn [latest covers snd]. now destruct ((a <=? k) && (k <=? b)).
  - rewrite IH. now destruct ((a <=? k) && (k <=? b)).
Qed.
Lemma assigns_snoc os a b v : forall m, assigns m (os ++ [(a, b, v)]) = (let* m1 := assigns m os in assign veq hi overflow m1 a b v).
Proof.
  induction os as [|[[a' b'] v'] os IH]; intros m; cbn [app IntervalModel.assigns].
  - cbn [rbind]. now destruct (assign veq hi overflow m a b v).
  - destruct (assign veq hi overflow m a' b' v'); cbn [rbind]; auto.
Qed.
Lemma fits_snoc (os : list (Z * Z * V)) o : fits hi (os ++ [o]) -> fits hi os.
Proof. intros F pre a b v post ->. apply (F pre a b v (post ++ [o])). now rewrite <- app_assoc. Qed.
Lemma no_gaps_snoc (os : list (Z * Z * V)) o : no_gaps (os ++ [o]) -> no_gaps os.
Proof. intros F pre a b v post ->. apply (F pre a b v (post ++ [o])). now rewrite <- app_assoc. Qed.
Lemma good_nil : good (@nil (Z * (Z * V))).
Proof. split; [constructor|]. split; contradiction. Qed.
Lemma holds_dec m k : good m -> (exists w : V, holds m k w) \/ forall w, ~ holds m k w.
Proof. intros G. destruct (at_ok veq veq_ok hi m k G) as [(w & H & _)|(H & _)]; eauto. Qed.

Definition hull (os : list (Z * Z * V)) (k : Z) : Prop := exists p n, p <= k <= n /\ latest os p <> None /\ latest os n <> None.
Lemma latest_mono os a b (v : V) k : latest os k <> None -> latest (os ++ [(a, b, v)]) k <> None.
Proof. rewrite latest_snoc. destruct ((a <=? k) && (k <=? b)); [discriminate|auto]. Qed.
Lemma hull_mono (os : list (Z * Z * V)) a b v k : hull os k -> hull (os ++ [(a, b, v)]) k.
Proof. intros (p & n & L & P & N). exists p, n. auto using latest_mono. Qed.
Lemma hull_top (os : list (Z * Z * V)) : Forall (fun o => snd (fst o) <= hi) os -> hull os hi -> latest os hi <> None.
Proof.
  intros F (p & n & L & _ & N). enough (n <= hi) by (assert (n = hi) as <- by lia; auto). revert N. clear - F. induction F as [|[[a b] v] os Ho F IH]; [contradiction|]. cbn [latest].
  destruct (latest os n); [intros _; apply IH; discriminate|]. cbn [covers]. destruct ((a <=? n) && (n <=? b)) eqn:C; [|contradiction]. cbn in Ho. lia.
Qed.
Lemma fits_all os : fits hi os -> Forall (fun o : Z * Z * V => snd (fst o) <= hi) os.
Proof. intros F. apply Forall_forall. intros [[a b] v] I. apply in_split in I as (pre & post & ->). now destruct (F pre a b v post eq_refl). Qed.

Lemma history os : fits hi os -> exists m, assigns [] os = Ok m /\ good m /\ (forall k w, latest os k = Some w -> holds m k w) /\ (forall k w, holds m k w -> hull os k) /\
  (no_gaps os -> forall k w, holds m k w -> latest os k = Some w).
Proof.
  induction os as [|[[a b] v] os IH] using rev_ind; intros F.
  - exists []. split; auto. split; [apply good_nil|]. split; [discriminate|]. split; [intros k w (? & ? & [] & _)|intros _ k w (? & ? & [] & _)].
  - destruct (IH (fits_snoc _ _ F)) as (m & E & G & L & B & X). destruct (F os a b v [] eq_refl) as [F1 F2]. rewrite assigns_snoc, E. cbn [rbind].
    destruct (Z_le_gt_dec a b) as [AB|AB].
    + destruct (assign_ok veq veq_ok hi overflow m a b v G ltac:(lia)) as (m' & E' & G' & H').
      { intros Q w Hw. apply (hull_top os (fits_all _ (fits_snoc _ _ F)) (B _ _ Hw)). auto. }
      exists m'. split; auto. split; auto. split; [|split].
      * intros k w. rewrite latest_snoc. destruct ((a <=? k) && (k <=? b)) eqn:C; intros Q; apply H'; [left; split; [lia|congruence]|right; left; split; [lia|auto]].
      * assert (Ha : latest (os ++ [(a, b, v)]) a <> None) by (rewrite latest_snoc; replace ((a <=? a) && (a <=? b)) with true by lia; discriminate).
        assert (Hb : latest (os ++ [(a, b, v)]) b <> None) by (rewrite latest_snoc; replace ((a <=? b) && (b <=? b)) with true by lia; discriminate).
        intros k w Q. apply H' in Q as [[Q _]|[[_ Q]|(_ & [(p & Lp & Hp & _)|(n & Ln & Hn & _)])]].
        -- exists a, b. auto.
        -- apply hull_mono. eauto.
        -- destruct (B _ _ Hp) as (p' & n' & Q & Q' & _). exists p', a. split; [lia|]. split; auto using latest_mono.
        -- destruct (B _ _ Hn) as (p' & n' & Q & _ & Q'). exists b, n'. split; [lia|]. split; auto using latest_mono.
      * intros NG. specialize (X (no_gaps_snoc _ _ NG)). destruct (NG os a b v [] eq_refl AB) as [N1 N2]. intros k w Q. rewrite latest_snoc.
        apply H' in Q as [[Q ->]|[[C Q]|(_ & [(p & Lp & Hp & U)|(n & Ln & Hn & U)])]].
        -- now replace ((a <=? k) && (k <=? b)) with true by lia.
        -- replace ((a <=? k) && (k <=? b)) with false by lia. auto.
        -- exfalso. destruct (N1 p ltac:(lia) (X _ _ Hp)) as (j & Lj & Hj). destruct (latest os j) as [y|] eqn:Ej; [|contradiction]. apply (U j y Lj). auto.
        -- exfalso. destruct (N2 n ltac:(lia) (X _ _ Hn)) as (j & Lj & Hj). destruct (latest os j) as [y|] eqn:Ej; [|contradiction]. apply (U j y Lj). auto.
    + unfold assign. replace (a <=? b) with false by lia. exists m. split; auto. split; auto.
      assert (Q : forall k, latest (os ++ [(a, b, v)]) k = latest os k) by (intros k; rewrite latest_snoc; now replace ((a <=? k) && (k <=? b)) with false by lia).
      split; [intros k w; rewrite Q; auto|]. split; [intros k w Hk; apply hull_mono; eauto|]. intros NG k w. rewrite Q. apply X. eapply no_gaps_snoc; eauto.
Qed.

(** C40: no assignment fails, and a key that was assigned has the value of the last
    assignment; other keys, if there, are between assigned ones. *)
Theorem interval_latest_partial os : fits hi os -> exists m, assigns [] os = Ok m /\
  forall k, match latest os k with
            | Some v => at_ m k = Ok v /\ contains m k = Ok true
            | None => contains m k = Ok true -> exists p n, p < k < n /\ latest os p <> None /\ latest os n <> None
            end.
Proof.
  intros F. destruct (history os F) as (m & E & G & L & B & _). exists m. split; auto. intros k. destruct (latest os k) as [v|] eqn:Q.
  - apply L in Q. destruct (at_ok veq veq_ok hi m k G) as [(w & H & A & C)|(H & _)]; [|now apply H in Q]. rewrite (holds_fun veq veq_ok hi m k v w G Q H). auto.
  - intros C. destruct (at_ok veq veq_ok hi m k G) as [(w & H & _)|(_ & _ & C')]; [|congruence]. destruct (B _ _ H) as (p & n & Lk & P & N). exists p, n. split; auto.
    assert (p <> k) by congruence. assert (n <> k) by congruence. lia.
Qed.
(** C40, where no gap can be filled: exactly the assigned keys are there. *)
Theorem interval_function_partial os : fits hi os -> no_gaps os -> exists m, assigns [] os = Ok m /\
  forall k, match latest os k with Some v => at_ m k = Ok v /\ contains m k = Ok true | None => at_ m k = Throw OutOfRange /\ contains m k = Ok false end.
Proof.
  intros F NG. destruct (history os F) as (m & E & G & L & B & X). exists m. split; auto. intros k. destruct (at_ok veq veq_ok hi m k G) as [(w & H & A & C)|(H & A & C)].
  - rewrite (X NG _ _ H). auto.
  - destruct (latest os k) as [v|] eqn:Q; [|auto]. apply L in Q. now apply H in Q.
Qed.
(** In particular if every assignment has a value of its own. *)
Lemma latest_in (os : list (Z * Z * V)) k v : latest os k = Some v -> In v (map snd os).
Proof.
  induction os as [|o os IH]; cbn [latest map]; [discriminate|]. destruct (latest os k); [intros [= ->]; right; auto|]. destruct (covers o k); [intros [= <-]; now left|discriminate].
Qed.
Theorem interval_distinct_partial os : fits hi os -> NoDup (map snd os) -> exists m, assigns [] os = Ok m /\
  forall k, match latest os k with Some v => at_ m k = Ok v /\ contains m k = Ok true | None => at_ m k = Throw OutOfRange /\ contains m k = Ok false end.
Proof.
  intros F N. apply interval_function_partial; auto. intros pre a b v post -> AB. rewrite map_app in N. cbn [map snd] in N. apply NoDup_remove_2 in N.
  split; intros p _ Q; exfalso; apply N, in_or_app; left; eapply latest_in; eauto.
Qed.
(** What one assignment does to the stored keys, in any state that can be reached: merging
    fills the gap up to the nearest stored key on either side if it has the same value. *)
Definition at_key (m : list (Z * (Z * V))) (k : Z) : option V := match at_ m k with Ok v => Some v | _ => None end.
Definition gap (f : Z -> option V) (a b : Z) (v : V) (k : Z) : Prop :=
  (exists p, p < k < a /\ f p = Some v /\ forall j, p < j < a -> f j = None) \/ (exists n, b < k < n /\ f n = Some v /\ forall j, b < j < n -> f j = None).
Theorem interval_assign_exact os a b v : fits hi (os ++ [(a, b, v)]) -> a <= b -> exists m m', assigns [] os = Ok m /\ assign veq hi overflow m a b v = Ok m' /\
  forall k, (a <= k <= b -> at_key m' k = Some v) /\ (gap (at_key m) a b v k -> at_key m' k = Some v) /\ (~ a <= k <= b -> ~ gap (at_key m) a b v k -> at_key m' k = at_key m k).
Proof.
  intros F AB. destruct (history os (fits_snoc _ _ F)) as (m & E & G & L & B & _). destruct (F os a b v [] eq_refl) as [F1 F2].
  destruct (assign_ok veq veq_ok hi overflow m a b v G ltac:(lia)) as (m' & E' & G' & H').
  { intros Q w Hw. apply (hull_top os (fits_all _ (fits_snoc _ _ F)) (B _ _ Hw)). auto. }
  assert (KV : forall m k w, good m -> (at_key m k = Some w <-> holds m k w)).
  { intros m0 k w G0. unfold at_key. destruct (at_ok veq veq_ok hi m0 k G0) as [(w' & H & -> & _)|(H & -> & _)]; split; intros Q; [injection Q as <-; auto|f_equal; eapply holds_fun; eauto|discriminate|now apply H in Q]. }
  assert (KN : forall m k, good m -> (at_key m k = None <-> forall w, ~ holds m k w)).
  { intros m0 k G0. destruct (at_key m0 k) as [w|] eqn:Q; split; try discriminate; auto; [intros N; apply KV in Q; auto; now apply N in Q|]. intros _ w H. apply (KV m0 k w G0) in H. congruence. }
  assert (GF : forall k, gap (at_key m) a b v k <-> fills m a b v k).
  { intros k. unfold gap, fills. split; (intros [(p & Lp & Hp & U)|(p & Lp & Hp & U)]; [left|right]; exists p; (split; [auto|]); (split; [now apply (KV m p v G)|])).
    - intros j y Lj. revert y. apply (KN m j G). auto.
    - intros j y Lj. revert y. apply (KN m j G). auto.
    - intros j Lj. apply (KN m j G). intros w. apply U; auto.
    - intros j Lj. apply (KN m j G). intros w. apply U; auto. }
  exists m, m'. split; auto. split; auto. intros k. rewrite GF. split; [|split].
  - intros C. apply (KV m' k v G'), H'. now left.
  - intros Q. apply (KV m' k v G'), H'. right. now right.
  - intros C N. destruct (at_key m k) as [w|] eqn:Q.
    + apply (KV m' k w G'), H'. right. left. split; auto. now apply KV.
    + apply (KN m' k G'). intros w Hw. apply H' in Hw as [[? _]|[[_ Hw]|[_ ?]]]; auto. apply (proj1 (KN m k G) Q w Hw).
Qed.
End Props.
Print Assumptions interval_latest_partial.
Print Assumptions interval_function_partial.
Print Assumptions interval_distinct_partial.
Print Assumptions interval_assign_exact.

(** ** Violations *)
(** Two intervals with one value become one: keys between them that nobody assigned are there. *)
Theorem interval_gap_refuted : exists os m k, fits 100 os /\ assigns Z.eqb 100 UB [] os = Ok m /\ latest os k = None /\ contains m k = Ok true /\ at_ m k = Ok 7.
Proof.
  exists [(0, 1, 7); (5, 6, 7)], [(6, (0, 7))], 3. split; [|repeat split; reflexivity].
  intros pre a b v post Q. destruct pre as [|? [|? [|? pre]]]; cbn in Q; injection Q as; subst; try discriminate; lia.
Qed.
(** A second assignment up to the largest key: undefined behaviour for int, an exception
    for unsigned. *)
Theorem interval_max_refuted : exists os v, latest os (2 ^ 31 - 1) = Some v /\
  assigns Z.eqb (2 ^ 31 - 1) UB [] os = UB /\ assigns Z.eqb (2 ^ 31 - 1) (Throw RuntimeError) [] os = Throw RuntimeError.
Proof. exists [(0, 2 ^ 31 - 1, 1); (0, 2 ^ 31 - 1, 2)], 2. repeat split; vm_compute; reflexivity. Qed.
(** ** A concrete case: an interval is split, trimmed and overwritten *)
Example interval_demo : exists m, assigns Z.eqb 100 UB [] [(0, 20, 1); (5, 9, 2); (8, 12, 3); (30, 25, 4); (13, 22, 3)] = Ok m /\
  map (at_ m) [0; 4; 5; 7; 8; 12; 13; 22; 23] = [Ok 1; Ok 1; Ok 2; Ok 2; Ok 3; Ok 3; Ok 3; Ok 3; Throw OutOfRange].
Proof. eexists. split; [vm_compute; reflexivity|vm_compute; reflexivity]. Qed.
