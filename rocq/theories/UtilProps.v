(** C75 - C79: the stop watch, positions in sorted ranges, Math.h, the memberwise operators and hashes. *)
From Coq Require Import QArith Qabs Lqa Lia ZifyBool ZifyNat Sorted.
From Verif Require Import Common FloatModel FloatProofs UtilModel.
Local Open Scope Z_scope.

(** ** C75: StopWatch *)
(** The length of an interval in ticks *)
Definition ticks (u : unit_type) (count : Z) : Q := inject_Z count * inject_Z (Zpos (num u)) / inject_Z (Zpos (den u)).
(** The counts that the conversion to ticks does not overflow with *)
Definition convertible (u : unit_type) (count : Z) : Prop := - 2 ^ 63 <= count * Zpos (num u) < 2 ^ 63.

Lemma ticks_den u c : (ticks u c * inject_Z (Zpos (den u)) == inject_Z (c * Zpos (num u)))%Q.
Proof. unfold ticks. rewrite inject_Z_mult. field. discriminate. Qed.
Lemma ticks_le u c t : (ticks u c <= inject_Z t)%Q <-> c * Zpos (num u) <= t * Zpos (den u).
Proof.
  rewrite Zle_Qle, <- ticks_den, inject_Z_mult. assert (H : (0 < inject_Z (Zpos (den u)))%Q) by reflexivity. split; intros.
  - apply Qmult_le_compat_r; [auto|lra].
  - apply Qmult_lt_0_le_reg_r with (z := inject_Z (Zpos (den u))); auto.
Qed.
Lemma ticks_lt u c t : (inject_Z t < ticks u c)%Q <-> t * Zpos (den u) < c * Zpos (num u).
Proof. split; intros; [apply Z.nle_gt; intros K; apply ticks_le in K; lra|apply Qnot_le_lt; intros K; apply ticks_le in K; lia]. Qed.
Lemma has_elapsed_eq u s n c : - 2 ^ 63 <= n - s < 2 ^ 63 -> convertible u c -> has_elapsed u s n c = Ok (Z.quot (c * Zpos (num u)) (Zpos (den u)) <=? n - s).
Proof.
  intros H K. unfold convertible in K. unfold has_elapsed, get_elapsed_time, to_ticks, in_int64.
  replace ((- 2 ^ 63 <=? n - s) && (n - s <? 2 ^ 63)) with true by (symmetry; lia). cbn [guard rbind].
  replace ((- 2 ^ 63 <=? c * Zpos (num u)) && (c * Zpos (num u) <? 2 ^ 63)) with true by (symmetry; lia). reflexivity.
Qed.
(** If the interval is a whole number of ticks, HasElapsed is true if and only if it has elapsed. *)
Theorem stop_watch_exact u start now count : - 2 ^ 63 <= now - start < 2 ^ 63 -> convertible u count -> (exists z, ticks u count == inject_Z z)%Q ->
  exists b, has_elapsed u start now count = Ok b /\ (b = true <-> ticks u count <= inject_Z (now - start))%Q.
Proof.
  intros H K (z & Z). rewrite has_elapsed_eq by auto. eexists. split; [reflexivity|]. rewrite ticks_le.
  assert (E : count * Zpos (num u) = z * Zpos (den u)). { pose proof (ticks_den u count) as T. rewrite Z, <- inject_Z_mult in T. unfold Qeq in T. cbn in T. lia. }
  rewrite E, Z.quot_mul by lia. nia.
Qed.
(** It is never late, and early by less than one tick. *)
Theorem stop_watch_partial u start now count : - 2 ^ 63 <= now - start < 2 ^ 63 -> convertible u count -> 0 <= count ->
  exists b, has_elapsed u start now count = Ok b /\ ((ticks u count <= inject_Z (now - start))%Q -> b = true) /\ (b = true -> (ticks u count < inject_Z (now - start + 1))%Q).
Proof.
  intros H K N. rewrite has_elapsed_eq by auto. eexists. split; [reflexivity|]. rewrite Z.quot_div_nonneg by lia.
  split; intros Q.
  - apply ticks_le in Q. apply Z.leb_le. apply Z.div_le_upper_bound; lia.
  - apply Z.leb_le in Q. apply Qnot_le_lt. intros L.
    assert (M : (now - start + 1) * Zpos (den u) <= count * Zpos (num u)). { apply Z.nlt_ge. intros G. apply Qle_not_lt in L. apply L. clear - G.
      apply Qmult_lt_r with (z := inject_Z (Zpos (den u))); [reflexivity|]. rewrite ticks_den, <- inject_Z_mult, <- Zlt_Qlt. auto. }
    apply Z.div_le_mono with (c := Zpos (den u)) in M; [|lia]. rewrite Z.div_mul in M by lia. lia.
Qed.
(** It stays true as the time goes on, and true for the shorter intervals. *)
Theorem stop_watch_stays u start now later count count' : - 2 ^ 63 <= now - start -> now <= later -> later - start < 2 ^ 63 -> convertible u count -> convertible u count' -> count' <= count ->
  has_elapsed u start now count = Ok true -> has_elapsed u start later count' = Ok true.
Proof.
  intros A B C D D' L E. rewrite has_elapsed_eq in E by (auto; lia). rewrite has_elapsed_eq by (auto; lia). apply (f_equal (fun r => match r with Ok b => b | _ => false end)) in E. cbv beta iota in E.
  f_equal. assert (Z.quot (count' * Zpos (num u)) (Zpos (den u)) <= Z.quot (count * Zpos (num u)) (Zpos (den u))) by (apply Z.quot_le_mono; nia). lia.
Qed.
(** GetElapsedCast truncates the elapsed time to the unit. *)
Theorem stop_watch_cast u start now : start <= now -> (now - start) * Zpos (den u) < 2 ^ 63 ->
  exists c, get_elapsed_cast u start now = Ok c /\ (ticks u c <= inject_Z (now - start) < ticks u (c + 1))%Q.
Proof.
  intros A B. unfold get_elapsed_cast, get_elapsed_time, from_ticks, in_int64.
  replace ((- 2 ^ 63 <=? now - start) && (now - start <? 2 ^ 63)) with true by (symmetry; nia). cbn [guard rbind].
  replace ((- 2 ^ 63 <=? (now - start) * Zpos (den u)) && ((now - start) * Zpos (den u) <? 2 ^ 63)) with true by (symmetry; nia). cbn [guard].
  eexists. split; [reflexivity|]. rewrite Z.quot_div_nonneg by nia. rewrite ticks_le, ticks_lt.
  pose proof (Z.div_mod ((now - start) * Zpos (den u)) (Zpos (num u)) ltac:(lia)). pose proof (Z.mod_pos_bound ((now - start) * Zpos (den u)) (Zpos (num u)) ltac:(lia)). nia.
Qed.
(** Half of a tick and less has elapsed at once; with steady_clock of microseconds HasElapsed(500ns)
    is true of a new watch. *)
Theorem stop_watch_early_refuted : exists u start count, convertible u count /\ (0 < ticks u count)%Q /\ has_elapsed u start start count = Ok true.
Proof. exists {| num := 1; den := 1000 |}, 17, 500. repeat split; try (unfold convertible; cbn; lia). Qed.
(** HasElapsed(std::chrono::hours::max()) overflows; so does the watch of the earliest time point. *)
Theorem stop_watch_overflow_refuted : exists u count start, 0 <= count < 2 ^ 63 /\ has_elapsed u 0 0 count = UB /\ has_elapsed u start 1 0 = UB.
Proof. exists {| num := 3600000000000; den := 1 |}, (2 ^ 63 - 1), (- 2 ^ 63). repeat split; try lia. Qed.

(** ** C76: position_changed *)
Section Position.
Context {A : Type} (comp : A -> A -> bool).
(** A strict weak ordering, as of a set *)
Definition strict : Prop := (forall x, comp x x = false) /\ (forall x y z, comp x y = true -> comp y z = true -> comp x z = true) /\ (forall x y z, comp x y = true -> comp x z = true \/ comp z y = true).
(** The elements of a set: every two are in order *)
Definition ordered (l : list A) : Prop := forall i j x y, (i < j)%nat -> nth_error l i = Some x -> nth_error l j = Some y -> comp x y = true.
Lemma nth_remove (l1 l2 : list A) x : forall i, nth_error (l1 ++ x :: l2) i = if (i <? length l1)%nat then nth_error l1 i else if (i =? length l1)%nat then Some x else nth_error l2 (i - length l1 - 1).
Proof.
  intros i. destruct (i <? length l1)%nat eqn:E; [apply nth_error_app1; lia|]. rewrite nth_error_app2 by lia. destruct (i =? length l1)%nat eqn:F; [replace (i - length l1)%nat with O by lia; reflexivity|].
  destruct (i - length l1)%nat as [|n] eqn:G; [lia|]. cbn [nth_error]. f_equal. lia.
Qed.
(** If all the elements but one are in order, then it says if the one has to move. *)
Theorem position_changed_partial l1 x l2 : strict -> ordered (l1 ++ l2) -> exists b, position_changed comp (l1 ++ x :: l2) (length l1) = Ok b /\ (b = false <-> ordered (l1 ++ x :: l2)).
Proof.
  intros (Ir & Tr & _) O. unfold position_changed. rewrite (nth_error_app2 l1 (x :: l2)) by lia. rewrite Nat.sub_diag. change (nth_error (x :: l2) 0) with (Some x). cbv iota zeta.
  rewrite (nth_error_app2 l1 (x :: l2) (n := S (length l1))) by lia. replace (S (length l1) - length l1)%nat with 1%nat by lia. cbn [nth_error].
  set (prev := match length l1 with O => None | S j => nth_error (l1 ++ x :: l2) j end).
  assert (Hp : prev = match length l1 with O => None | S j => nth_error l1 j end). { unfold prev. destruct (length l1) as [|j] eqn:E; [reflexivity|]. apply nth_error_app1. lia. }
  assert (Ol1 : forall i y z, nth_error l1 i = Some y -> nth_error l1 (length l1 - 1) = Some z -> comp z x = true -> comp y x = true).
  { intros i y z Hi Hz C. pose proof (nth_error_Some l1 i) as S1. rewrite Hi in S1. assert (i < length l1)%nat by (apply S1; discriminate).
    destruct (Nat.eq_dec i (length l1 - 1)) as [->|N]; [congruence|]. apply Tr with z; auto. apply (O i (length l1 - 1)%nat); [lia| |]; rewrite nth_error_app1 by lia; auto. }
  assert (Ol2 : forall i y z, nth_error l2 i = Some y -> nth_error l2 0 = Some z -> comp x z = true -> comp x y = true).
  { intros i y z Hi Hz C. destruct i as [|i]; [congruence|]. apply Tr with z; auto. apply (O (length l1) (length l1 + S i)%nat); [lia| |]; rewrite nth_error_app2 by lia; [rewrite Nat.sub_diag|replace (length l1 + S i - length l1)%nat with (S i) by lia]; auto. }
  assert (Main : ordered (l1 ++ x :: l2) <-> (forall z, nth_error l1 (length l1 - 1) = Some z -> comp z x = true) /\ (forall z, nth_error l2 0 = Some z -> comp x z = true)).
  { split.
    - intros H. split; intros z Hz.
      + pose proof (nth_error_Some l1 (length l1 - 1)) as S1. rewrite Hz in S1. assert (length l1 - 1 < length l1)%nat by (apply S1; discriminate).
        apply (H (length l1 - 1)%nat (length l1)); [lia| |]; rewrite nth_remove; [replace (length l1 - 1 <? length l1)%nat with true by (symmetry; lia); auto|].
        replace (length l1 <? length l1)%nat with false by (symmetry; lia). rewrite Nat.eqb_refl. reflexivity.
      + apply (H (length l1) (S (length l1))); [lia| |]; rewrite nth_remove.
        * replace (length l1 <? length l1)%nat with false by (symmetry; lia). rewrite Nat.eqb_refl. reflexivity.
        * replace (S (length l1) <? length l1)%nat with false by (symmetry; lia). replace (S (length l1) =? length l1)%nat with false by (symmetry; lia). replace (S (length l1) - length l1 - 1)%nat with 0%nat by lia. auto.
    - intros [H1 H2] i j y z L Hi Hj. rewrite nth_remove in Hi, Hj.
      destruct (i <? length l1)%nat eqn:Ei, (j <? length l1)%nat eqn:Ej; try lia.
      + apply (O i j); auto; rewrite nth_error_app1 by lia; auto.
      + destruct (j =? length l1)%nat eqn:Fj.
        * injection Hj as <-. destruct (nth_error l1 (length l1 - 1)) as [w|] eqn:W; [apply (Ol1 i y w); auto|]. apply nth_error_None in W. lia.
        * apply (O i (j - 1)%nat); [lia|rewrite nth_error_app1 by lia; auto|]. rewrite nth_error_app2 by lia. rewrite <- Hj. f_equal. lia.
      + destruct (i =? length l1)%nat eqn:Fi; destruct (j =? length l1)%nat eqn:Fj; try lia.
        * injection Hi as <-. destruct (nth_error l2 0) as [w|] eqn:W; [apply (Ol2 (j - length l1 - 1)%nat z w); auto|]. destruct l2; [|discriminate]. destruct (j - length l1 - 1)%nat; discriminate.
        * apply (O (i - 1)%nat (j - 1)%nat); [lia| |]; rewrite nth_error_app2 by lia; rewrite <- ?Hi, <- ?Hj; f_equal; lia. }
  assert (P1 : match prev with Some y => negb (comp y x) | None => false end = false <-> (forall z, nth_error l1 (length l1 - 1) = Some z -> comp z x = true)).
  { rewrite Hp. destruct (length l1) as [|j] eqn:E.
    - destruct l1; [|discriminate]. cbn. split; intros; congruence.
    - replace (S j - 1)%nat with j by lia. destruct (nth_error l1 j) as [w|]; [|split; intros; congruence]. destruct (comp w x) eqn:Cw; cbn; split; try congruence; intros H; specialize (H w eq_refl); congruence. }
  assert (P2 : match nth_error l2 0 with Some y => negb (comp x y) | None => false end = false <-> (forall z, nth_error l2 0 = Some z -> comp x z = true)).
  { destruct (nth_error l2 0) as [w|]; [|split; intros; congruence]. destruct (comp x w) eqn:Cw; cbn; split; try congruence; intros H; specialize (H w eq_refl); congruence. }
  change (nth_error l2 0) with (match l2 with [] => None | y :: _ => Some y end) in P2.
  destruct (match prev with Some y => negb (comp y x) | None => false end) eqn:C1.
  - exists true. split; [reflexivity|]. split; [discriminate|]. intros H. apply Main in H. destruct H as [H _]. apply P1 in H. discriminate.
  - eexists. split; [reflexivity|]. rewrite Main. destruct P1 as [P1 _]. rewrite <- P2. split; [intros H; split; auto|intros [_ H]; exact H].
Qed.
(** The end of the range is dereferenced. *)
Theorem position_changed_end l i : (length l <= i)%nat -> position_changed comp l i = UB.
Proof. intros H. unfold position_changed. apply nth_error_None in H. rewrite H. reflexivity. Qed.
End Position.
(** In a multiset an element that is equivalent to its neighbour has not to move, but it is said to. *)
Theorem position_changed_multi_refuted : exists (l : list Z) i, (forall j x y, nth_error l j = Some x -> nth_error l (S j) = Some y -> y <? x = false) /\ position_changed Z.ltb l i = Ok true.
Proof. exists [1; 2; 2; 3], 1%nat. split; [|reflexivity]. intros j x y. do 4 (destruct j as [|j]; cbn; [intros E F; try discriminate; injection E as <-; injection F as <-; lia|]). destruct j; discriminate. Qed.

(** ** C77: Math.h *)
Lemma qtrunc_nonneg x : (0 <= x)%Q -> qtrunc x = qfloor x.
Proof. intros H. unfold qtrunc, qfloor. apply Z.quot_div_nonneg; [|lia]. unfold Qle in H. cbn in H. lia. Qed.
Lemma qfloor_spec x n : qfloor x = n <-> (inject_Z n <= x < inject_Z (n + 1))%Q.
Proof.
  unfold qfloor. destruct x as [a b]. cbn [Qnum Qden]. unfold Qle, Qlt. cbn [Qnum Qden inject_Z]. split.
  - intros <-. pose proof (Z.div_mod a (Zpos b) ltac:(lia)). pose proof (Z.mod_pos_bound a (Zpos b) ltac:(lia)). nia.
  - intros H. symmetry. apply Z.div_unique with (r := a - n * Zpos b); nia.
Qed.
Definition whole := inject_Z.
Lemma whole_le a b : (whole a <= whole b)%Q <-> a <= b. Proof. unfold whole. rewrite <- Zle_Qle. reflexivity. Qed.
Lemma whole_lt a b : (whole a < whole b)%Q <-> a < b. Proof. unfold whole. rewrite <- Zlt_Qlt. reflexivity. Qed.
Lemma whole_add a b : (whole (a + b) == whole a + whole b)%Q. Proof. unfold whole. rewrite inject_Z_plus. reflexivity. Qed.
Section Round.
Context (f : format) (Hp : 2 <= prec f) (He : emin f <= - prec f - 1).
Lemma P_half e : (P e == 2 * P (e - 1))%Q.
Proof. replace e with (e - 1 + 1) at 1 by lia. rewrite P_plus. change (P 1) with (2#1). lra. Qed.
Lemma scale_whole a e : e <= 0 -> (whole (a * 2 ^ (- e)) * P e == whole a)%Q.
Proof. intros H. unfold whole. rewrite inject_Z_mult, <- P_Z by lia. setoid_replace (inject_Z a * P (- e) * P e)%Q with (inject_Z a * (P e * P (- e)))%Q by ring. rewrite P_inv. ring. Qed.
Lemma scale_whole1 a e : e <= 0 -> (whole (a * 2 ^ (- e) - 1) * P e == whole a - P e)%Q.
Proof. intros H. rewrite <- (scale_whole a e) by auto. unfold Zminus. rewrite whole_add. change (whole (- (1))) with (-1#1). ring. Qed.
(** A number of at least 1/2 + n, n + 1 excluded, is at most a number below n + 1 *)
Lemma half_below x n : number f x -> (1 # 2 <= x)%Q -> 0 <= n < 2 ^ (prec f - 1) - 1 -> (x + (1 # 2) < whole (n + 1))%Q -> exists y, number f y /\ (x + (1 # 2) <= y)%Q /\ (y < whole (n + 1))%Q.
Proof.
  intros Nx Hx Hn Lt.
  destruct (rnd_form f x ltac:(intros K; rewrite K in Hx; apply Hx; reflexivity)) as (k & e & m & (K1 & K2) & E & R & _). rewrite (rnd_exact f ltac:(lia) x Nx) in R. rewrite Qabs_pos in K1, K2 by lra.
  assert (Kk : -1 <= k). { apply Z.nlt_ge. intros G. assert (P (k + 1) <= P (-1))%Q by (apply P_le; lia). change (P (-1)) with (1#2) in H. lra. }
  assert (E' : e = k - (prec f - 1)) by lia.
  assert (Half : number f (whole n + (1 # 2))).
  { apply number_eq with (inject_Z (2 * n + 1) * P (-1))%Q. { rewrite inject_Z_plus, inject_Z_mult. change (P (-1)) with (1 # 2). change (inject_Z 2) with (2#1). change (inject_Z 1) with (1#1). unfold whole. lra. }
    apply number_scaled; [lia| |lia]. assert (2 ^ prec f = 2 * 2 ^ (prec f - 1)) by (rewrite <- Z.pow_succ_r by lia; f_equal; lia). lia. }
  pose proof (whole_add n 1) as W1. change (whole 1) with (1#1) in W1.
  destruct (Z.le_gt_cases (-1) e) as [Ge|Ge].
  { (* a multiple of 1/2 *)
    exists (whole n + (1 # 2))%Q. split; [exact Half|]. split; [|lra].
    assert (D : (x == whole (m * 2 ^ (e + 1)) * (1 # 2))%Q). { rewrite R. unfold whole. rewrite inject_Z_mult, <- P_Z by lia. rewrite P_plus. change (P 1) with (2#1). lra. }
    assert (B : (whole (m * 2 ^ (e + 1)) < whole (2 * n + 1))%Q). { pose proof (whole_add (2 * n) 1) as W2. change (whole 1) with (1#1) in W2. assert (W3 : (whole (2 * n) == 2 * whole n)%Q) by (unfold whole; rewrite inject_Z_mult; reflexivity). lra. }
    apply -> whole_lt in B. assert (B' : (whole (m * 2 ^ (e + 1)) <= whole (2 * n))%Q) by (apply whole_le; lia). assert (W3 : (whole (2 * n) == 2 * whole n)%Q) by (unfold whole; rewrite inject_Z_mult; reflexivity). lra. }
  assert (B0 : (x < P (prec f + e))%Q) by (replace (prec f + e) with (k + 1) by lia; auto).
  rewrite P_Z in B0 by lia. fold (whole (2 ^ (prec f + e))) in B0.
  destruct (Z.le_gt_cases (n + 1) (2 ^ (prec f + e))) as [Le|Gt].
  - exists (whole (n + 1) - P e)%Q. split; [|split].
    + apply number_eq with (inject_Z ((n + 1) * 2 ^ (- e) - 1) * P e)%Q.
      { apply scale_whole1. lia. }
      apply number_scaled; [lia| |lia].
      assert (0 < 2 ^ (- e)) by (apply Z.pow_pos_nonneg; lia).
      assert (U : (n + 1) * 2 ^ (- e) <= 2 ^ prec f). { replace (prec f) with (prec f + e + - e) by lia. rewrite Z.pow_add_r by lia. nia. } nia.
    + (* x + 1/2 is a multiple of P e *)
      assert (D : (x + (1 # 2) == whole (m + 2 ^ (- e - 1)) * P e)%Q). { rewrite whole_add, R. unfold whole. rewrite <- (P_Z (- e - 1)) by lia. assert ((P (- e - 1) * P e == 1 # 2)%Q) by (rewrite <- P_plus; replace (- e - 1 + e) with (-1) by lia; reflexivity). lra. }
      assert (N : (whole (n + 1) == whole ((n + 1) * 2 ^ (- e)) * P e)%Q). { rewrite scale_whole by lia. reflexivity. }
      pose proof (P_pos e) as Pe. rewrite D, N in Lt. apply Qmult_lt_r in Lt; [|exact Pe]. apply -> whole_lt in Lt.
      assert (G : (whole (m + 2 ^ (- e - 1)) + 1 <= whole ((n + 1) * 2 ^ (- e)))%Q). { setoid_replace 1%Q with (whole 1) by reflexivity. rewrite <- whole_add. apply whole_le. lia. }
      rewrite D, N. nra.
    + pose proof (P_pos e). lra.
  - (* n is the power of two above x *)
    assert (E2 : (whole (2 ^ (prec f + e)) <= whole n)%Q) by (apply whole_le; lia). exists (whole n + (1 # 2))%Q. split; [exact Half|]. split; lra.
Qed.
(** Rounding is right for all numbers of at least zero that have a fractional bit, but one. *)
Theorem math_round_partial lo hi x : number f x -> (0 <= x)%Q -> (x < whole (2 ^ (prec f - 1) - 1))%Q -> ~ (x == (1 # 2) - P (- prec f - 1))%Q ->
  lo <= qfloor (x + (1 # 2)) <= hi ->
  exists r, math_round f lo hi x = Ok r /\ (Qabs (whole r - x) <= 1 # 2)%Q /\ (x < whole r + (1 # 2))%Q.
Proof.
  intros Nx H0 H1 Hn Hf. set (n := qfloor (x + (1 # 2))) in *.
  pose proof (proj1 (qfloor_spec (x + (1 # 2)) n) eq_refl) as [F1 F2]. fold (whole n) in F1. fold (whole (n + 1)) in F2.
  assert (N0 : 0 <= n). { assert (G : (whole 0 < whole (n + 1))%Q) by (change (whole 0) with 0%Q; lra). apply -> whole_lt in G. lia. }
  assert (N1 : n <= 2 ^ (prec f - 1) - 1). { apply Z.nlt_ge. intros G. assert (K : (whole (2 ^ (prec f - 1) - 1 + 1) <= whole n)%Q) by (apply whole_le; lia). rewrite whole_add in K. change (whole 1) with (1#1) in K. lra. }
  assert (Lo : (whole n <= rnd f (x + (1 # 2)))%Q).
  { rewrite <- (rnd_int f ltac:(lia) n) at 1; [apply rnd_mono; [lia|exact F1]| |lia]. assert (2 ^ prec f = 2 * 2 ^ (prec f - 1)) by (rewrite <- Z.pow_succ_r by lia; f_equal; lia). lia. }
  assert (Hi : (rnd f (x + (1 # 2)) < whole (n + 1))%Q).
  { assert (Y : exists y, number f y /\ (x + (1 # 2) <= y)%Q /\ (y < whole (n + 1))%Q).
    { destruct (Qlt_le_dec x (1 # 2)) as [S|S].
      - assert (En : n = 0). { assert (G : (whole n < whole 1)%Q) by (change (whole 1) with 1%Q; lra). apply -> whole_lt in G. lia. } rewrite En in *. cbn [Z.add] in *. change (whole 1) with (1#1).
        exists (1 - P (- prec f))%Q. split; [|split].
        + apply number_eq with (inject_Z (2 ^ prec f - 1) * P (- prec f))%Q.
          { replace (2 ^ prec f - 1) with (1 * 2 ^ (- - prec f) - 1) by (rewrite Z.opp_involutive; lia). apply scale_whole1. lia. }
          apply number_scaled; [lia| |lia]. assert (0 < 2 ^ prec f) by (apply Z.pow_pos_nonneg; lia). lia.
        + (* x is a multiple of the unit below 1/4, or of 2^(-prec-1) *)
          destruct (Qlt_le_dec x (1 # 4)) as [T|T].
          { assert (P (- prec f) <= P (-2))%Q by (apply P_le; lia). change (P (-2)) with (1#4) in H. lra. }
          destruct (rnd_form f x ltac:(intros K; rewrite K in T; apply T; reflexivity)) as (k & e & m & (K1 & K2) & E & R & _). rewrite (rnd_exact f ltac:(lia) x Nx) in R. rewrite Qabs_pos in K1, K2 by lra.
          assert (Kk : k = -2). { assert (-2 <= k). { apply Z.nlt_ge. intros G. assert (P (k + 1) <= P (-2))%Q by (apply P_le; lia). change (P (-2)) with (1#4) in H. lra. } assert (k < -1). { apply Z.nle_gt. intros G. assert (P (-1) <= P k)%Q by (apply P_le; lia). change (P (-1)) with (1#2) in H2. lra. } lia. }
          assert (E' : e = - prec f - 1) by lia. rewrite E' in R. clear E. pose proof (P_half (- prec f)) as Ph. set (u := P (- prec f - 1)) in *.
          assert (Pu : (0 < u)%Q) by apply P_pos.
          assert (Hh : (1 # 2 == whole (2 ^ prec f) * u)%Q). { unfold whole, u. rewrite <- P_Z, <- P_plus by lia. replace (prec f + (- prec f - 1)) with (-1) by lia. reflexivity. }
          assert (M : m < 2 ^ prec f). { assert (G : (whole m < whole (2 ^ prec f))%Q). { apply Qmult_lt_r with (z := u); auto. rewrite <- Hh. unfold whole. rewrite <- R. exact S. } apply -> whole_lt in G. exact G. }
          assert (M' : m <> 2 ^ prec f - 1). { intros ->. apply Hn. rewrite R. unfold Zminus. rewrite inject_Z_plus. change (inject_Z (- (1))) with (-1#1). fold (whole (2 ^ prec f)). lra. }
          assert (G : (whole m <= whole (2 ^ prec f) - 2)%Q). { setoid_replace (whole (2 ^ prec f) - 2)%Q with (whole (2 ^ prec f - 2)) by (unfold whole, Zminus; rewrite inject_Z_plus; reflexivity). apply whole_le. lia. }
          fold (whole m) in R. rewrite R, Ph. nra.
        + pose proof (P_pos (- prec f)). lra.
      - destruct (Z.eq_dec n (2 ^ (prec f - 1) - 1)) as [En|En].
        + exists (whole n + (1 # 2))%Q. rewrite whole_add. change (whole 1) with (1#1). split; [|split; [rewrite En; lra|lra]].
          apply number_eq with (inject_Z (2 * n + 1) * P (-1))%Q. { rewrite inject_Z_plus, inject_Z_mult. change (P (-1)) with (1 # 2). change (inject_Z 2) with (2#1). change (inject_Z 1) with (1#1). unfold whole. lra. }
          apply number_scaled; [lia| |lia]. assert (2 ^ prec f = 2 * 2 ^ (prec f - 1)) by (rewrite <- Z.pow_succ_r by lia; f_equal; lia). lia.
        + apply half_below; auto. lia. }
    destruct Y as (y & Ny & Y1 & Y2). apply Qle_lt_trans with y; auto. rewrite <- (rnd_exact f ltac:(lia) y Ny). apply rnd_mono; [lia|auto]. }
  assert (I : qtrunc (rnd f (x + (1 # 2))) = n). { assert (0 <= whole n)%Q by (change 0%Q with (whole 0); apply whole_le; lia). rewrite qtrunc_nonneg by lra. apply qfloor_spec. auto. }
  exists n. unfold math_round. rewrite I. replace ((lo <=? n) && (n <=? hi)) with true by (symmetry; lia). split; [reflexivity|].
  rewrite whole_add in F2. change (whole 1) with (1#1) in F2. split; [|lra]. apply Qabs_Qle_condition. lra.
Qed.
End Round.
Definition int32 : Z * Z := (- 2 ^ 31, 2 ^ 31 - 1).
(** The number below 1/2 is rounded to 1, a negative number not to the nearest integer, and from
    2^52 even integers are changed. *)
Theorem math_round_half_refuted : exists x, number binary64 x /\ (x < 1 # 2)%Q /\ math_round binary64 (fst int32) (snd int32) x = Ok 1.
Proof. exists ((2 ^ 53 - 1) # 2 ^ 54)%Q. split; [exists (2 ^ 53 - 1), (-54); split; [reflexivity|split; [discriminate|reflexivity]]|]. split; reflexivity. Qed.
Theorem math_round_negative_refuted : exists x r, number binary64 x /\ math_round binary64 (fst int32) (snd int32) x = Ok r /\ (Qabs (whole r - x) > Qabs (whole (r - 1) - x))%Q.
Proof. exists (-3 # 4)%Q, 0. split; [exists (-3), (-2); split; [reflexivity|split; [discriminate|reflexivity]]|]. split; reflexivity. Qed.
Theorem math_round_large_refuted : exists n r, number binary64 (whole n) /\ math_round binary64 (- 2 ^ 63) (2 ^ 63 - 1) (whole n) = Ok r /\ r <> n.
Proof. exists (2 ^ 52 + 1), (2 ^ 52 + 2). split; [exists (2 ^ 52 + 1), 0; split; [reflexivity|split; [discriminate|reflexivity]]|]. split; [reflexivity|discriminate]. Qed.
Theorem math_round_range_refuted : exists x, number binary64 x /\ math_round binary64 (fst int32) (snd int32) x = UB.
Proof. exists (whole (2 ^ 31)). split; [exists (2 ^ 31), 0; split; [reflexivity|split; [discriminate|reflexivity]]|]. reflexivity. Qed.

(** clamp: the value nearest to v between the bounds *)
Theorem math_clamp_range {A} (less : A -> A -> bool) v lo hi : (forall x y, less x y = true -> less y x = false) -> less hi lo = false ->
  let r := math_clamp less v lo hi in less r lo = false /\ less hi r = false /\ (less v lo = false -> less hi v = false -> r = v) /\ (less v lo = true -> r = lo) /\ (less hi v = true -> (forall x y z, less x y = true -> less y z = true -> less x z = true) -> r = hi).
Proof.
  intros As Ord. assert (Ir : forall x, less x x = false). { intros x. destruct (less x x) eqn:E; auto. pose proof (As _ _ E). congruence. }
  cbn zeta. unfold math_clamp. destruct (less v lo) eqn:E1; [|destruct (less hi v) eqn:E2].
  - repeat split; auto; try congruence. intros E2 Tr. pose proof (Tr _ _ _ E2 E1). congruence.
  - repeat split; auto; congruence.
  - repeat split; auto; congruence.
Qed.
(** With the bounds exchanged the result is one of them. *)
Theorem math_clamp_exchanged {A} (less : A -> A -> bool) v lo hi : (forall x y z, less x y = true -> less x z = true \/ less z y = true) -> less hi lo = true -> math_clamp less v lo hi = lo \/ math_clamp less v lo hi = hi.
Proof. intros N H. unfold math_clamp. destruct (less v lo) eqn:E1; auto. destruct (less hi v) eqn:E2; auto. destruct (N _ _ v H); congruence. Qed.
Theorem math_sign_abs x : (whole (math_sign x) * Qabs x == x)%Q /\ -1 <= math_sign x <= 1 /\ (math_sign x = 0 <-> (x == 0)%Q).
Proof.
  unfold math_sign. destruct (Qlt_le_dec 0 x), (Qlt_le_dec x 0); try lra.
  - rewrite Qabs_pos by lra. change (whole (1 - 0)) with (1#1). repeat split; try lra; try lia; intros H; try discriminate; try lia; lra.
  - rewrite Qabs_neg by lra. change (whole (0 - 1)) with (-1#1). repeat split; try lra; try lia; intros H; try discriminate; try lia; lra.
  - change (whole (0 - 0)) with (0#1). repeat split; try lra; try lia.
Qed.

(** ** C78: the memberwise operators *)
Section Memberwise.
Context {V : Type} (ts : list (member_type V)).
Definition object (a : list V) : Prop := length a = length ts.
(** What happens to the members [i] of two objects *)
Definition at_member (i : nat) (a b : list V) (p : member_type V -> V -> V -> Prop) : Prop := exists t x y, nth_error ts i = Some t /\ nth_error a i = Some x /\ nth_error b i = Some y /\ p t x y.
(** The first members that are not equivalent compare as [c] *)
Definition first_difference (a b : list V) (c : option comparison) : Prop :=
  exists i, at_member i a b (fun t x y => order t x y = c) /\ forall j, (j < i)%nat -> at_member j a b (fun t x y => order t x y = Some Eq).
End Memberwise.

Lemma tuple_eq_members {V} (ts : list (member_type V)) : forall a b, object ts a -> object ts b ->
  tuple_eq ts a b = true <-> forall i, (i < length ts)%nat -> at_member ts i a b (fun t x y => equal t x y = true).
Proof.
  induction ts as [|t ts IH]; intros a b A B; unfold object in *; destruct a as [|x a], b as [|y b]; cbn in A, B; try lia; cbn [tuple_eq].
  - split; auto. intros _ i H. cbn in H. lia.
  - rewrite andb_true_iff, (IH a b) by (unfold object; lia). split.
    + intros [E H] i L. destruct i as [|i]; [exists t, x, y; auto|]. cbn in L. destruct (H i ltac:(lia)) as (t' & x' & y' & K). exists t', x', y'. exact K.
    + intros H. split.
      * destruct (H 0%nat ltac:(cbn; lia)) as (t' & x' & y' & E1 & E2 & E3 & E4). cbn in E1, E2, E3. congruence.
      * intros i L. destruct (H (S i) ltac:(cbn; lia)) as (t' & x' & y' & K). exists t', x', y'. exact K.
Qed.
Lemma tuple_order_first {V} (ts : list (member_type V)) : forall a b c, object ts a -> object ts b -> c <> Some Eq -> tuple_order ts a b = c <-> first_difference ts a b c.
Proof.
  induction ts as [|t ts IH]; intros a b c A B N; unfold object in *; destruct a as [|x a], b as [|y b]; cbn in A, B; try lia; cbn [tuple_order].
  - split; [congruence|]. intros (i & (t' & x' & y' & E & _) & _). destruct i; discriminate.
  - split.
    + intros E. destruct (order t x y) as [[| |]|] eqn:Oq; try (exists 0%nat; split; [exists t, x, y; cbn; repeat split; congruence|intros j L; lia]).
      apply IH in E; try (unfold object; lia); auto. destruct E as (i & (t' & x' & y' & K) & F). exists (S i). split; [exists t', x', y'; exact K|].
      intros j L. destruct j as [|j]; [exists t, x, y; auto|]. destruct (F j ltac:(lia)) as (t2 & x2 & y2 & K2). exists t2, x2, y2. exact K2.
    + intros (i & (t' & x' & y' & E1 & E2 & E3 & E4) & F). destruct i as [|i].
      * cbn in E1, E2, E3. injection E1 as <-. injection E2 as <-. injection E3 as <-. rewrite E4. destruct c as [[| |]|]; congruence.
      * destruct (F 0%nat ltac:(lia)) as (t2 & x2 & y2 & K1 & K2 & K3 & K4). cbn in K1, K2, K3. injection K1 as <-. injection K2 as <-. injection K3 as <-. rewrite K4.
        apply IH; try (unfold object; lia); auto. exists i. split; [exists t', x', y'; auto|]. intros j L. destruct (F (S j) ltac:(lia)) as (t2 & x2 & y2 & K5). exists t2, x2, y2. exact K5.
Qed.
(** Objects are equal if all their members are, whatever the types; != is the opposite. *)
Theorem memberwise_equal {V} (ts : list (member_type V)) a b : object ts a -> object ts b ->
  (op_eq ts a b = true <-> forall i, (i < length ts)%nat -> at_member ts i a b (fun t x y => equal t x y = true)) /\ op_ne ts a b = negb (op_eq ts a b).
Proof. intros A B. split; [now apply tuple_eq_members|reflexivity]. Qed.
(** < and > are decided by the first members that are not equivalent. *)
Theorem memberwise_less {V} (ts : list (member_type V)) a b : object ts a -> object ts b ->
  (op_lt ts a b = true <-> first_difference ts a b (Some Lt)) /\ (op_gt ts a b = true <-> first_difference ts a b (Some Gt)) /\
  (first_difference ts a b None -> op_lt ts a b = false /\ op_gt ts a b = false /\ op_le ts a b = false /\ op_ge ts a b = false).
Proof.
  intros A B. rewrite <- (tuple_order_first ts a b (Some Lt)), <- (tuple_order_first ts a b (Some Gt)), <- (tuple_order_first ts a b None) by (auto; discriminate).
  unfold op_lt, op_gt, op_le, op_ge. destruct (tuple_order ts a b) as [[| |]|]; repeat split; congruence.
Qed.
(** A member type with a total order that agrees with its == *)
Definition total {V} (t : member_type V) : Prop :=
  (forall x y, order t x y <> None) /\ (forall x y, order t x y = Some Eq <-> equal t x y = true) /\
  (forall x y, order t x y = Some Lt <-> order t y x = Some Gt) /\ (forall x, order t x x = Some Eq) /\
  (forall x y z, order t x y = Some Lt -> order t y z = Some Lt -> order t x z = Some Lt) /\
  (forall x y z c, order t x y = Some Eq -> order t y z = Some c -> order t x z = Some c) /\
  (forall x y z c, order t x y = Some c -> order t y z = Some Eq -> order t x z = Some c).
Section Total.
Context {V : Type} (ts : list (member_type V)) (T : forall t, In t ts -> total t).
Lemma tuple_order_eq : forall a b, tuple_order ts a b = Some Eq <-> tuple_eq ts a b = true.
Proof.
  induction ts as [|t ts' IH]; [split; auto|]. intros [|x a] [|y b]; cbn; try (split; auto; fail). destruct (T t (or_introl eq_refl)) as (N & E & _). specialize (N x y). specialize (E x y).
  rewrite andb_true_iff, <- E. rewrite <- IH by (intros; apply T; right; auto). destruct (order t x y) as [[| |]|]; intuition congruence.
Qed.
Lemma tuple_order_some : forall a b, tuple_order ts a b <> None.
Proof.
  induction ts as [|t ts' IH]; [discriminate|]. intros [|x a] [|y b]; cbn; try discriminate. destruct (T t (or_introl eq_refl)) as (N & _). specialize (N x y). destruct (order t x y) as [[| |]|]; try congruence. apply IH. intros; apply T; right; auto.
Qed.
Lemma tuple_order_swap : forall a b, tuple_order ts a b = Some Lt <-> tuple_order ts b a = Some Gt.
Proof.
  induction ts as [|t ts' IH]; [split; discriminate|]. intros [|x a] [|y b]; cbn; try (split; discriminate). destruct (T t (or_introl eq_refl)) as (N & E & S & _).
  pose proof (S x y). pose proof (S y x). pose proof (N x y). pose proof (N y x). specialize (IH ltac:(intros; apply T; right; auto) a b).
  destruct (order t x y) as [[| |]|], (order t y x) as [[| |]|]; intuition congruence.
Qed.
Lemma tuple_order_refl : forall a, tuple_order ts a a = Some Eq.
Proof. induction ts as [|t ts' IH]; [reflexivity|]. intros [|x a]; [reflexivity|]. cbn. destruct (T t (or_introl eq_refl)) as (_ & _ & _ & R & _). rewrite R. apply IH. intros; apply T; right; auto. Qed.
Lemma tuple_order_trans : forall a b c r s, object ts a -> object ts b -> object ts c -> r <> Gt -> s <> Gt -> tuple_order ts a b = Some r -> tuple_order ts b c = Some s ->
  tuple_order ts a c = Some (match r, s with Eq, Eq => Eq | _, _ => Lt end).
Proof.
  induction ts as [|t ts' IH]; intros [|x a] [|y b] [|z c] r s A B C R S; unfold object in *; cbn in A, B, C; try lia; cbn [tuple_order].
  - intros E F. injection E as <-. injection F as <-. reflexivity.
  - destruct (T t (or_introl eq_refl)) as (_ & _ & _ & _ & L & Q1 & Q2). specialize (IH ltac:(intros; apply T; right; auto) a b c).
    destruct (order t x y) as [[| |]|] eqn:E1; try discriminate; intros E; destruct (order t y z) as [[| |]|] eqn:E2; try discriminate; intros F.
    + rewrite (Q1 _ _ _ _ E1 E2). apply IH; auto; lia.
    + injection F as <-. rewrite (Q1 _ _ _ _ E1 E2). destruct r; reflexivity.
    + congruence.
    + injection E as <-. rewrite (Q2 _ _ _ _ E1 E2). destruct s; congruence.
    + injection E as <-. injection F as <-. rewrite (L _ _ _ E1 E2). reflexivity.
    + congruence.
    + congruence.
    + congruence.
    + congruence.
Qed.
(** If the orders of the members are total, so is that of the objects, and it agrees with ==. *)
Theorem memberwise_total_partial a b : (op_lt ts a b = true /\ op_eq ts a b = false /\ op_gt ts a b = false \/ op_lt ts a b = false /\ op_eq ts a b = true /\ op_gt ts a b = false \/ op_lt ts a b = false /\ op_eq ts a b = false /\ op_gt ts a b = true) /\
  op_le ts a b = op_lt ts a b || op_eq ts a b /\ op_ge ts a b = negb (op_lt ts a b) /\ op_gt ts a b = op_lt ts b a /\ op_eq ts a a = true.
Proof.
  pose proof (tuple_order_eq a b) as E. pose proof (tuple_order_some a b) as N. pose proof (tuple_order_swap b a) as S. pose proof (tuple_order_refl a) as R. apply tuple_order_eq in R.
  unfold op_lt, op_eq, op_gt, op_le, op_ge. split; [|split; [|split; [|split; [|exact R]]]].
  - destruct (tuple_order ts a b) as [[| |]|], (tuple_eq ts a b); intuition congruence.
  - destruct (tuple_order ts a b) as [[| |]|], (tuple_eq ts a b); try reflexivity; intuition congruence.
  - destruct (tuple_order ts a b) as [[| |]|]; cbn; congruence.
  - destruct (tuple_order ts a b) as [[| |]|], (tuple_order ts b a) as [[| |]|]; try reflexivity; intuition congruence.
Qed.
Theorem memberwise_transitive_partial a b c : object ts a -> object ts b -> object ts c -> op_le ts a b = true -> op_le ts b c = true ->
  op_le ts a c = true /\ (op_lt ts a b = true \/ op_lt ts b c = true -> op_lt ts a c = true) /\ (op_eq ts a b = true -> op_eq ts b c = true -> op_eq ts a c = true).
Proof.
  intros A B C H K. unfold op_le, op_lt, op_eq in *. pose proof (tuple_order_eq a b) as E1. pose proof (tuple_order_eq b c) as E2. pose proof (tuple_order_eq a c) as E3.
  destruct (tuple_order ts a b) as [r|] eqn:E; [|discriminate]. destruct (tuple_order ts b c) as [s|] eqn:F; [|discriminate].
  pose proof (tuple_order_trans a b c r s A B C ltac:(intros ->; discriminate) ltac:(intros ->; discriminate) E F) as G. rewrite G in *. destruct r, s; repeat split; intuition congruence.
Qed.
End Total.
(** A double: None is NaN *)
Definition double_member : member_type (option Z) :=
  {| equal := fun x y => match x, y with Some a, Some b => a =? b | _, _ => false end;
     order := fun x y => match x, y with Some a, Some b => Some (a ?= b) | _, _ => None end |}.
(** With a member that is NaN an object is not equal to itself, nor <= to itself; and a member after
    the NaN is not compared. *)
Theorem memberwise_nan_refuted : exists a b, object [double_member; double_member] a /\ object [double_member; double_member] b /\
  op_eq [double_member; double_member] a a = false /\ op_le [double_member; double_member] a a = false /\
  op_lt [double_member; double_member] a b = false /\ op_ge [double_member; double_member] a b = false /\ op_eq [double_member; double_member] a b = false.
Proof. exists [None; Some 1], [None; Some 2]. repeat split. Qed.

(** ** C79: hashes *)
Lemma combine_range seed h : 0 <= seed < 2 ^ 64 -> 0 <= combine_hash seed h < 2 ^ 64.
Proof.
  intros H. unfold combine_hash. set (x := size64 _). assert (X : 0 <= x < 2 ^ 64) by (apply Z.mod_pos_bound; reflexivity).
  split; [apply Z.lxor_nonneg; lia|]. destruct (Z.eq_dec (Z.lxor seed x) 0) as [->|N]; [reflexivity|]. assert (0 <= Z.lxor seed x) by (apply Z.lxor_nonneg; lia).
  apply Z.log2_lt_pow2; [lia|]. eapply Z.le_lt_trans; [apply Z.log2_lxor; lia|]. 
  assert (L : forall y, 0 <= y < 2 ^ 64 -> Z.log2 y < 64). { intros y Y. destruct (Z.eq_dec y 0) as [->|M]; [reflexivity|]. apply Z.log2_lt_pow2; lia. }
  pose proof (L seed H). pose proof (L x X). lia.
Qed.
(** The last value is not lost: with the same values before it, different hashes are combined to
    different ones, *)
Lemma combine_injective seed h h' : 0 <= h < 2 ^ 64 -> 0 <= h' < 2 ^ 64 -> combine_hash seed h = combine_hash seed h' -> h = h'.
Proof.
  intros H H' E. unfold combine_hash in E. apply (f_equal (Z.lxor seed)) in E. rewrite <- !Z.lxor_assoc, !Z.lxor_nilpotent, !Z.lxor_0_l in E. unfold size64 in E.
  set (c := (Z.shiftl seed 6) mod 2 ^ 64) in E. set (d := Z.shiftr seed 2) in E.
  assert (X : forall z, (z + 2654435769 + c + d) mod 2 ^ 64 = (z + (2654435769 + c + d)) mod 2 ^ 64) by (intros; f_equal; lia). rewrite !X in E.
  apply (f_equal (fun z => (z - (2654435769 + c + d)) mod 2 ^ 64)) in E. rewrite !Zminus_mod_idemp_l in E.
  replace (h + (2654435769 + c + d) - (2654435769 + c + d)) with h in E by lia. replace (h' + (2654435769 + c + d) - (2654435769 + c + d)) with h' in E by lia.
  rewrite !Z.mod_small in E by lia. exact E.
Qed.
(** and every hash can be reached with it. *)
Lemma combine_reaches seed r : 0 <= seed < 2 ^ 64 -> 0 <= r < 2 ^ 64 -> exists h, 0 <= h < 2 ^ 64 /\ combine_hash seed h = r.
Proof.
  intros S R. unfold combine_hash, size64. set (c := (Z.shiftl seed 6) mod 2 ^ 64). set (d := Z.shiftr seed 2).
  exists ((Z.lxor seed r - (2654435769 + c + d)) mod 2 ^ 64). split; [apply Z.mod_pos_bound; reflexivity|].
  match goal with |- Z.lxor seed (?e mod _) = r => replace e with ((Z.lxor seed r - (2654435769 + c + d)) mod 2 ^ 64 + (2654435769 + c + d)) by lia end.
  rewrite Zplus_mod_idemp_l. replace (Z.lxor seed r - (2654435769 + c + d) + (2654435769 + c + d)) with (Z.lxor seed r) by lia.
  rewrite Z.mod_small.
  - rewrite <- Z.lxor_assoc, Z.lxor_nilpotent, Z.lxor_0_l. reflexivity.
  - split; [apply Z.lxor_nonneg; lia|]. destruct (Z.eq_dec (Z.lxor seed r) 0) as [->|N]; [reflexivity|]. assert (0 <= Z.lxor seed r) by (apply Z.lxor_nonneg; lia).
    apply Z.log2_lt_pow2; [lia|]. eapply Z.le_lt_trans; [apply Z.log2_lxor; lia|]. 
    assert (L : forall y, 0 <= y < 2 ^ 64 -> Z.log2 y < 64). { intros y Y. destruct (Z.eq_dec y 0) as [->|M]; [reflexivity|]. apply Z.log2_lt_pow2; lia. }
    pose proof (L seed S). pose proof (L r R). lia.
Qed.
Section Hash.
Context {V : Type}.
Lemma tuple_hash_app (hs : list (V -> Z)) : forall a seed h x, length a = length hs -> tuple_hash_from (hs ++ [h]) seed (a ++ [x]) = combine_hash (tuple_hash_from hs seed a) (h x).
Proof. induction hs as [|g hs IH]; intros [|y a] seed h x L; cbn in L; try lia; [reflexivity|]. cbn. apply IH. lia. Qed.
Lemma tuple_hash_range (hs : list (V -> Z)) : forall a seed, 0 <= seed < 2 ^ 64 -> 0 <= tuple_hash_from hs seed a < 2 ^ 64.
Proof. induction hs as [|g hs IH]; intros [|y a] seed S; cbn [tuple_hash_from]; auto. apply IH. now apply combine_range. Qed.
(** Equal objects have equal hashes if equal members have. *)
Theorem hash_equal (ts : list (member_type V)) (hs : list (V -> Z)) a b : length hs = length ts -> object ts a -> object ts b ->
  (forall i t h x y, nth_error ts i = Some t -> nth_error hs i = Some h -> equal t x y = true -> h x = h y) ->
  op_eq ts a b = true -> tuple_hash hs a = tuple_hash hs b.
Proof.
  unfold tuple_hash, op_eq. generalize 0. revert hs a b. induction ts as [|t ts IH]; intros [|h hs] a b seed L A B H E; cbn in L; try lia; [destruct a, b; cbn in *; auto; lia|].
  unfold object in *. destruct a as [|x a], b as [|y b]; cbn in A, B; try lia. cbn in E. apply andb_true_iff in E. destruct E as [E F]. cbn.
  rewrite (H 0%nat t h x y eq_refl eq_refl E). apply IH; auto; try lia. intros i t' h' x' y' I1 I2. apply (H (S i) t' h' x' y'); auto.
Qed.
(** A hash has 64 bits; objects that differ in the hash of the last member only have different ones. *)
Theorem hash_last (hs : list (V -> Z)) h a x y : length a = length hs -> 0 <= h x < 2 ^ 64 -> 0 <= h y < 2 ^ 64 -> h x <> h y ->
  0 <= tuple_hash (hs ++ [h]) (a ++ [x]) < 2 ^ 64 /\ tuple_hash (hs ++ [h]) (a ++ [x]) <> tuple_hash (hs ++ [h]) (a ++ [y]).
Proof.
  intros L X Y N. unfold tuple_hash. split; [apply tuple_hash_range; lia|]. rewrite !tuple_hash_app by auto. intros E. apply combine_injective in E; auto.
Qed.
(** The hash of a vector is that of the tuple of its elements, and equal vectors have equal hashes. *)
Theorem hash_vector (h : V -> Z) a : vector_hash h a = tuple_hash (repeat h (length a)) a.
Proof. unfold vector_hash, tuple_hash. generalize 0. induction a as [|x a IH]; intros s; [reflexivity|]. cbn. apply IH. Qed.
Theorem hash_vector_equal (eq : V -> V -> bool) (h : V -> Z) : (forall x y, eq x y = true -> h x = h y) -> forall a b, Forall2 (fun x y => eq x y = true) a b -> vector_hash h a = vector_hash h b.
Proof. intros H a b F. unfold vector_hash. generalize 0. induction F as [|x y a b E F IH]; intros s; [reflexivity|]. cbn. rewrite (H _ _ E). apply IH. Qed.
(** Collisions can be made: for members whose hashes can be chosen, as of integers, and for any
    values of the others, there is a last member with the hash of any given object. *)
Theorem hash_collision (hs : list (V -> Z)) h a r : length a = length hs -> (forall z, 0 <= z < 2 ^ 64 -> exists x, h x = z) -> 0 <= r < 2 ^ 64 -> exists x, tuple_hash (hs ++ [h]) (a ++ [x]) = r.
Proof.
  intros L S R. unfold tuple_hash. destruct (combine_reaches (tuple_hash_from hs 0 a) r) as (z & Z & E); auto; [apply tuple_hash_range; lia|].
  destruct (S z Z) as (x & X). exists x. rewrite tuple_hash_app, X by auto. exact E.
Qed.
End Hash.

(** ** Examples *)
Example stop_watch_example : has_elapsed {| num := 1000000; den := 1 |} 5 1500004 1 = Ok true /\ has_elapsed {| num := 1000000; den := 1 |} 5 1000004 1 = Ok false /\
  get_elapsed_cast {| num := 1000000; den := 1 |} 5 2999999 = Ok 2 /\ convertible {| num := 1000000; den := 1 |} 1.
Proof. repeat split; cbn; lia. Qed.
Example position_changed_example : strict Z.ltb /\ ordered Z.ltb ([1; 3] ++ [5; 7]) /\ position_changed Z.ltb ([1; 3] ++ 4 :: [5; 7]) 2 = Ok false /\ position_changed Z.ltb ([1; 3] ++ 6 :: [5; 7]) 2 = Ok true /\ position_changed Z.ltb ([1; 3] ++ 3 :: [5; 7]) 2 = Ok true.
Proof.
  split; [split; [|split]; intros; lia|]. split; [|repeat split].
  intros i j x y L. do 4 (destruct i as [|i]; [do 4 (destruct j as [|j]; [cbn; intros E F; try discriminate; try lia; injection E as <-; injection F as <-; reflexivity|]); destruct j; discriminate|]). destruct i; discriminate.
Qed.
Example math_round_example : math_round binary32 (fst int32) (snd int32) (5 # 2) = Ok 3 /\ math_round binary64 (fst int32) (snd int32) (9 # 4) = Ok 2 /\ number binary64 (9 # 4) /\ qfloor ((9 # 4) + (1 # 2)) = 2.
Proof. split; [reflexivity|]. split; [reflexivity|]. split; [|reflexivity]. exists 9, (-2). split; [reflexivity|split; [discriminate|reflexivity]]. Qed.
Example math_clamp_example : math_clamp Z.ltb 7 1 5 = 5 /\ math_clamp Z.ltb 0 1 5 = 1 /\ math_clamp Z.ltb 3 1 5 = 3 /\ math_sign (-3 # 2) = -1.
Proof. repeat split. Qed.
(** An integer member *)
Definition int_member : member_type Z := {| equal := Z.eqb; order := fun x y => Some (x ?= y) |}.
Example memberwise_example : total int_member /\ op_lt [int_member; int_member] [1; 5] [2; 0] = true /\ op_le [int_member; int_member] [1; 5] [1; 5] = true /\ op_gt [int_member; int_member] [1; 6] [1; 5] = true.
Proof.
  split; [|repeat split]. unfold total. cbn [equal order int_member]. split; [discriminate|]. split; [intros x y; rewrite Z.eqb_eq, <- Z.compare_eq_iff; split; [intros E; injection E as E; exact E|intros E; f_equal; exact E]|].
  split; [intros x y; rewrite (Z.compare_antisym x y); destruct (x ?= y); cbn; split; congruence|]. split; [intros x; now rewrite Z.compare_refl|].
  split; [|split].
  - intros x y z A B. f_equal. assert (x < y) by (unfold Z.lt; congruence). assert (y < z) by (unfold Z.lt; congruence). apply Z.compare_lt_iff. lia.
  - intros x y z c A B. assert (E : x = y) by (apply Z.compare_eq_iff; congruence). congruence.
  - intros x y z c A B. assert (E : y = z) by (apply Z.compare_eq_iff; congruence). congruence.
Qed.
Example hash_example : tuple_hash [fun x => x] [1] = 0x9e3779ba /\ tuple_hash [fun x => x; fun x => x] [1; 2] <> tuple_hash [fun x => x; fun x => x] [2; 1].
Proof. split; [reflexivity|discriminate]. Qed.
