(** Decimals and floats (C92). *)
From Coq Require Import QArith Qabs Qpower Lqa ZifyBool ZifyNat.
From Verif Require Import Common DecimalModel DecimalSpec DecimalProofs DecimalProps FloatModel FloatProofs DecFloatModel DecFloatProps DecSingleModel.
Local Open Scope Z_scope.

(** ** Double rounding *)
Lemma fs_mono x y : (x <= y)%Q -> (fs x <= fs y)%Q. Proof. apply rnd_mono. cbn; lia. Qed.
Lemma fs_whole z : Z.abs z <= 2 ^ 24 -> (fs (whole z) == whole z)%Q.
Proof. intros H. apply rnd_int; cbn [prec emin binary32]; lia. Qed.
(** Numbers that are not small are multiples. *)
Lemma number_multiple f k x : 1 <= prec f -> number f x -> (P k <= Qabs x)%Q -> exists a, (x == inject_Z a * P (k - (prec f - 1)))%Q.
Proof.
  intros Hp (m & e & M & _ & E) K. assert (L : k - (prec f - 1) <= e).
  { destruct (Z.le_gt_cases (k - (prec f - 1)) e) as [H|H]; auto. exfalso. rewrite E, Qabs_Qmult, (Qabs_pos (P e)) in K by (pose proof (P_pos e); lra).
    change (Qabs (inject_Z m)) with (inject_Z (Z.abs m)) in K. assert (M' : (inject_Z (Z.abs m) < P (prec f))%Q) by (rewrite P_Z by lia; rewrite <- Zlt_Qlt; exact M).
    pose proof (P_le (prec f + e) k ltac:(lia)) as L. rewrite P_plus in L. pose proof (P_pos e). nra. }
  exists (m * 2 ^ (e - (k - (prec f - 1)))). rewrite inject_Z_mult, <- P_Z by lia. rewrite E, <- Qmult_assoc, <- P_plus. replace (e - (k - (prec f - 1)) + (k - (prec f - 1))) with e by lia. reflexivity.
Qed.
Lemma number_P f k : 1 <= prec f -> emin f <= k -> number f (P k).
Proof. intros H1 H2. exists 1, k. split; [|split; auto; change (inject_Z 1) with 1%Q; lra]. change (Z.abs 1) with 1. apply Z.pow_gt_1; lia. Qed.
Lemma rnd_abs_ge f k x : 1 <= prec f -> emin f <= k -> (P k <= Qabs x)%Q -> (P k <= Qabs (rnd f x))%Q.
Proof.
  intros H1 H2 H. pose proof (rnd_exact f H1 (P k) (number_P f k H1 H2)) as E1.
  assert (N : number f (- P k)). { destruct (number_P f k H1 H2) as (m & e & A & B & C). exists (- m), e. rewrite Z.abs_opp, inject_Z_opp. split; auto. split; auto. lra. }
  pose proof (rnd_exact f H1 (- P k) N) as E2. pose proof (P_pos k). destruct (Qlt_le_dec x 0) as [S|S].
  - rewrite Qabs_neg in H by lra. pose proof (rnd_mono f H1 x (- P k) ltac:(lra)). rewrite Qabs_neg by lra. lra.
  - rewrite Qabs_pos in H by lra. pose proof (rnd_mono f H1 (P k) x ltac:(lra)). rewrite Qabs_pos by lra. lra.
Qed.
Lemma nearer_strict_above a b x : (Qabs (b - x) < Qabs (a - x) -> b < a -> 2 * x < a + b)%Q.
Proof. intros H L. destruct (Qlt_le_dec x b); [lra|]. rewrite (Qabs_neg (b - x)) in H by lra. destruct (Qlt_le_dec x a); [rewrite (Qabs_pos (a - x)) in H by lra; lra|]. rewrite (Qabs_neg (a - x)) in H by lra. lra. Qed.
Lemma nearer_strict_beneath a b x : (Qabs (b - x) < Qabs (a - x) -> a < b -> a + b < 2 * x)%Q.
Proof. intros H L. destruct (Qlt_le_dec b x); [lra|]. rewrite (Qabs_pos (b - x)) in H by lra. destruct (Qlt_le_dec a x); [rewrite (Qabs_neg (a - x)) in H by lra; lra|]. rewrite (Qabs_pos (a - x)) in H by lra. lra. Qed.
(** Between a decimal and a middle of two floats there is more than the error of a double. *)
Lemma integer_gap (z : Z) : ~ (inject_Z z == 0)%Q -> (1 <= Qabs (inject_Z z))%Q.
Proof. intros H. change (Qabs (inject_Z z)) with (inject_Z (Z.abs z)). change 1%Q with (inject_Z 1). rewrite <- Zle_Qle. destruct (Z.eq_dec z 0) as [->|]; [exfalso; apply H; reflexivity|lia]. Qed.
Lemma gap s t q h : 0 <= t -> ~ (inject_Z s - inject_Z q * (inject_Z (5 ^ t) * P (h + t)) == 0)%Q ->
  (1 <= Qabs (inject_Z s - inject_Z q * (inject_Z (5 ^ t) * P (h + t))))%Q \/
  (h + t < 0 /\ (Qabs (inject_Z s - inject_Z q * (inject_Z (5 ^ t) * P (h + t))) == inject_Z (Z.abs (s * 2 ^ (- (h + t)) - q * 5 ^ t)) * P (h + t))%Q /\ s * 2 ^ (- (h + t)) - q * 5 ^ t <> 0).
Proof.
  intros Ht N. set (j := h + t) in *. destruct (Z.le_gt_cases 0 j) as [J|J].
  - left. assert (E : (inject_Z s - inject_Z q * (inject_Z (5 ^ t) * P j) == inject_Z (s - q * (5 ^ t * 2 ^ j)))%Q) by (unfold Zminus; rewrite inject_Z_plus, inject_Z_opp, !inject_Z_mult, P_Z by lia; ring).
    rewrite E in N |- *. now apply integer_gap.
  - right. split; auto. assert (PI := P_inv j). assert (PJ := P_pos j). assert (PN := P_pos (- j)).
    assert (E : (inject_Z s - inject_Z q * (inject_Z (5 ^ t) * P j) == inject_Z (s * 2 ^ (- j) - q * 5 ^ t) * P j)%Q).
    { unfold Zminus; rewrite inject_Z_plus, inject_Z_opp, !inject_Z_mult, <- P_Z by lia.
      transitivity (inject_Z s * (P j * P (- j)) - inject_Z q * (inject_Z (5 ^ t) * P j))%Q; [rewrite PI; ring|ring]. }
    split; [rewrite E, Qabs_Qmult, (Qabs_pos (P j)) by lra; reflexivity|]. intros Z0. apply N. rewrite E, Z0. ring.
Qed.
(** *** Euclid's algorithm: how close the multiples of a number come to the multiples of [p]
    The remainders of two consecutive steps are the best approximations: no smaller multiplier does better. *)
Fixpoint closest (fuel : nat) (q1 r1 q2 r2 m : Z) : Z :=
  match fuel with
  | O => 0
  | S n => if m <? q2 then r1 else if r2 =? 0 then 0 else closest n q2 r2 (q1 + (r1 / r2) * q2) (r1 mod r2) m
  end.
Lemma closest_ok : forall fuel p a sg q1 r1 q2 r2 M, sg * sg = 1 -> 0 < p -> 0 <= q1 -> 0 < q2 -> 0 < r1 -> 0 <= r2 -> 0 < q1 \/ r2 <= r1 -> q1 * r2 + q2 * r1 = p ->
  (exists u, q1 * a = sg * r1 + u * p) -> (exists v, q2 * a = - sg * r2 + v * p) ->
  forall m x q, 0 < m <= M -> x = m * a - q * p -> closest fuel q1 r1 q2 r2 M <= Z.abs x.
Proof.
  induction fuel as [|n IH]; intros p a sg q1 r1 q2 r2 M SG P0 Q1 Q2 R1 R2 OR DET (u & U) (v & V) m x q Hm X; cbn [closest]; [lia|].
  destruct (Z.ltb_spec M q2) as [L|L].
  - set (i := sg * (m * v - q * q2)). set (j := sg * (q * q1 - m * u)).
    assert (D : v * q1 - u * q2 = sg).
    { apply (Z.mul_cancel_l _ _ p); [lia|]. transitivity (q1 * (q2 * a + sg * r2) - q2 * (q1 * a - sg * r1)); [rewrite U, V; ring|]. rewrite <- DET. ring. }
    assert (A : a = u * r2 + v * r1).
    { apply (Z.mul_cancel_l _ _ p); [lia|]. transitivity (r2 * (q1 * a) + r1 * (q2 * a)); [rewrite <- DET; ring|rewrite U, V; ring]. }
    assert (EM : m = i * q1 + j * q2). { unfold i, j. transitivity (sg * (m * (v * q1 - u * q2))); [rewrite D|ring]. transitivity (m * (sg * sg)); [rewrite SG|]; ring. }
    assert (EX : sg * x = i * r1 - j * r2).
    { rewrite X. unfold i, j. transitivity (sg * (m * a - q * p)); [ring|]. rewrite <- DET, A. ring. }
    assert (AB : Z.abs x = Z.abs (i * r1 - j * r2)) by (rewrite <- EX, Z.abs_mul; assert (SA : sg = 1 \/ sg = -1) by (apply Z.mul_eq_1 in SG as SG'; lia); destruct SA as [-> | ->]; cbn [Z.abs]; lia).
    rewrite AB. clearbody i j. clear - EM Q1 Q2 R1 R2 Hm L.
    assert (NJ : j < 0 \/ j = 0 \/ 0 < j) by lia. destruct NJ as [J|[J|J]].
    + assert (S1 : j * q2 < 0) by (apply Z.mul_neg_pos; lia). assert (I : 0 < i) by (destruct (Z.le_gt_cases i 0) as [I|I]; [|exact I]; assert (i * q1 <= 0) by (apply Z.mul_nonpos_nonneg; lia); lia).
      assert (S2 : j * r2 <= 0) by (apply Z.mul_nonpos_nonneg; lia). assert (S3 : 1 * r1 <= i * r1) by (apply Z.mul_le_mono_nonneg_r; lia). lia.
    + assert (S1 : j * q2 = 0) by (rewrite J; ring). assert (S2 : j * r2 = 0) by (rewrite J; ring). assert (I : 0 < i) by (destruct (Z.le_gt_cases i 0) as [I|I]; [|exact I]; assert (i * q1 <= 0) by (apply Z.mul_nonpos_nonneg; lia); lia). assert (S3 : 1 * r1 <= i * r1) by (apply Z.mul_le_mono_nonneg_r; lia). lia.
    + assert (S1 : 1 * q2 <= j * q2) by (apply Z.mul_le_mono_nonneg_r; lia). assert (I : i < 0).
      { destruct (Z.le_gt_cases 0 i) as [I|I]; [|exact I]. assert (0 <= i * q1) by (apply Z.mul_nonneg_nonneg; lia). lia. }
      assert (S2 : 0 <= j * r2) by (apply Z.mul_nonneg_nonneg; lia). assert (S3 : i * r1 <= -1 * r1) by (apply Z.mul_le_mono_nonneg_r; lia). lia.
  - destruct (Z.eqb_spec r2 0) as [Z0|NZ]; [lia|]. assert (DM := Z.div_mod r1 r2 NZ). assert (MB := Z.mod_pos_bound r1 r2 ltac:(lia)). assert (DP := Z.div_pos r1 r2 ltac:(lia) ltac:(lia)).
    set (c := r1 / r2) in *. set (r := r1 mod r2) in *. apply (IH p a (- sg)) with (m := m) (q := q); try lia.
    + assert (0 <= c * q2) by (apply Z.mul_nonneg_nonneg; lia). destruct OR as [O|O]; [lia|]. assert (C1 : 1 <= c) by (apply Z.div_le_lower_bound; lia). assert (1 * q2 <= c * q2) by (apply Z.mul_le_mono_nonneg_r; lia). lia.
    + exists v. rewrite V. reflexivity.
    + exists (u + c * v). transitivity (q1 * a + c * (q2 * a)); [ring|]. rewrite U, V, DM. ring.
Qed.
(** Decimals with 13 to 22 digits and the middles of the floats: checked for each number of digits and each binary exponent *)
Definition far (t k : Z) : bool :=
  if 10 ^ t <=? 2 ^ (24 - k) then 5 ^ t <? 2 ^ 28 * closest 100 0 (5 ^ t) 1 (2 ^ (24 - k - t) mod 5 ^ t) (Z.min (2 ^ 24) (10 ^ t / 2 ^ (- k - 1))) else true.
Lemma all_far : forallb (fun t => forallb (fun k => far (13 + Z.of_nat t) (Z.of_nat k - 81)) (seq 0 81)) (seq 0 10) = true.
Proof. vm_compute. reflexivity. Qed.
Lemma far_ok t k : 13 <= t <= 22 -> -81 <= k < 0 -> far t k = true.
Proof.
  intros T K. pose proof all_far as A. rewrite forallb_forall in A. specialize (A (Z.to_nat (t - 13)) ltac:(apply in_seq; lia)). cbv beta in A. rewrite forallb_forall in A.
  specialize (A (Z.to_nat (k + 81)) ltac:(apply in_seq; lia)). cbv beta in A. rewrite !Z2Nat.id in A by lia. replace (13 + (t - 13)) with t in A by lia. replace (k + 81 - 81) with k in A by lia. exact A.
Qed.
Lemma middle_far s t q k : 13 <= t <= 22 -> -81 <= k < 0 -> s <> 0 -> Z.abs s <= 2 ^ 24 -> 10 ^ t <= Z.abs s * 2 ^ (- k) -> Z.abs s * 2 ^ (- k - 1) <= 10 ^ t ->
  5 ^ t < 2 ^ 28 * Z.abs (s * 2 ^ (24 - k - t) - q * 5 ^ t).
Proof.
  intros T K NZ S1 S2 S3. pose proof (far_ok t k T K) as F. unfold far in F. assert (PK : 0 < 2 ^ (- k)) by (apply Z.pow_pos_nonneg; lia). assert (PK1 : 0 < 2 ^ (- k - 1)) by (apply Z.pow_pos_nonneg; lia).
  assert (L : 10 ^ t <= 2 ^ (24 - k)). { replace (24 - k) with (24 + - k) by lia. rewrite Z.pow_add_r by lia. nia. }
  destruct (Z.leb_spec (10 ^ t) (2 ^ (24 - k))) as [_|B]; [|lia]. apply Z.ltb_lt in F. set (M := Z.min _ _) in F. assert (HM : Z.abs s <= M). { unfold M. apply Z.min_glb; [exact S1|]. apply Z.div_le_lower_bound; lia. }
  assert (P5 : 0 < 5 ^ t) by (apply Z.pow_pos_nonneg; lia). set (n := 24 - k - t) in *. set (a := 2 ^ n mod 5 ^ t) in *. pose proof (Z.mod_pos_bound (2 ^ n) (5 ^ t) P5) as AB. fold a in AB.
  pose proof (Z.div_mod (2 ^ n) (5 ^ t) ltac:(lia)) as DM. fold a in DM. set (u := 2 ^ n / 5 ^ t) in *.
  assert (H : closest 100 0 (5 ^ t) 1 a M <= Z.abs (s * 2 ^ n - q * 5 ^ t)).
  { transitivity (Z.abs (Z.abs s * a - (Z.sgn s * q - Z.abs s * u) * 5 ^ t)).
    - apply (closest_ok 100 (5 ^ t) a (-1) 0 (5 ^ t) 1 a M) with (m := Z.abs s) (q := Z.sgn s * q - Z.abs s * u); try lia.
      + exists 1. ring.
      + exists 0. ring.
    - apply Z.eq_le_incl. replace (Z.abs s * a - (Z.sgn s * q - Z.abs s * u) * 5 ^ t) with (Z.sgn s * (s * 2 ^ n - q * 5 ^ t)).
      + rewrite Z.abs_mul. replace (Z.abs (Z.sgn s)) with 1 by lia. lia.
      + rewrite DM. replace (Z.abs s) with (Z.sgn s * s) by lia. ring. }
  lia.
Qed.

Section Single.
Context (c : cfg) (Hc : good c).

Lemma to_float_value d : wf c d -> Z.abs (signed d) <= 2 ^ 24 -> (ex d <= 22)%nat -> to_float c d = fs (fl (value d)).
Proof.
  intros [H1 _] H2 H3. unfold to_float. apply rnd_eq. unfold fl at 1. rewrite (rnd_eq binary64 _ (value d)); [reflexivity|]. rewrite mantissa_signed. change (inject_Z (signed d)) with (whole (signed d)).
  rewrite fs_whole, (denom_exact c Hc) by auto. now rewrite value_div.
Qed.
Lemma tens_split e : (tens e == inject_Z (5 ^ Z.of_nat e) * P (Z.of_nat e))%Q.
Proof. unfold tens, whole, ten. rewrite P_Z by lia. rewrite <- inject_Z_mult, <- Z.pow_mul_l. reflexivity. Qed.
Lemma single_twice d : Z.abs (signed d) <= 2 ^ 24 -> (ex d <= 22)%nat -> nearest binary32 (value d) (fs (fl (value d))).
Proof.
  intros Hs Ht. assert (P32 : 1 <= prec binary32) by (cbn; lia). assert (P64 : 1 <= prec binary64) by (cbn; lia).
  destruct (Z.eq_dec (signed d) 0) as [Z0|NZ].
  { assert (E : (value d == 0)%Q) by (rewrite value_div, Z0; change (whole 0) with 0%Q; unfold Qdiv; ring). assert (F : fs (fl (value d)) = 0%Q). { unfold fl. rewrite (rnd_eq _ _ _ E). reflexivity. } rewrite F. split; [apply number_0; cbn; lia|].
    intros z _. rewrite (Qabs_0 (0 - value d)) by lra. apply Qabs_nonneg. }
  split. { apply rnd_number. lia. }
  assert (VN := value_normal d NZ ltac:(lia)). assert (VT := value_tens d). assert (TP := tens_pos (ex d)). set (x := value d) in *. set (y := fl x). set (z := fs y). set (w := fs x).
  destruct (rnd_nearest binary32 P32 x) as [Wn Wb]. fold (fs x) in Wn, Wb. fold w in Wn, Wb. destruct (rnd_nearest binary32 P32 y) as [Zn Zb]. fold (fs y) in Zn, Zb. fold z in Zn, Zb.
  assert (M : (Qabs (z - x) <= Qabs (w - x))%Q).
  2: { intros v Hv. eapply Qle_trans; [exact M|]. now apply Wb. }
  destruct (Qlt_le_dec (Qabs (w - x)) (Qabs (z - x))) as [B|B]; auto. exfalso.
  assert (NX : ~ (x == 0)%Q). { intros E. rewrite E in VN. change (Qabs 0) with 0%Q in VN. pose proof (P_pos (-80)). lra. }
  destruct (rnd_form binary32 x NX) as (k & _ & _ & [K1 K2] & _).
  assert (Hk : -81 <= k). { destruct (Z.le_gt_cases (-81) k) as [L|L]; auto. pose proof (P_le (k + 1) (-80) ltac:(lia)). lra. }
  assert (Y1 : (P k <= Qabs y)%Q) by (apply rnd_abs_ge; cbn; auto; lia). assert (Z1 : (P k <= Qabs z)%Q) by (apply rnd_abs_ge; cbn; auto; lia). assert (W1 : (P k <= Qabs w)%Q) by (apply rnd_abs_ge; cbn; auto; lia).
  destruct (number_multiple _ k z P32 Zn Z1) as [a Ea]. destruct (number_multiple _ k w P32 Wn W1) as [b Eb]. cbn [prec binary32] in Ea, Eb. replace (k - (24 - 1)) with (k - 23) in Ea, Eb by lia. set (e := k - 23) in *.
  assert (FE : (Qabs (y - x) <= Qabs x * (1 # 9007199254740992))%Q). { apply fl_error. pose proof (P_le (-1022) (-80) ltac:(lia)). lra. }
  (* the middle is between x and y *)
  assert (G : (~ 2 * x - (z + w) == 0 /\ Qabs (2 * x - (z + w)) <= 2 * (Qabs x * (1 # 9007199254740992)))%Q).
  { destruct (Qlt_le_dec w z) as [L|L].
    - pose proof (nearer_strict_above z w x B L). pose proof (nearer_above z w y (Zb w Wn) L). pose proof (Qle_Qabs (y - x)). split; [lra|]. rewrite Qabs_neg by lra. lra.
    - assert (L' : (z < w)%Q). { destruct (Qlt_le_dec z w); auto. assert (E : (z == w)%Q) by lra. rewrite E in B. lra. }
      pose proof (nearer_strict_beneath z w x B L'). pose proof (nearer_beneath z w y (Zb w Wn) L'). pose proof (Qle_Qabs (- (y - x))) as Q. rewrite Qabs_opp in Q. split; [lra|]. rewrite Qabs_pos by lra. lra. }
  destruct G as [G1 G2]. set (t := Z.of_nat (ex d)) in *. set (T := tens (ex d)) in *. assert (TS := tens_split (ex d)). fold t T in TS.
  assert (I : (T * (2 * x - (z + w)) == inject_Z (2 * signed d) - inject_Z (a + b) * (inject_Z (5 ^ t) * P (e + t)))%Q).
  { rewrite inject_Z_mult, inject_Z_plus, P_plus. transitivity (2 * (x * T) - (z + w) * T)%Q; [ring|]. rewrite VT, Ea, Eb, TS. unfold whole. change (inject_Z 2) with 2%Q. ring. }
  assert (I2 : (Qabs (inject_Z (2 * signed d) - inject_Z (a + b) * (inject_Z (5 ^ t) * P (e + t))) <= 2 * (Qabs x * T) * (1 # 9007199254740992))%Q).
  { rewrite <- I, Qabs_Qmult, (Qabs_pos T) by lra. nra. }
  destruct (gap (2 * signed d) t (a + b) e ltac:(lia)) as [G|(J & G & NX0)].
  - rewrite <- I. intros Z. apply G1. nra.
  - assert (XT : (Qabs x * T <= whole (2 ^ 24))%Q). { rewrite <- (Qabs_pos T) by lra. rewrite <- Qabs_Qmult, VT. change (Qabs (whole (signed d))) with (whole (Z.abs (signed d))). now apply whole_le. }
    change (whole (2 ^ 24)) with (16777216 # 1)%Q in XT. lra.
  - set (X := 2 * signed d * 2 ^ (- (e + t)) - (a + b) * 5 ^ t) in *. rewrite G in I2.
    assert (F0 : (0 < inject_Z (5 ^ t))%Q) by (change 0%Q with (inject_Z 0); rewrite <- Zlt_Qlt; apply Z.pow_pos_nonneg; lia).
    assert (EK : (P (k + 1) * P t == (16777216 # 1) * P (e + t))%Q). { change (16777216 # 1)%Q with (P 24). rewrite <- !P_plus. unfold e. replace (k + 1 + t) with (24 + (k - 23 + t)) by lia. reflexivity. }
    pose proof (P_pos t). pose proof (P_pos (e + t)). pose proof (P_pos (k + 1)). assert (B1 : (Qabs x * T <= (16777216 # 1) * P (e + t) * inject_Z (5 ^ t))%Q). { rewrite TS, <- EK. pose proof (Qabs_nonneg x). assert (0 <= inject_Z (5 ^ t) * P t)%Q by nra. nra. }
    assert (B2 : (inject_Z (Z.abs X) * (268435456 # 1) <= inject_Z (5 ^ t))%Q). { apply (Qmult_le_r _ _ (P (e + t))); [lra|]. lra. }
    change (268435456 # 1)%Q with (inject_Z (2 ^ 28)) in B2. rewrite <- inject_Z_mult, <- Zle_Qle in B2.
    destruct (Z.le_gt_cases t 12) as [T12|T13].
    + assert (5 ^ t <= 5 ^ 12) by (apply Z.pow_le_mono_r; lia). lia.
    + (* the integers *)
      assert (XT : (Qabs x * T == inject_Z (Z.abs (signed d)))%Q). { rewrite <- (Qabs_pos T) by lra. rewrite <- Qabs_Qmult, VT. reflexivity. }
      assert (T10 : (T == inject_Z (10 ^ t))%Q) by reflexivity.
      assert (KN : k < 0). { destruct (Z.lt_ge_cases k 0) as [KL|KG]; [exact KL|]. exfalso. pose proof (P_le 0 k ltac:(lia)) as P0. change (P 0) with 1%Q in P0. assert (C : (inject_Z (10 ^ t) <= inject_Z (Z.abs (signed d)))%Q) by (rewrite <- XT, <- T10; nra).
        rewrite <- Zle_Qle in C. assert (10 ^ 13 <= 10 ^ t) by (apply Z.pow_le_mono_r; lia). lia. }
      pose proof (P_inv k) as PI. pose proof (P_inv (k + 1)) as PI1. pose proof (P_pos k). pose proof (P_pos (- k)). pose proof (P_pos (- (k + 1))).
      assert (C1 : 10 ^ t <= Z.abs (signed d) * 2 ^ (- k)).
      { rewrite Zle_Qle, inject_Z_mult, <- P_Z, <- XT, <- T10 by lia. setoid_replace T with (P k * P (- k) * T)%Q at 1 by (rewrite PI; ring). setoid_replace (Qabs x * T * P (- k))%Q with (Qabs x * P (- k) * T)%Q by ring. apply Qmult_le_compat_r; [|lra]. apply Qmult_le_compat_r; lra. }
      assert (C2 : Z.abs (signed d) * 2 ^ (- k - 1) <= 10 ^ t).
      { replace (- k - 1) with (- (k + 1)) by lia. rewrite Zle_Qle, inject_Z_mult, <- P_Z, <- XT, <- T10 by lia. setoid_replace T with (P (k + 1) * P (- (k + 1)) * T)%Q at 2 by (rewrite PI1; ring). setoid_replace (Qabs x * T * P (- (k + 1)))%Q with (Qabs x * P (- (k + 1)) * T)%Q by ring. apply Qmult_le_compat_r; [|lra]. apply Qmult_le_compat_r; lra. }
      pose proof (middle_far (signed d) t (a + b) k ltac:(lia) ltac:(lia) NZ Hs C1 C2) as MF.
      assert (EX : X = signed d * 2 ^ (24 - k - t) - (a + b) * 5 ^ t). { unfold X, e. replace (24 - k - t) with (1 + - (k - 23 + t)) by lia. rewrite Z.pow_add_r by lia. ring. }
      rewrite <- EX in MF. lia.
Qed.

(** What cast<float>() does with an integer of 24 bits and at most 22 digits: the two roundings give the nearest float *)
Theorem decimal_to_float_partial d : wf c d -> Z.abs (signed d) <= 2 ^ 24 -> (ex d <= 22)%nat -> nearest binary32 (value d) (to_float c d).
Proof. intros H1 H2 H3. rewrite to_float_value by (auto; lia). now apply single_twice. Qed.
Theorem decimal_to_float_order_partial a b : wf c a -> wf c b -> Z.abs (signed a) <= 2 ^ 24 -> Z.abs (signed b) <= 2 ^ 24 -> (ex a <= 22)%nat -> (ex b <= 22)%nat ->
  (value a <= value b)%Q -> (to_float c a <= to_float c b)%Q.
Proof. intros. rewrite !to_float_value by auto. apply fs_mono. now apply fl_mono. Qed.

(** *** The error *)
Notation v := (1 # 16777216)%Q.
Notation u := (1 # 9007199254740992)%Q.
Lemma fs_error x : (P (-126) <= Qabs x)%Q -> (Qabs (fs x - x) <= Qabs x * v)%Q.
Proof. intros H. apply (rnd_error binary32) in H. exact H. Qed.
(** Relative errors add. *)
Lemma error_then a b x i j : (0 <= i -> 0 <= j -> Qabs (a - x) <= Qabs x * i -> Qabs (b - a) <= Qabs a * j -> Qabs (b - x) <= Qabs x * (i + j + i * j))%Q.
Proof.
  intros I J A B. assert (T : (Qabs (b - x) <= Qabs (b - a) + Qabs (a - x))%Q) by (setoid_replace (b - x)%Q with ((b - a) + (a - x))%Q by ring; apply Qabs_triangle).
  assert (T2 : (Qabs a <= Qabs x + Qabs (a - x))%Q) by (setoid_replace (Qabs a) with (Qabs (x + (a - x))) by (apply Qabs_wd; ring); apply Qabs_triangle). pose proof (Qabs_nonneg x). pose proof (Qabs_nonneg a). nra.
Qed.
Lemma error_beneath a x i : (Qabs (a - x) <= Qabs x * i -> i <= 1 # 2 -> Qabs x * (1 # 2) <= Qabs a)%Q.
Proof. intros A I. assert (T : (Qabs x <= Qabs a + Qabs (a - x))%Q). { rewrite (Qabs_Qminus a x). setoid_replace (Qabs x) with (Qabs (a + (x - a))) by (apply Qabs_wd; ring). apply Qabs_triangle. } pose proof (Qabs_nonneg x). nra. Qed.
Lemma P_half k x : (P k <= x -> P (k - 1) <= x * (1 # 2))%Q.
Proof. intros H. replace k with (1 + (k - 1)) in H by lia. rewrite P_plus in H. change (P 1) with (2 # 1)%Q in H. lra. Qed.
Lemma value_zero d : signed d = 0 -> (value d == 0)%Q.
Proof. intros Z0. rewrite value_div, Z0. change (whole 0) with 0%Q. unfold Qdiv. ring. Qed.
(** Any decimal with at most 22 digits: three roundings *)
Theorem decimal_to_float_error_partial d : wf c d -> (ex d <= 22)%nat -> (Qabs (to_float c d - value d) <= Qabs (value d) * (3 * v))%Q.
Proof.
  intros [H1 _] H3. destruct (Z.eq_dec (signed d) 0) as [Z0|NZ].
  { assert (E := value_zero d Z0). unfold to_float. rewrite mantissa_signed, Z0. change (fs (inject_Z 0)) with 0%Q. rewrite (fl_eq (0 / denom_double c (ex d)) 0) by (unfold Qdiv; ring). change (fs (fl 0)) with 0%Q. rewrite (Qabs_0 (0 - value d)) by lra. rewrite (Qabs_0 (value d)) by auto. discriminate. }
  assert (VN := value_normal d NZ H3). assert (VD := value_div d). assert (TP := tens_pos (ex d)). set (x := value d) in *. set (T := tens (ex d)) in *. unfold to_float. rewrite mantissa_signed. change (inject_Z (signed d)) with (whole (signed d)).
  assert (M1 : (1 <= Qabs (whole (signed d)))%Q) by (apply (whole_le2 1 (Z.abs (signed d))); lia). assert (PL := P_le (-126) 0 ltac:(lia)). change (P 0) with 1%Q in PL.
  assert (E1 := fs_error (whole (signed d)) ltac:(lra)). set (m := fs (whole (signed d))) in *.
  set (a := (m / denom_double c (ex d))%Q). assert (Ea : (a == m / T)%Q) by (unfold a; rewrite (denom_exact c Hc) by auto; reflexivity).
  assert (E2 : (Qabs (a - x) <= Qabs x * v)%Q).
  { rewrite Ea, VD. setoid_replace (m / T - whole (signed d) / T)%Q with ((m - whole (signed d)) * / T)%Q by (field; lra). unfold Qdiv. rewrite !Qabs_Qmult. assert (0 < / T)%Q by (apply Qinv_lt_0_compat; lra). rewrite (Qabs_pos (/ T)) by lra. nra. }
  assert (B2 := error_beneath a x v E2 ltac:(discriminate)). assert (N2 := P_half _ _ VN). cbn [Z.sub Z.add Z.opp Pos.add Pos.succ] in N2.
  assert (PL2 := P_le (-1022) (-81) ltac:(lia)). assert (E3 := fl_error a ltac:(eapply Qle_trans; [exact PL2|lra])).
  assert (E4 := error_then a (fl a) x v u ltac:(discriminate) ltac:(discriminate) E2 E3). assert (B4 := error_beneath (fl a) x _ E4 ltac:(discriminate)).
  assert (PL3 := P_le (-126) (-81) ltac:(lia)). assert (E5 := fs_error (fl a) ltac:(eapply Qle_trans; [exact PL3|lra])).
  assert (E6 := error_then (fl a) (fs (fl a)) x (v + u + v * u)%Q v ltac:(discriminate) ltac:(discriminate) E4 E5). eapply Qle_trans; [exact E6|]. pose proof (Qabs_nonneg x).
  setoid_replace (Qabs x * (3 * v))%Q with (3 * v * Qabs x)%Q by ring. rewrite Qmult_comm. apply Qmult_le_compat_r; auto; discriminate.
Qed.
(** ... two of them if the mantissa has 24 bits *)
Lemma to_float_error d : wf c d -> Z.abs (signed d) <= 2 ^ 24 -> (ex d <= 22)%nat -> (Qabs (to_float c d - value d) <= Qabs (value d) * (u + v + u * v))%Q.
Proof.
  intros W B E. rewrite to_float_value by auto. destruct (Z.eq_dec (signed d) 0) as [Z0|NZ].
  { assert (Ev := value_zero d Z0). rewrite (fl_eq _ _ Ev). change (fs (fl 0)) with 0%Q. rewrite (Qabs_0 (0 - value d)) by lra. rewrite (Qabs_0 (value d)) by auto. discriminate. }
  assert (VN := value_normal d NZ E). assert (PL2 := P_le (-1022) (-80) ltac:(lia)). assert (E3 := fl_error (value d) ltac:(lra)). assert (B3 := error_beneath _ _ _ E3 ltac:(discriminate)). assert (N2 := P_half _ _ VN). cbn [Z.sub Z.add Z.opp Pos.add Pos.succ] in N2.
  assert (PL3 := P_le (-126) (-81) ltac:(lia)). assert (E5 := fs_error (fl (value d)) ltac:(eapply Qle_trans; [exact PL3|lra])). apply (error_then (fl (value d))); auto; discriminate.
Qed.
(** A decimal of less than 2^23 units (six digits) is found again by rounding the float. *)
Theorem decimal_float_round_trip_partial d : wf c d -> Z.abs (signed d) < 2 ^ 23 -> (ex d <= 22)%nat ->
  exists d', make_rounded c (to_float c d) (ex d) = Ok d' /\ wf c d' /\ ex d' = ex d /\ (value d' == value d)%Q /\ (signed d <> 0 -> d' = d).
Proof.
  intros W B E. pose proof W as [W1 W2]. assert (E1 := to_float_error d W ltac:(lia) E). assert (N : (Qabs (whole (signed d) - fl (to_float c d * tens (ex d))) < 1 # 2)%Q).
  { destruct (Z.eq_dec (signed d) 0) as [Z0|NZ].
    { rewrite to_float_value by (auto; lia). rewrite (fl_eq _ _ (value_zero d Z0)). change (fs (fl 0)) with 0%Q. rewrite (fl_eq (0 * tens (ex d)) 0) by ring. rewrite Z0. reflexivity. }
    assert (VT := value_tens d). assert (TP := tens_pos (ex d)). set (T := tens (ex d)) in *. set (f := to_float c d) in *. set (x := value d) in *. set (m := whole (signed d)) in *.
    assert (E2 : (Qabs (f * T - m) <= Qabs m * (u + v + u * v))%Q). { rewrite <- VT. setoid_replace (f * T - x * T)%Q with ((f - x) * T)%Q by ring. rewrite !Qabs_Qmult, (Qabs_pos T) by lra. nra. }
    assert (M1 : (1 <= Qabs m)%Q) by (apply (whole_le2 1 (Z.abs (signed d))); lia). assert (B2 := error_beneath _ _ _ E2 ltac:(discriminate)). assert (PL := P_le (-1022) (-1) ltac:(lia)). change (P (-1)) with (1 # 2)%Q in PL.
    assert (E3 := fl_error (f * T) ltac:(eapply Qle_trans; [exact PL|lra])). assert (E4 := error_then _ _ m (u + v + u * v)%Q u ltac:(discriminate) ltac:(discriminate) E2 E3).
    rewrite Qabs_Qminus. eapply Qle_lt_trans; [exact E4|]. assert (L : (Qabs m <= whole (2 ^ 23 - 1))%Q) by (apply (whole_le2 (Z.abs (signed d))); lia). eapply Qle_lt_trans; [apply Qmult_le_compat_r; [exact L|discriminate]|]. reflexivity. }
  assert (I : qround (fl (to_float c d * denom_double c (ex d))) = signed d).
  { rewrite (fl_eq _ (to_float c d * tens (ex d))) by (rewrite (denom_exact c Hc) by auto; reflexivity). apply (near_unique _ _ _ (qround_spec _) N). }
  assert (M1 : Z.abs (signed d) <= max_man c) by (unfold max_man, man_len, p2, signed in *; destruct (neg d); lia).
  destruct (convert_int c Hc Rounded (to_float c d) (ex d) W1) as (d' & E' & W' & X' & S' & G').
  { cbn [integer]. unfold product. now rewrite I. } { intros _. cbn [integer]. unfold product. rewrite I. lia. }
  cbn [integer] in S', G'. unfold product in S', G'. rewrite I in S', G'. exists d'. split; [exact E'|]. split; auto. split; auto.
  split; [rewrite !value_div, S', X'; reflexivity|]. intros Z. destruct d as [n x mm], d' as [n' x' mm']. unfold signed in *. cbn [neg ex man] in *. subst x'. destruct n, n'; try lia; f_equal; lia.
Qed.
End Single.

(** ** What does not hold *)
(** Above 23 bits a decimal is not found again. *)
Theorem decimal_float_round_trip_refuted : exists x r, wf d64 x /\ Z.abs (signed x) < 2 ^ 24 /\ make_rounded d64 (to_float d64 x) (ex x) = Ok r /\ ~ (value r == value x)%Q.
Proof. exists (d false 1 13411797), (d false 1 13411798). split; [apply wf_dec; reflexivity|]. split; [reflexivity|]. split; [reflexivity|]. discriminate. Qed.
(** Above 24 bits cast<float>() does not give the nearest float, while that of the nearest double is nearer, *)
Theorem decimal_to_float_refuted : exists x, wf d64 x /\ number binary32 (fs (to_double d64 x)) /\ (Qabs (fs (to_double d64 x) - value x) < Qabs (to_float d64 x - value x))%Q.
Proof. exists (d false 1 16777217). split; [apply wf_dec; reflexivity|]. split; [apply rnd_number; cbn; lia|]. reflexivity. Qed.
(** and different decimals are equal floats. *)
Theorem decimal_float_distinct_refuted : exists x y, wf d64 x /\ wf d64 y /\ (value x < value y)%Q /\ to_float d64 x = to_float d64 y.
Proof. exists (d false 2 16777216), (d false 2 16777217). split; [apply wf_dec; reflexivity|]. split; [apply wf_dec; reflexivity|]. split; reflexivity. Qed.

(** 123.45 and -0.001 *)
Example decimal_float_demo : to_float d64 (d false 2 12345) = fs (12345 # 100) /\ make_rounded d64 (to_float d64 (d false 2 12345)) 2 = Ok (d false 2 12345) /\
  make_truncated d64 (to_float d64 (d false 2 29)) 2 = Ok (d false 2 28) /\ make_rounded d64 (to_float d64 (d true 3 1)) 3 = Ok (d true 3 1).
Proof. repeat split. Qed.
