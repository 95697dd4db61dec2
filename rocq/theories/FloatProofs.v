(** Rounding is to a nearest number of the format. *)
From Coq Require Import QArith Qreduction Qabs Qpower Lqa ZifyBool.
From Verif Require Import Common FloatModel.
Local Open Scope Z_scope.

(** ** Specification *)
(** The numbers of a format *)
Definition number (f : format) (x : Q) : Prop := exists m e, Z.abs m < 2 ^ prec f /\ emin f <= e /\ (x == inject_Z m * 2 ^ e)%Q.
(** A number of the format that no other is nearer than *)
Definition nearest (f : format) (x y : Q) : Prop := number f y /\ forall z, number f z -> (Qabs (y - x) <= Qabs (z - x))%Q.

(** ** Powers of two *)
Notation P e := (Qpower 2 e).
Lemma P_plus a b : (P (a + b) == P a * P b)%Q. Proof. apply Qpower_plus. discriminate. Qed.
Lemma P_Z e : 0 <= e -> (P e == inject_Z (2 ^ e))%Q.
Proof. intros H. rewrite Zpower_Qpower by auto. reflexivity. Qed.
Lemma P_pos e : (0 < P e)%Q.
Proof.
  destruct (Z.le_gt_cases 0 e) as [H|H].
  - rewrite P_Z by auto. assert (0 < 2 ^ e) by (apply Z.pow_pos_nonneg; lia). change 0%Q with (inject_Z 0). now rewrite <- Zlt_Qlt.
  - assert (A : (0 < P (- e))%Q). { rewrite P_Z by lia. assert (0 < 2 ^ (- e)) by (apply Z.pow_pos_nonneg; lia). change 0%Q with (inject_Z 0). now rewrite <- Zlt_Qlt. }
    assert (B : (P e * P (- e) == 1)%Q) by (rewrite <- P_plus; replace (e + - e) with 0 by lia; reflexivity).
    destruct (Qlt_le_dec 0 (P e)) as [C|C]; auto. nra.
Qed.
Lemma P_le a b : a <= b -> (P a <= P b)%Q.
Proof.
  intros H. replace b with (a + (b - a)) by lia. rewrite P_plus. assert (1 <= P (b - a))%Q. { rewrite P_Z by lia. change 1%Q with (inject_Z 1). rewrite <- Zle_Qle. assert (0 < 2 ^ (b - a)) by (apply Z.pow_pos_nonneg; lia). lia. }
  pose proof (P_pos a). nra.
Qed.
Lemma P_inv e : (P e * P (- e) == 1)%Q. Proof. rewrite <- P_plus. replace (e + - e) with 0 by lia. reflexivity. Qed.
Lemma scaled_eq m e : (scaled m e == inject_Z m * P e)%Q.
Proof.
  unfold scaled. destruct (Z.leb_spec 0 e) as [H|H].
  - rewrite P_Z by auto. now rewrite inject_Z_mult.
  - assert (X : 0 < 2 ^ (- e)) by (apply Z.pow_pos_nonneg; lia). assert (E : (P (- e) == inject_Z (2 ^ (- e)))%Q) by (apply P_Z; lia). pose proof (P_inv e) as I. pose proof (P_pos (- e)).
    assert (A : (m # Z.to_pos (2 ^ (- e)) == inject_Z m * / inject_Z (2 ^ (- e)))%Q).
    { destruct (2 ^ (- e)) as [|p|p] eqn:Ep; try lia. unfold Qeq, inject_Z, Qmult, Qinv. cbn. lia. }
    rewrite A, <- E. assert (F : (P e == / P (- e))%Q). { apply Qmult_inj_r with (z := P (- e)); [lra|]. rewrite I. rewrite Qmult_comm, Qmult_inv_r; [reflexivity|lra]. }
    now rewrite F.
Qed.

(** ** rne *)
Lemma Qmake_div n d : (n # d == inject_Z n / inject_Z (Zpos d))%Q. Proof. now rewrite Qmake_Qdiv. Qed.
(** as integers: | 2 (m d - n) | <= d *)
Lemma rne_half n d : 0 < d -> Z.abs (2 * (rne n d * d - n)) <= d.
Proof.
  intros H. unfold rne. pose proof (Z.div_mod n d ltac:(lia)) as E. pose proof (Z.mod_pos_bound n d H). destruct (Z.ltb_spec (2 * (n mod d)) d), (Z.ltb_spec d (2 * (n mod d))), (Z.even (n / d)); nia.
Qed.
Lemma rne_even n d : 0 < d -> Z.abs (2 * (rne n d * d - n)) = d -> Z.even (rne n d) = true.
Proof.
  intros H. unfold rne. pose proof (Z.div_mod n d ltac:(lia)) as E. pose proof (Z.mod_pos_bound n d H). set (q := n / d) in *. destruct (Z.ltb_spec (2 * (n mod d)) d); [nia|]. destruct (Z.ltb_spec d (2 * (n mod d))); [nia|]. destruct (Z.even q) eqn:Q; auto. intros _. rewrite Z.add_1_r, Z.even_succ, <- Z.negb_even, Q. reflexivity.
Qed.
Lemma rne_best n d j : 0 < d -> Z.abs (rne n d * d - n) <= Z.abs (j * d - n).
Proof.
  intros H. pose proof (rne_half n d H) as B. set (m := rne n d) in *. destruct (Z.eq_dec j m) as [->|N]; [lia|]. assert (Z.abs (j * d - m * d) >= d) by nia. lia.
Qed.

(** ** ilog2 *)
Lemma ilog2_scale n d k : 0 < n -> 0 < d -> n * 2 ^ Z.max 0 (- k) < d * 2 ^ Z.max 0 k <-> (inject_Z n < inject_Z d * P k)%Q.
Proof.
  intros Hn Hd. destruct (Z.le_gt_cases 0 k) as [H|H].
  - rewrite (Z.max_l 0 (- k)), (Z.max_r 0 k) by lia. rewrite P_Z, <- inject_Z_mult, <- Zlt_Qlt by auto. change (2 ^ 0) with 1. rewrite Z.mul_1_r. tauto.
  - rewrite (Z.max_r 0 (- k)), (Z.max_l 0 k) by lia. change (2 ^ 0) with 1. rewrite Z.mul_1_r.
    rewrite Zlt_Qlt, inject_Z_mult, <- P_Z by lia. pose proof (P_inv k). pose proof (P_pos k). pose proof (P_pos (- k)). split; intros K.
    + assert (inject_Z n * P (- k) * P k < inject_Z d * P k)%Q by nra. assert (inject_Z n * P (- k) * P k == inject_Z n)%Q by (rewrite <- Qmult_assoc, (Qmult_comm (P (- k))), H0; lra). lra.
    + assert (inject_Z n * P (- k) < inject_Z d * P k * P (- k))%Q by nra. assert (inject_Z d * P k * P (- k) == inject_Z d)%Q by (rewrite <- Qmult_assoc, H0; lra). lra.
Qed.
Lemma ilog2_spec n d : 0 < n -> 0 < d -> (inject_Z d * P (ilog2 n d) <= inject_Z n < inject_Z d * P (ilog2 n d + 1))%Q.
Proof.
  intros Hn Hd. unfold ilog2. set (k := Z.log2 n - Z.log2 d).
  destruct (Z.log2_spec n Hn) as [N1 N2], (Z.log2_spec d Hd) as [D1 D2]. pose proof (Z.log2_nonneg n). pose proof (Z.log2_nonneg d).
  rewrite Zle_Qle, <- P_Z in N1 by lia. rewrite Zlt_Qlt, <- P_Z in N2 by lia. rewrite Zle_Qle, <- P_Z in D1 by lia. rewrite Zlt_Qlt, <- P_Z in D2 by lia.
  assert (L1 : (inject_Z d * P (k - 1) <= inject_Z n)%Q).
  { replace (Z.log2 n) with (Z.succ (Z.log2 d) + (k - 1)) in N1 by (unfold k; lia). rewrite P_plus in N1. pose proof (P_pos (k - 1)). nra. }
  assert (L2 : (inject_Z n < inject_Z d * P (k + 1))%Q).
  { replace (Z.succ (Z.log2 n)) with (Z.log2 d + (k + 1)) in N2 by (unfold k; lia). rewrite P_plus in N2. pose proof (P_pos (k + 1)). nra. }
  destruct (Z.ltb_spec (n * 2 ^ Z.max 0 (- k)) (d * 2 ^ Z.max 0 k)) as [C|C].
  - apply ilog2_scale in C; auto. replace (k - 1 + 1) with k by lia. auto.
  - split; auto. apply Qnot_lt_le. intros K. apply ilog2_scale in K; auto. lia.
Qed.

(** ** rnd *)
Section Rnd.
Context (f : format) (Hp : 1 <= prec f).
Lemma number_0 : number f 0. Proof. exists 0, (emin f). split; [|split; [lia|]]; [cbn; apply Z.pow_pos_nonneg; lia|]. change (inject_Z 0) with 0%Q. lra. Qed.
Lemma number_eq x y : (x == y)%Q -> number f x -> number f y. Proof. intros H (m & e & A & B & C). exists m, e. rewrite <- H. auto. Qed.
Lemma number_scaled m e : Z.abs m <= 2 ^ prec f -> emin f <= e -> number f (inject_Z m * P e).
Proof.
  intros A B. destruct (Z.eq_dec (Z.abs m) (2 ^ prec f)) as [E|E]; [|exists m, e; split; [lia|split; auto; reflexivity]].
  exists (Z.sgn m * 2 ^ (prec f - 1)), (e + 1). assert (0 < 2 ^ (prec f - 1)) by (apply Z.pow_pos_nonneg; lia). assert (X : 2 ^ prec f = 2 * 2 ^ (prec f - 1)) by (rewrite <- Z.pow_succ_r by lia; f_equal; lia). split; [|split; [lia|]].
  - rewrite Z.abs_mul. destruct m; cbn [Z.sgn Z.abs] in *; lia.
  - rewrite P_plus, inject_Z_mult. change (P 1) with (2 # 1). assert (Y : (inject_Z m == inject_Z (Z.sgn m) * 2 * inject_Z (2 ^ (prec f - 1)))%Q). { rewrite <- (Z.abs_sgn m) at 1. rewrite Z.mul_comm, E, X, !inject_Z_mult. change (inject_Z 2) with (2#1). lra. }
    rewrite Y. lra.
Qed.
Lemma rnd_eq x y : (x == y)%Q -> rnd f x = rnd f y.
Proof. intros H. unfold rnd. now rewrite (Qred_complete _ _ H). Qed.
Lemma rnd_0 : rnd f 0 = 0%Q. Proof. reflexivity. Qed.
(** What rnd does with a number that is not zero *)
Lemma rnd_form x : ~ (x == 0)%Q -> exists k e m, (P k <= Qabs x < P (k + 1))%Q /\ e = Z.max (emin f) (k - (prec f - 1)) /\ (rnd f x == inject_Z m * P e)%Q /\
  (Qabs (inject_Z m * P e - x) <= P e / 2)%Q /\ (forall j, (Qabs (inject_Z m * P e - x) <= Qabs (inject_Z j * P e - x))%Q) /\ ((Qabs (inject_Z m * P e - x) == P e / 2)%Q -> Z.even m = true).
Proof.
  intros Hx. unfold rnd. pose proof (Qred_correct x) as Er. destruct (Qred x) as [n d] eqn:Eq. clear Eq.
  destruct (Z.eqb_spec n 0) as [->|Hn]. { exfalso. apply Hx. rewrite <- Er. reflexivity. }
  set (k := ilog2 (Z.abs n) (Zpos d)). set (e := Z.max (emin f) (k - (prec f - 1))). set (m := rne (n * 2 ^ Z.max 0 (- e)) (Z.pos d * 2 ^ Z.max 0 e)).
  assert (Hd : (0 < inject_Z (Zpos d))%Q) by reflexivity.
  assert (Ex : (x * inject_Z (Zpos d) == inject_Z n)%Q) by (rewrite <- Er, Qmake_div; field; lra).
  assert (Ax : (Qabs x * inject_Z (Zpos d) == inject_Z (Z.abs n))%Q). { rewrite <- (Qabs_pos (inject_Z (Z.pos d))) at 1 by lra. rewrite <- Qabs_Qmult, Ex. reflexivity. }
  exists k, e, m. split; [|split; [reflexivity|split; [apply scaled_eq|]]].
  - destruct (ilog2_spec (Z.abs n) (Zpos d) ltac:(lia) ltac:(lia)) as [A B]. fold k in A, B. rewrite <- Ax in A, B. split; nra.
  - (* everything times c = d * P (max 0 (-e)) *)
    set (N := n * 2 ^ Z.max 0 (- e)) in *. set (D := Z.pos d * 2 ^ Z.max 0 e) in *.
    assert (C : (0 < inject_Z (Zpos d) * P (Z.max 0 (- e)))%Q) by (pose proof (P_pos (Z.max 0 (- e))); nra).
    assert (DP : (inject_Z D == P e * (inject_Z (Zpos d) * P (Z.max 0 (- e))))%Q).
    { unfold D. rewrite inject_Z_mult, <- P_Z by lia. destruct (Z.le_gt_cases 0 e) as [H|H].
      - rewrite (Z.max_l 0 (- e)), (Z.max_r 0 e) by lia. change (P 0) with 1%Q. lra.
      - rewrite (Z.max_r 0 (- e)), (Z.max_l 0 e) by lia. change (P 0) with 1%Q. pose proof (P_inv e). nra. }
    assert (NP : (inject_Z N == x * (inject_Z (Zpos d) * P (Z.max 0 (- e))))%Q) by (unfold N; rewrite inject_Z_mult, <- P_Z by lia; rewrite <- Ex; lra).
    set (c := (inject_Z (Zpos d) * P (Z.max 0 (- e)))%Q) in *.
    assert (HD : 0 < D) by (unfold D; assert (0 < 2 ^ Z.max 0 e) by (apply Z.pow_pos_nonneg; lia); lia).
    assert (T : forall j, (Qabs (inject_Z j * P e - x) * c == inject_Z (Z.abs (j * D - N)))%Q).
    { intros j. rewrite <- (Qabs_pos c) at 1 by lra. rewrite <- Qabs_Qmult. change (inject_Z (Z.abs (j * D - N))) with (Qabs (inject_Z (j * D - N))). apply Qabs_wd. unfold Zminus. rewrite inject_Z_plus, inject_Z_opp, inject_Z_mult, DP, NP. lra. }
    split; [|split].
    + pose proof (rne_half N D HD) as H. fold m in H. rewrite Zle_Qle in H. replace (Z.abs (2 * (m * D - N))) with (2 * Z.abs (m * D - N)) in H by lia. rewrite inject_Z_mult, <- T, DP in H. change (inject_Z 2) with (2#1) in H. apply Qmult_lt_0_le_reg_r with (z := c); auto. setoid_replace (P e / 2 * c)%Q with ((1 # 2) * (P e * c))%Q by field. lra.
    + intros j. pose proof (rne_best N D j HD) as H. fold m in H. rewrite Zle_Qle, <- !T in H. apply Qmult_lt_0_le_reg_r with (z := c); auto.
    + intros H. apply (rne_even N D HD). fold m. specialize (T m). rewrite H in T. setoid_replace (P e / 2 * c)%Q with ((1 # 2) * (P e * c))%Q in T by field. rewrite <- DP in T.
      assert (U : (inject_Z D == inject_Z (2 * Z.abs (m * D - N)))%Q) by (rewrite inject_Z_mult; change (inject_Z 2) with (2#1); lra). unfold Qeq in U. cbn [Qnum Qden inject_Z] in U. lia.
Qed.
Lemma Qabs_0 x : (x == 0)%Q -> (Qabs x == 0)%Q. Proof. intros ->. reflexivity. Qed.
Theorem rnd_nearest x : nearest f x (rnd f x).
Proof.
  destruct (Qeq_dec x 0) as [E|N].
  - rewrite (rnd_eq _ _ E), rnd_0. split; [apply number_0|]. intros z _. rewrite (Qabs_0 (0 - x)) by lra. apply Qabs_nonneg.
  - destruct (rnd_form x N) as (k & e & m & [K1 K2] & Ee & R & H & B & _). 
    assert (Hm : Z.abs m <= 2 ^ prec f).
    { (* 2^p * P e is a multiple that is not less than |x| *)
      assert (T : (Qabs x <= inject_Z (2 ^ prec f) * P e)%Q). { rewrite <- P_Z, <- P_plus by lia. apply Qle_trans with (P (k + 1)); [lra|]. apply P_le. lia. }
      assert (H2 : (Qabs (inject_Z m * P e) <= Qabs x + P e / 2)%Q). { apply Qle_trans with (Qabs (inject_Z m * P e - x) + Qabs x)%Q; [|lra]. eapply Qle_trans; [|apply Qabs_triangle]. apply Qle_lteq. right. apply Qabs_wd. lra. }
      rewrite Qabs_Qmult, (Qabs_pos (P e)) in H2 by (pose proof (P_pos e); lra). change (Qabs (inject_Z m)) with (inject_Z (Z.abs m)) in H2. pose proof (P_pos e).
      assert (H3 : (inject_Z (Z.abs m) * P e <= (inject_Z (2 ^ prec f) + (1 # 2)) * P e)%Q). { apply Qle_trans with (Qabs x + P e / 2)%Q; auto. rewrite Qmult_plus_distr_l. setoid_replace (P e / 2)%Q with ((1 # 2) * P e)%Q by field. apply Qplus_le_l. exact T. }
      apply Qmult_lt_0_le_reg_r in H3; auto. assert (H4 : (inject_Z (Z.abs m) < inject_Z (2 ^ prec f + 1))%Q) by (rewrite inject_Z_plus; change (inject_Z 1) with 1%Q; lra). rewrite <- Zlt_Qlt in H4. lia. }
    split.
    + eapply number_eq; [symmetry; exact R|]. apply number_scaled; auto. lia.
    + intros z (m' & e' & M' & E' & Z'). rewrite R. destruct (Z.le_gt_cases e e') as [C|C].
      * (* a multiple *) rewrite Z'. replace e' with ((e' - e) + e) by lia. rewrite P_plus, (P_Z (e' - e)) by lia.
        eapply Qle_trans; [apply (B (m' * 2 ^ (e' - e)))|]. apply Qle_lteq. right. apply Qabs_wd. rewrite inject_Z_mult. lra.
      * (* beneath the binade of x *)
        assert (Ek : e = k - (prec f - 1)) by lia.
        assert (Zk : (Qabs z <= P k)%Q).
        { rewrite Z', Qabs_Qmult, (Qabs_pos (P e')) by (pose proof (P_pos e'); lra). change (Qabs (inject_Z m')) with (inject_Z (Z.abs m')).
          replace k with (prec f + (e - 1)) by lia. rewrite P_plus, (P_Z (prec f)) by lia. assert (inject_Z (Z.abs m') <= inject_Z (2 ^ prec f))%Q by (rewrite <- Zle_Qle; lia). pose proof (P_le e' (e - 1) ltac:(lia)). pose proof (P_pos e'). pose proof (P_pos (e - 1)). assert (0 <= inject_Z (Z.abs m'))%Q by (change 0%Q with (inject_Z 0); rewrite <- Zle_Qle; lia). nra. }
        assert (W : (P k == inject_Z (2 ^ (prec f - 1)) * P e)%Q) by (rewrite <- P_Z, <- P_plus by lia; replace (prec f - 1 + e) with k by lia; reflexivity).
        destruct (Qlt_le_dec x 0) as [S|S].
        -- eapply Qle_trans; [apply (B (- 2 ^ (prec f - 1)))|]. rewrite inject_Z_opp. setoid_replace (- inject_Z (2 ^ (prec f - 1)) * P e - x)%Q with (- P k - x)%Q by (rewrite W; lra).
           rewrite (Qabs_neg x) in * by lra. rewrite (Qabs_pos (- P k - x)) by lra. assert (Zl := Qle_Qabs (- z)). rewrite Qabs_opp in Zl. rewrite (Qabs_pos (z - x)) by lra. lra.
        -- eapply Qle_trans; [apply (B (2 ^ (prec f - 1)))|]. rewrite <- W. rewrite (Qabs_pos x) in * by lra. rewrite (Qabs_neg (P k - x)) by lra. assert (Zl := Qle_Qabs z). rewrite (Qabs_neg (z - x)) by lra. lra.
Qed.
(** Of two nearest numbers it is the even multiple of their distance. *)
Theorem rnd_even x y : number f y -> ~ (y == rnd f x)%Q -> (Qabs (y - x) == Qabs (rnd f x - x))%Q -> exists m, (rnd f x == inject_Z (2 * m) * Qabs (y - rnd f x))%Q.
Proof.
  intros Ny Ne D. destruct (Qeq_dec x 0) as [E|N].
  - exists 0. rewrite (rnd_eq _ _ E), rnd_0. change (inject_Z (2 * 0)) with 0%Q. lra.
  - destruct (rnd_form x N) as (k & e & m & [K1 K2] & Ee & R & H & B & V). pose proof (P_pos e) as Pe. destruct Ny as (m' & e' & M' & E' & Z').
    assert (J : exists j, (y == inject_Z j * P e)%Q).
    { destruct (Z.le_gt_cases e e') as [C|C].
      - exists (m' * 2 ^ (e' - e)). rewrite Z'. replace e' with ((e' - e) + e) at 1 by lia. rewrite P_plus, (P_Z (e' - e)), inject_Z_mult by lia. lra.
      - assert (Ek : e = k - (prec f - 1)) by lia.
        assert (Zk : (Qabs y <= P k)%Q).
        { rewrite Z', Qabs_Qmult, (Qabs_pos (P e')) by (pose proof (P_pos e'); lra). change (Qabs (inject_Z m')) with (inject_Z (Z.abs m')).
          replace k with (prec f + (e - 1)) by lia. rewrite P_plus, (P_Z (prec f)) by lia. assert (inject_Z (Z.abs m') <= inject_Z (2 ^ prec f))%Q by (rewrite <- Zle_Qle; lia). pose proof (P_le e' (e - 1) ltac:(lia)). pose proof (P_pos e'). pose proof (P_pos (e - 1)). assert (0 <= inject_Z (Z.abs m'))%Q by (change 0%Q with (inject_Z 0); rewrite <- Zle_Qle; lia). nra. }
        assert (W : (P k == inject_Z (2 ^ (prec f - 1)) * P e)%Q) by (rewrite <- P_Z, <- P_plus by lia; replace (prec f - 1 + e) with k by lia; reflexivity). rewrite R in D.
        destruct (Qlt_le_dec x 0) as [S|S].
        + exists (- 2 ^ (prec f - 1)). specialize (B (- 2 ^ (prec f - 1))). rewrite inject_Z_opp in *. rewrite <- D in B. assert (Wn : (- inject_Z (2 ^ (prec f - 1)) * P e == - P k)%Q) by (rewrite W; lra). rewrite Wn in B. rewrite Wn.
          rewrite (Qabs_neg x) in * by lra. rewrite (Qabs_pos (- P k - x)) in B by lra. assert (Zl := Qle_Qabs (- y)). rewrite Qabs_opp in Zl. rewrite (Qabs_pos (y - x)) in B by lra. lra.
        + exists (2 ^ (prec f - 1)). specialize (B (2 ^ (prec f - 1))). rewrite <- D, <- W in B. rewrite <- W. rewrite (Qabs_pos x) in * by lra. rewrite (Qabs_neg (P k - x)) in B by lra. assert (Zl := Qle_Qabs y). rewrite (Qabs_neg (y - x)) in B by lra. lra. }
    destruct J as [j Hj]. rewrite R in D. assert (NJ : j <> m) by (intros ->; apply Ne; rewrite Hj, R; reflexivity).
    assert (G : (P e <= Qabs (inject_Z j * P e - inject_Z m * P e))%Q).
    { setoid_replace (inject_Z j * P e - inject_Z m * P e)%Q with (inject_Z (j - m) * P e)%Q by (unfold Zminus; rewrite inject_Z_plus, inject_Z_opp; ring). rewrite Qabs_Qmult, (Qabs_pos (P e)) by lra. change (Qabs (inject_Z (j - m))) with (inject_Z (Z.abs (j - m))). assert (inject_Z 1 <= inject_Z (Z.abs (j - m)))%Q by (rewrite <- Zle_Qle; lia). change (inject_Z 1) with 1%Q in *. nra. }
    assert (U : (Qabs (inject_Z j * P e - inject_Z m * P e) <= Qabs (y - x) + Qabs (inject_Z m * P e - x))%Q).
    { rewrite (Qabs_Qminus (inject_Z m * P e)). eapply Qle_trans; [|apply Qabs_triangle]. apply Qle_lteq. right. apply Qabs_wd. rewrite Hj. ring. }
    assert (Hf : (P e / 2 == (1 # 2) * P e)%Q) by field. assert (T : (Qabs (inject_Z m * P e - x) == P e / 2)%Q) by lra. specialize (V T). apply Z.even_spec in V as [h ->]. exists h. rewrite R.
    assert (X : (Qabs (y - inject_Z (2 * h) * P e) == P e)%Q) by (rewrite Hj; lra). rewrite X. reflexivity.
Qed.
Lemma rnd_number x : number f (rnd f x). Proof. apply rnd_nearest. Qed.
Lemma rnd_exact x : number f x -> (rnd f x == x)%Q.
Proof.
  intros N. destruct (rnd_nearest x) as [_ B]. specialize (B x N). setoid_replace (x - x)%Q with 0%Q in B by lra. change (Qabs 0) with 0%Q in B. apply Qabs_Qle_condition in B. lra.
Qed.
Lemma nearer_above a b x : (Qabs (a - x) <= Qabs (b - x) -> b < a -> a + b <= 2 * x)%Q.
Proof. intros H L. destruct (Qlt_le_dec a x); [lra|]. rewrite (Qabs_pos (a - x)) in H by lra. destruct (Qlt_le_dec b x); [rewrite (Qabs_neg (b - x)) in H by lra; lra|]. rewrite (Qabs_pos (b - x)) in H by lra. lra. Qed.
Lemma nearer_beneath a b x : (Qabs (a - x) <= Qabs (b - x) -> a < b -> 2 * x <= a + b)%Q.
Proof. intros H L. destruct (Qlt_le_dec x a); [lra|]. rewrite (Qabs_neg (a - x)) in H by lra. destruct (Qlt_le_dec x b); [rewrite (Qabs_pos (b - x)) in H by lra; lra|]. rewrite (Qabs_neg (b - x)) in H by lra. lra. Qed.
Lemma rnd_mono x y : (x <= y)%Q -> (rnd f x <= rnd f y)%Q.
Proof.
  intros H. apply Qle_lteq in H as [H|H]; [|rewrite (rnd_eq _ _ H); lra]. apply Qnot_lt_le. intros C.
  destruct (rnd_nearest x) as [N1 B1], (rnd_nearest y) as [N2 B2]. specialize (B1 _ N2). specialize (B2 _ N1). apply nearer_above in B1; auto. apply nearer_beneath in B2; auto. lra.
Qed.
Lemma number_int z : Z.abs z <= 2 ^ prec f -> emin f <= 0 -> number f (inject_Z z).
Proof. intros A B. eapply number_eq; [|apply (number_scaled z 0); auto]. change (P 0) with 1%Q. lra. Qed.
Lemma rnd_int z : Z.abs z <= 2 ^ prec f -> emin f <= 0 -> (rnd f (inject_Z z) == inject_Z z)%Q.
Proof. intros A B. now apply rnd_exact, number_int. Qed.
(** Relative error of numbers that are not too small *)
Lemma rnd_error x : (P (emin f + prec f - 1) <= Qabs x)%Q -> (Qabs (rnd f x - x) <= Qabs x * P (- prec f))%Q.
Proof.
  intros Hx. destruct (Qeq_dec x 0) as [E|N]. { pose proof (P_pos (emin f + prec f - 1)). rewrite E in Hx. change (Qabs 0) with 0%Q in Hx. lra. }
  destruct (rnd_form x N) as (k & e & m & [K1 K2] & Ee & R & H & _). rewrite R. eapply Qle_trans; [exact H|].
  assert (Hk : emin f + prec f - 1 <= k). { destruct (Z.le_gt_cases (emin f + prec f - 1) k) as [L|L]; auto. pose proof (P_le (k + 1) (emin f + prec f - 1) ltac:(lia)). lra. }
  replace e with (k + (1 + - prec f)) by lia. rewrite !P_plus. change (P 1) with (2#1). pose proof (P_pos (- prec f)). pose proof (P_pos k). setoid_replace (P k * ((2 # 1) * P (- prec f)) / 2)%Q with (P k * P (- prec f))%Q by field. nra.
Qed.
End Rnd.
