(** Decimals and doubles (C70, C71). *)
From Coq Require Import QArith Qabs Qpower Lqa ZifyBool ZifyNat.
From Verif Require Import Common DecimalModel DecimalSpec DecimalProofs FloatModel FloatProofs DecFloatModel.
Local Open Scope Z_scope.

(** ** Rounding to integers *)
Definition whole (z : Z) : Q := inject_Z z.
Lemma whole_lt a b : (whole a < whole b)%Q <-> a < b. Proof. unfold whole. rewrite <- Zlt_Qlt. tauto. Qed.
Lemma whole_le a b : (whole a <= whole b)%Q <-> a <= b. Proof. unfold whole. rewrite <- Zle_Qle. tauto. Qed.
Lemma whole_lt1 a b : (whole a < whole b)%Q -> a < b. Proof. apply whole_lt. Qed.
Lemma whole_le1 a b : (whole a <= whole b)%Q -> a <= b. Proof. apply whole_le. Qed.
Lemma whole_le2 a b : a <= b -> (whole a <= whole b)%Q. Proof. apply whole_le. Qed.
Lemma whole_1 a : (whole (a + 1) == whole a + 1)%Q. Proof. unfold whole. now rewrite inject_Z_plus. Qed.
Lemma qfloor_spec x : (whole (qfloor x) <= x < whole (qfloor x) + 1)%Q.
Proof.
  destruct x as [n d]. unfold qfloor, whole. cbn [Qnum Qden]. pose proof (Z.div_mod n (Zpos d) ltac:(lia)). pose proof (Z.mod_pos_bound n (Zpos d) ltac:(lia)).
  unfold Qle, Qlt, inject_Z, Qplus. cbn [Qnum Qden]. nia.
Qed.
Lemma qceil_spec x : (whole (qceil x) - 1 < x <= whole (qceil x))%Q.
Proof.
  destruct x as [n d]. unfold qceil, whole. cbn [Qnum Qden]. pose proof (Z.div_mod (- n) (Zpos d) ltac:(lia)). pose proof (Z.mod_pos_bound (- n) (Zpos d) ltac:(lia)).
  unfold Qle, Qlt, inject_Z, Qminus, Qplus, Qopp. cbn [Qnum Qden]. nia.
Qed.
Lemma qtrunc_pos x : (0 <= x)%Q -> qtrunc x = qfloor x.
Proof. destruct x as [n d]. unfold Qle, qtrunc, qfloor. cbn [Qnum Qden]. intros H. apply Z.quot_div_nonneg; lia. Qed.
Lemma qtrunc_neg x : (x <= 0)%Q -> qtrunc x = qceil x.
Proof. destruct x as [n d]. unfold Qle, qtrunc, qceil. cbn [Qnum Qden]. intros H. rewrite <- (Z.opp_involutive n) at 1. rewrite Z.quot_opp_l, Z.quot_div_nonneg by lia. lia. Qed.
Lemma qround_spec x : (Qabs (whole (qround x) - x) <= 1 # 2)%Q.
Proof.
  destruct x as [n d]. unfold qround, whole. cbn [Qnum Qden].
  assert (B : - Zpos d <= 2 * (Z.sgn n * ((2 * Z.abs n + Zpos d) / (2 * Zpos d)) * Zpos d - n) <= Zpos d).
  { pose proof (Z.div_mod (2 * Z.abs n + Zpos d) (2 * Zpos d) ltac:(lia)). pose proof (Z.mod_pos_bound (2 * Z.abs n + Zpos d) (2 * Zpos d) ltac:(lia)). set (q := (2 * Z.abs n + Zpos d) / (2 * Zpos d)) in *. set (r := (2 * Z.abs n + Zpos d) mod (2 * Zpos d)) in *. clearbody q r. destruct (Z.sgn_spec n) as [[S ->]|[[S ->]|[S ->]]].
    - rewrite Z.abs_eq in * by lia. nia.
    - subst n. nia.
    - rewrite Z.abs_neq in * by lia. nia. }
  set (z := Z.sgn n * _) in *. apply Qabs_Qle_condition. unfold Qle, Qminus, Qplus, Qopp, inject_Z. cbn [Qnum Qden]. rewrite ?Pos2Z.inj_mul. lia.
Qed.
Lemma near_unique a b x : (Qabs (whole a - x) <= 1 # 2 -> Qabs (whole b - x) < 1 # 2 -> a = b)%Q.
Proof.
  intros A B. apply Qabs_Qle_condition in A. apply Qabs_Qlt_condition in B. assert (C1 : (whole a < whole (b + 1))%Q) by (rewrite whole_1; lra). assert (C2 : (whole b < whole (a + 1))%Q) by (rewrite whole_1; lra). apply whole_lt1 in C1, C2.
  lia.
Qed.
Lemma floor_unique a x : (whole a <= x < whole a + 1)%Q -> qfloor x = a.
Proof. intros H. destruct (qfloor_spec x) as [A B]. assert (C1 : (whole (qfloor x) < whole (a + 1))%Q) by (rewrite whole_1; lra). assert (C2 : (whole a < whole (qfloor x + 1))%Q) by (rewrite whole_1; lra). apply whole_lt1 in C1, C2. lia. Qed.

(** ** Denominators *)
Definition tens (e : nat) : Q := whole (10 ^ Z.of_nat e).
Lemma tens_pos e : (1 <= tens e)%Q. Proof. unfold tens. change 1%Q with (whole 1). apply whole_le. pose proof (pow10_pos e). lia. Qed.
Lemma value_tens d : (value d * tens (ex d) == whole (signed d))%Q.
Proof. unfold value, tens, whole, ten. pose proof (pow10_pos (ex d)). unfold Qeq, Qmult, inject_Z. cbn [Qnum Qden]. rewrite Pos.mul_1_r, Z2Pos.id by lia. lia. Qed.
Lemma value_div d : (value d == whole (signed d) / tens (ex d))%Q.
Proof. rewrite <- value_tens. pose proof (tens_pos (ex d)). field. lra. Qed.
Lemma unit_tens e : (unit_of e * tens e == 1)%Q.
Proof. unfold unit_of, tens, whole, ten. pose proof (pow10_pos e). unfold Qeq, Qmult, inject_Z. cbn [Qnum Qden]. rewrite Pos.mul_1_r, Z2Pos.id by lia. lia. Qed.
Lemma number_ten e : (e <= 22)%nat -> number binary64 (tens e).
Proof.
  intros H. exists (5 ^ Z.of_nat e), (Z.of_nat e). split; [|split; [cbn; lia|]].
  - rewrite Z.abs_eq by (apply Z.pow_nonneg; lia). apply Z.le_lt_trans with (5 ^ 22); [apply Z.pow_le_mono_r; lia|reflexivity].
  - unfold tens, whole. rewrite P_Z by lia. rewrite <- inject_Z_mult, <- Z.pow_mul_l. reflexivity.
Qed.
Lemma tens_bound e : (e <= 22)%nat -> (tens e <= P 80)%Q.
Proof.
  intros H. assert (L : 10 ^ Z.of_nat e <= 2 ^ 80) by (transitivity (10 ^ 22); [apply Z.pow_le_mono_r; lia|now apply Z.leb_le]).
  rewrite P_Z by lia. exact (whole_le2 _ _ L).
Qed.
Section D.
Context (c : cfg) (Hc : good c).
Lemma denom_exact e : (e < 2 ^ X c)%nat -> (e <= 22)%nat -> (denom_double c e == tens e)%Q.
Proof. intros H1 H2. unfold denom_double, fl. rewrite denom_eq by auto. change (inject_Z (10 ^ Z.of_nat e)) with (tens e). apply rnd_exact; [cbn; lia|]. now apply number_ten. Qed.
Notation u := (1 # 9007199254740992)%Q.
Lemma fl_error x : (P (-1022) <= Qabs x)%Q -> (Qabs (fl x - x) <= Qabs x * u)%Q.
Proof. intros H. apply (rnd_error binary64) in H. exact H. Qed.
Lemma fl_whole z : Z.abs z <= 2 ^ 53 -> (fl (whole z) == whole z)%Q.
Proof. intros H. apply rnd_int; cbn [prec emin binary64]; lia. Qed.
Lemma fl_eq x y : (x == y)%Q -> fl x = fl y. Proof. apply rnd_eq. Qed.
Lemma fl_mono x y : (x <= y)%Q -> (fl x <= fl y)%Q. Proof. apply rnd_mono. cbn; lia. Qed.
Lemma mantissa_signed d : mantissa d = signed d. Proof. reflexivity. Qed.
Lemma to_double_value d : wf c d -> Z.abs (signed d) <= 2 ^ 53 -> (ex d <= 22)%nat -> to_double c d = fl (value d).
Proof.
  intros [H1 _] H2 H3. unfold to_double. apply fl_eq. rewrite mantissa_signed. change (inject_Z (signed d)) with (whole (signed d)). rewrite fl_whole, denom_exact by auto. now rewrite value_div.
Qed.

(** ** From decimals *)
(** With at most 53 bits the double is one that is nearest to the decimal, *)
Theorem decimal_to_double_partial d : wf c d -> Z.abs (signed d) <= 2 ^ 53 -> (ex d <= 22)%nat -> nearest binary64 (value d) (to_double c d).
Proof. intros A B C. rewrite to_double_value by auto. apply rnd_nearest. cbn; lia. Qed.
(** and the order is kept. *)
Theorem decimal_to_double_order_partial a b : wf c a -> wf c b -> Z.abs (signed a) <= 2 ^ 53 -> Z.abs (signed b) <= 2 ^ 53 -> (ex a <= 22)%nat -> (ex b <= 22)%nat ->
  (value a <= value b)%Q -> (to_double c a <= to_double c b)%Q.
Proof. intros. rewrite !to_double_value by auto. now apply fl_mono. Qed.
Lemma value_normal d : signed d <> 0 -> (ex d <= 22)%nat -> (P (-80) <= Qabs (value d))%Q.
Proof.
  intros N E. pose proof (value_tens d) as V. pose proof (tens_pos (ex d)). pose proof (tens_bound (ex d) E) as B. pose proof (P_inv 80) as I. pose proof (P_pos 80). change (- (80)) with (-80) in I.
  assert (A : (1 <= Qabs (value d) * tens (ex d))%Q). { rewrite <- (Qabs_pos (tens (ex d))) at 1 by lra. rewrite <- Qabs_Qmult, V. change (Qabs (whole (signed d))) with (whole (Z.abs (signed d))). change 1%Q with (whole 1). apply whole_le. lia. }
  pose proof (Qabs_nonneg (value d)). pose proof (P_pos (-80)). assert (1 <= Qabs (value d) * P 80)%Q by nra. nra.
Qed.

(** ** To decimals *)
Lemma set_blank digits m : (digits < 2 ^ X c)%nat -> Z.abs m <= max_man c -> exists d, set_mantissa c (blank c digits) m = Ok d /\ wf c d /\ ex d = digits /\ signed d = m /\ neg d = (m <? 0).
Proof.
  intros Hd Hm. assert (Hp : 0 < p2 (man_len c)) by (apply Z.pow_pos_nonneg; lia). unfold max_man in Hm. unfold set_mantissa. destruct Hc as (_ & HW & _).
  assert (K : p2 (man_len c) <= p2 (W c - 1)) by (apply Z.pow_le_mono_r; unfold man_len; lia).
  destruct (Z.leb_spec 0 m) as [H|H].
  - eexists. split; [reflexivity|]. unfold wf, signed, blank. cbn [ex man neg]. rewrite !Nat.mod_small by auto. rewrite Z.mod_small by lia. unfold p2, man_len in *. repeat split; auto; lia.
  - unfold guard, is_int. rewrite (proj2 (Z.leb_le _ _)), (proj2 (Z.ltb_lt _ _)) by lia. cbn [andb]. eexists. split; [reflexivity|]. unfold wf, signed, blank. cbn [ex man neg]. rewrite !Nat.mod_small by auto. rewrite Z.mod_small by lia. unfold p2, man_len in *. repeat split; auto; lia.
Qed.
Lemma to_integer_ok bits z m : Z.abs z <= m -> m < 2 ^ Z.of_nat (bits - 1) -> to_integer bits z = Ok z.
Proof. intros A B. unfold to_integer, guard. rewrite (proj2 (Z.leb_le _ _)), (proj2 (Z.ltb_lt _ _)) by lia. reflexivity. Qed.
Lemma wrap_ok bits z m : (0 < bits)%nat -> Z.abs z <= m -> m < 2 ^ Z.of_nat (bits - 1) -> wrap bits z = z.
Proof. intros A B C. unfold wrap. assert (2 ^ Z.of_nat bits = 2 * 2 ^ Z.of_nat (bits - 1)) by (rewrite <- Z.pow_succ_r by lia; f_equal; lia). rewrite Z.mod_small by lia. lia. Qed.
Lemma max_man_int : max_man c < 2 ^ Z.of_nat (W c - 1).
Proof. destruct Hc as (_ & HW & _). unfold max_man. assert (p2 (man_len c) <= 2 ^ Z.of_nat (W c - 1)) by (apply Z.pow_le_mono_r; unfold man_len; lia). lia. Qed.
Lemma blank_ex digits : (digits < 2 ^ X c)%nat -> ex (blank c digits) = digits. Proof. intros H. cbn. now apply Nat.mod_small. Qed.
(** The product with the denominator *)
Definition product (val : Q) (e : nat) : Q := fl (val * denom_double c e).
Lemma product_eq val e : (e < 2 ^ X c)%nat -> (e <= 22)%nat -> product val e = fl (val * tens e).
Proof. intros. apply fl_eq. now rewrite denom_exact. Qed.
(** stays between the same integers *)
Lemma product_between x n : Z.abs n <= 2 ^ 53 -> ((whole n <= x -> whole n <= fl x) /\ (x <= whole n -> fl x <= whole n))%Q.
Proof. intros H. pose proof (fl_whole n H) as E. split; intros K; apply fl_mono in K; lra. Qed.
(** What fits: the numbers of units have 53 bits and are in the mantissa. *)
Definition fits (val : Q) (e : nat) : Prop := (e < 2 ^ X c)%nat /\ (e <= 22)%nat /\ (Qabs (val * tens e) <= whole (Z.min (2 ^ 53) (max_man c)))%Q.
Lemma max_man_pos : 0 < max_man c.
Proof. destruct Hc as (H3 & HW & H). unfold max_man, man_len, p2. pose proof (pow10_pos (2 ^ X c - 1)). lia. Qed.
Lemma fits_product val e : fits val e -> (- whole (Z.min (2 ^ 53) (max_man c)) <= product val e <= whole (Z.min (2 ^ 53) (max_man c)))%Q.
Proof.
  intros (A & B & C). rewrite product_eq by auto. pose proof max_man_pos. set (M := Z.min (2 ^ 53) (max_man c)) in *. apply Qabs_Qle_condition in C as [C1 C2].
  assert (H1 := proj2 (product_between (val * tens e) M ltac:(unfold M; lia)) C2). assert (H2 := proj1 (product_between (val * tens e) (- M) ltac:(unfold M; lia))). unfold whole in H2. rewrite inject_Z_opp in H2. specialize (H2 C1). unfold whole in *. lra.
Qed.
(** The four ways to an integer *)
Inductive mode := Truncated | Rounded | Ceiled | Floored.
Definition integer (m : mode) (x : Q) : Z := match m with Truncated => qtrunc x | Rounded => qround x | Ceiled => qceil x | Floored => qfloor x end.
Definition convert (m : mode) (val : Q) (digits : nat) : res dec := match m with Truncated => make_truncated c val digits | Rounded => make_rounded c val digits | Ceiled => make_ceiled c val digits | Floored => make_floored c val digits end.
Lemma integer_between m x n : ((whole n <= x)%Q -> n <= integer m x) /\ ((x <= whole n)%Q -> integer m x <= n).
Proof.
  pose proof (qfloor_spec x) as [F1 F2]. pose proof (qceil_spec x) as [C1 C2]. pose proof (qround_spec x) as R. apply Qabs_Qle_condition in R as [R1 R2].
  assert (Fl : forall n, (whole n <= x)%Q -> n <= qfloor x) by (intros k H; assert (K : (whole k < whole (qfloor x + 1))%Q) by (rewrite whole_1; lra); apply whole_lt1 in K; lia).
  assert (Fu : forall n, (x <= whole n)%Q -> qfloor x <= n) by (intros k H; assert (K : (whole (qfloor x) <= whole k)%Q) by lra; now apply whole_le1 in K).
  assert (Cl : forall n, (whole n <= x)%Q -> n <= qceil x) by (intros k H; assert (K : (whole k <= whole (qceil x))%Q) by lra; now apply whole_le1 in K).
  assert (Cu : forall n, (x <= whole n)%Q -> qceil x <= n) by (intros k H; assert (K : (whole (qceil x) < whole (k + 1))%Q) by (rewrite whole_1; lra); apply whole_lt1 in K; lia).
  destruct m; cbn [integer]; auto.
  - destruct (Qlt_le_dec x 0) as [S|S]; [rewrite qtrunc_neg by lra|rewrite qtrunc_pos by lra]; auto.
  - split; intros H.
    + assert (K : (whole n < whole (qround x + 1))%Q) by (rewrite whole_1; lra). apply whole_lt1 in K. lia.
    + assert (K : (whole (qround x) < whole (n + 1))%Q) by (rewrite whole_1; lra). apply whole_lt1 in K. lia.
Qed.
Lemma convert_int m val e : (e < 2 ^ X c)%nat -> Z.abs (integer m (product val e)) <= max_man c -> (m = Rounded -> Z.abs (integer m (product val e)) < 2 ^ 63) ->
  exists d, convert m val e = Ok d /\ wf c d /\ ex d = e /\ signed d = integer m (product val e) /\ neg d = (integer m (product val e) <? 0).
Proof.
  intros A Z1 HR. pose proof max_man_int as MI. destruct (set_blank e _ A Z1) as (d & Ed & K). exists d. split; auto. destruct m; cbn [convert integer] in *;
    unfold make_truncated, assign, make_rounded, make_ceiled, make_floored; cbv zeta; rewrite blank_ex by auto; fold (product val e).
  - rewrite (to_integer_ok _ _ _ Z1 MI). exact Ed.
  - rewrite (to_integer_ok 64 _ (2 ^ 63 - 1)) by (specialize (HR eq_refl); cbn [Nat.sub]; lia). cbn [rbind]. rewrite (wrap_ok (W c) _ _ ltac:(destruct Hc as (? & ? & _); lia) Z1 MI). exact Ed.
  - rewrite (to_integer_ok _ _ _ Z1 MI). exact Ed.
  - rewrite (to_integer_ok _ _ _ Z1 MI). exact Ed.
Qed.
Lemma convert_ok m val e : fits val e -> exists d, convert m val e = Ok d /\ wf c d /\ ex d = e /\ signed d = integer m (product val e) /\ neg d = (integer m (product val e) <? 0).
Proof.
  intros F. pose proof (fits_product val e F) as [L U]. pose proof F as (A & B & _). pose proof max_man_pos.
  set (M := Z.min (2 ^ 53) (max_man c)) in *. assert (- M <= integer m (product val e)) by (apply integer_between; unfold whole in *; rewrite inject_Z_opp; auto). assert (integer m (product val e) <= M) by (apply integer_between; auto).
  apply convert_int; auto; lia.
Qed.
Lemma unit_pos e : (0 < unit_of e)%Q. Proof. reflexivity. Qed.
(** Every conversion gives one of the two decimals next to the double, *)
Theorem decimal_from_double_partial m val e : fits val e ->
  exists d, convert m val e = Ok d /\ wf c d /\ ex d = e /\ (Qabs (value d - val) < unit_of e)%Q.
Proof.
  intros F. destruct (convert_ok m val e F) as (d & E & W & Ex & S & _). exists d. repeat split; auto; try apply W.
  pose proof F as (A & B & C). pose proof max_man_pos. set (p := (val * tens e)%Q) in *. assert (PE : product val e = fl p) by (apply product_eq; auto). rewrite PE in S.
  pose proof (qfloor_spec p) as [F1 F2]. pose proof (qceil_spec p) as [C1 C2]. set (M := Z.min (2 ^ 53) (max_man c)) in *. apply Qabs_Qle_condition in C as [M1 M2].
  assert (HF : - M <= qfloor p <= M). { split; [apply (integer_between Floored p (- M)); unfold whole in *; rewrite inject_Z_opp; auto|apply (integer_between Floored p M); auto]. }
  assert (HC : - M <= qceil p <= M). { split; [apply (integer_between Ceiled p (- M)); unfold whole in *; rewrite inject_Z_opp; auto|apply (integer_between Ceiled p M); auto]. }
  assert (Lo : qfloor p <= signed d). { rewrite S. apply integer_between. apply (product_between p (qfloor p)); auto. lia. }
  assert (Hi : signed d <= qceil p). { rewrite S. apply integer_between. apply (product_between p (qceil p)); auto. lia. }
  apply whole_le2 in Lo; apply whole_le2 in Hi. pose proof (value_tens d) as V. rewrite Ex in V. pose proof (unit_tens e) as U. pose proof (tens_pos e). pose proof (unit_pos e).
  apply Qabs_Qlt_condition. unfold p in *. split.
  - apply Qmult_lt_r with (z := tens e); [lra|]. nra.
  - apply Qmult_lt_r with (z := tens e); [lra|]. nra.
Qed.
(** and the one that the name promises, if the product with the denominator is exact. *)
Theorem decimal_from_exact_double_partial m val e : fits val e -> number binary64 (val * tens e) ->
  exists d, convert m val e = Ok d /\ wf c d /\ ex d = e /\
  match m with
  | Truncated => (Qabs (value d) <= Qabs val < Qabs (value d) + unit_of e)%Q /\ (0 <= val -> 0 <= value d)%Q /\ (val <= 0 -> value d <= 0)%Q
  | Rounded => (Qabs (value d - val) <= unit_of e / 2)%Q
  | Ceiled => (value d - unit_of e < val <= value d)%Q
  | Floored => (value d <= val < value d + unit_of e)%Q
  end.
Proof.
  intros F N. destruct (convert_ok m val e F) as (d & E & W & Ex & S & _). exists d. repeat split; auto; try apply W.
  pose proof F as (A & B & _). set (p := (val * tens e)%Q) in *. assert (PE : product val e = fl p) by (apply product_eq; auto). assert (PX : (fl p == p)%Q) by (apply rnd_exact; [cbn; lia|auto]). rewrite PE in S.
  pose proof (value_tens d) as V. rewrite Ex, S in V. pose proof (unit_tens e) as U. pose proof (tens_pos e). pose proof (unit_pos e). assert (T : (0 < tens e)%Q) by lra.
  assert (LT : forall a b, (a * tens e < b * tens e -> a < b)%Q) by (intros a b; apply Qmult_lt_r; auto). assert (LE : forall a b, (a * tens e <= b * tens e -> a <= b)%Q) by (intros a b; apply Qmult_le_r; auto).
  destruct m; cbn [integer] in *.
  - assert (Y : (0 <= val -> value d <= val < value d + unit_of e /\ 0 <= value d)%Q).
    { intros Hv. assert (0 <= fl p)%Q by (rewrite PX; unfold p; nra). rewrite qtrunc_pos in V by auto. pose proof (qfloor_spec (fl p)) as [F1 F2]. assert (0 <= qfloor (fl p)) by (apply (integer_between Floored (fl p) 0); auto). assert (0 <= whole (qfloor (fl p)))%Q by (now apply (whole_le 0)).
      repeat split; [apply LE|apply LT|apply LE]; unfold p in *; nra. }
    assert (Y' : (val <= 0 -> value d - unit_of e < val <= value d /\ value d <= 0)%Q).
    { intros Hv. assert (fl p <= 0)%Q by (rewrite PX; unfold p; nra). rewrite qtrunc_neg in V by auto. pose proof (qceil_spec (fl p)) as [F1 F2]. assert (qceil (fl p) <= 0) by (apply (integer_between Ceiled (fl p) 0); auto). assert (whole (qceil (fl p)) <= 0)%Q by (now apply (whole_le _ 0)).
      repeat split; [apply LT|apply LE|apply LE]; unfold p in *; nra. }
    destruct (Qlt_le_dec val 0) as [Sg|Sg].
    + destruct Y' as [[Y1 Y2] Y3]; [lra|]. rewrite (Qabs_neg val), (Qabs_neg (value d)) by lra. repeat split; intros; lra.
    + destruct Y as [[Y1 Y2] Y3]; [lra|]. rewrite (Qabs_pos val), (Qabs_pos (value d)) by lra. split; [lra|]. split; intros; [lra|]. assert (val == 0)%Q by lra. apply Y'. lra.
  - pose proof (qround_spec (fl p)) as R. apply Qabs_Qle_condition in R as [R1 R2]. apply Qabs_Qle_condition. setoid_replace (unit_of e / 2)%Q with ((1 # 2) * unit_of e)%Q by field. split; apply LE; unfold p in *; nra.
  - pose proof (qceil_spec (fl p)) as [F1 F2]. split; [apply LT|apply LE]; unfold p in *; nra.
  - pose proof (qfloor_spec (fl p)) as [F1 F2]. split; [apply LE|apply LT]; unfold p in *; nra.
Qed.
(** Between 2^52 and 2^53 units the double is the nearest integer, the even one of two, whatever the mode. *)
Theorem decimal_from_large_double_partial m val e : fits val e -> (whole (2 ^ 52) <= Qabs (val * tens e))%Q ->
  exists d, convert m val e = Ok d /\ wf c d /\ ex d = e /\ (Qabs (whole (signed d) - val * tens e) <= 1 # 2)%Q /\ ((Qabs (whole (signed d) - val * tens e) == 1 # 2)%Q -> Z.even (signed d) = true).
Proof.
  intros F L. destruct (convert_ok m val e F) as (d & E & W & Ex & S & _). exists d. split; auto. split; auto. split; auto. pose proof F as (A & B & C). rewrite S, product_eq by auto. set (p := (val * tens e)%Q) in *.
  assert (C53 : (Qabs p <= whole (2 ^ 53))%Q) by (eapply Qle_trans; [exact C|]; apply whole_le2; lia). clear C S E.
  assert (I : exists z, (fl p == whole z)%Q /\ Z.abs z <= 2 ^ 53).
  { assert (Fl : (whole (2 ^ 52) <= Qabs (fl p))%Q /\ (Qabs (fl p) <= whole (2 ^ 53))%Q).
    { pose proof (fl_whole (2 ^ 52) ltac:(lia)). pose proof (fl_whole (- 2 ^ 52) ltac:(lia)). pose proof (fl_whole (2 ^ 53) ltac:(lia)). pose proof (fl_whole (- 2 ^ 53) ltac:(lia)).
      change (whole (2 ^ 52)) with (4503599627370496 # 1)%Q in *. change (whole (- 2 ^ 52)) with (-4503599627370496 # 1)%Q in *. change (whole (2 ^ 53)) with (9007199254740992 # 1)%Q in *. change (whole (- 2 ^ 53)) with (-9007199254740992 # 1)%Q in *.
      destruct (Qlt_le_dec p 0) as [Sg|Sg].
      - rewrite (Qabs_neg p) in * by lra. assert (K1 := fl_mono p (-4503599627370496 # 1)%Q ltac:(lra)). assert (K2 := fl_mono (-9007199254740992 # 1)%Q p ltac:(lra)). rewrite (Qabs_neg (fl p)) by lra. lra.
      - rewrite (Qabs_pos p) in * by lra. assert (K1 := fl_mono (4503599627370496 # 1)%Q p ltac:(lra)). assert (K2 := fl_mono p (9007199254740992 # 1)%Q ltac:(lra)). rewrite (Qabs_pos (fl p)) by lra. lra. }
    destruct Fl as [F1 F2]. destruct (rnd_number binary64 ltac:(cbn; lia) p) as (k & x & K1 & K2 & K3). fold (fl p) in K3. change (2 ^ prec binary64) with (2 ^ 53) in K1.
    assert (X0 : 0 <= x). { destruct (Z.le_gt_cases 0 x) as [?|G]; auto. exfalso. rewrite K3, Qabs_Qmult, (Qabs_pos (P x)) in F1 by (pose proof (P_pos x); lra). change (Qabs (inject_Z k)) with (whole (Z.abs k)) in F1. assert (P x <= 1 # 2)%Q by exact (P_le x (-1) ltac:(lia)). assert (whole (Z.abs k) <= whole (2 ^ 53 - 1))%Q by (apply whole_le2; lia). change (whole (2 ^ 53 - 1)) with (9007199254740991 # 1)%Q in *. change (whole (2 ^ 52)) with (4503599627370496 # 1)%Q in *. pose proof (P_pos x). assert (0 <= whole (Z.abs k))%Q by (apply (whole_le2 0); lia). nra. }
    assert (FZ : (fl p == whole (k * 2 ^ x))%Q) by (rewrite K3, P_Z by auto; unfold whole; rewrite inject_Z_mult; reflexivity). exists (k * 2 ^ x). split; auto. rewrite FZ in F2. apply (whole_le1 (Z.abs (k * 2 ^ x)) (2 ^ 53)) in F2. exact F2. }
  destruct I as (z & Ez & Bz). assert (Iz : integer m (fl p) = z).
  { destruct (integer_between m (fl p) z) as [I1 I2]. assert (z <= integer m (fl p)) by (apply I1; lra). assert (integer m (fl p) <= z) by (apply I2; lra). lia. }
  rewrite Iz. assert (Nr := rnd_nearest binary64 ltac:(cbn; lia) p). destruct Nr as [_ Nr]. fold (fl p) in Nr.
  assert (NN : forall j, Z.abs j <= 2 ^ 53 -> number binary64 (whole j)) by (intros j Hj; apply number_int; cbn; lia). pose proof (qfloor_spec p) as [Q1 Q2].
  assert (PB := C53). apply Qabs_Qle_condition in PB as [P1 P2]. assert (J0 : - 2 ^ 53 <= qfloor p) by (apply (integer_between Floored p (- 2 ^ 53)); unfold whole in *; rewrite inject_Z_opp; exact P1). assert (J1 : qfloor p <= 2 ^ 53) by (apply whole_le1; lra).
  assert (HH : (Qabs (whole z - p) <= 1 # 2)%Q).
  { destruct (Qlt_le_dec p (whole (qfloor p) + (1 # 2))) as [Lo|Hi].
    - specialize (Nr (whole (qfloor p)) (NN (qfloor p) ltac:(lia))). rewrite Ez in Nr. eapply Qle_trans; [exact Nr|]. apply Qabs_Qle_condition. lra.
    - assert (J2 : qfloor p + 1 <= 2 ^ 53). { assert (qfloor p < 2 ^ 53); [|lia]. apply whole_lt1. lra. } specialize (Nr (whole (qfloor p + 1)) (NN (qfloor p + 1) ltac:(lia))). rewrite Ez in Nr. eapply Qle_trans; [exact Nr|]. rewrite whole_1. apply Qabs_Qle_condition. lra. }
  split; auto. intros T. set (y := if Qlt_le_dec p (whole z) then z - 1 else z + 1).
  assert (Yd : (Qabs (whole y - p) == 1 # 2)%Q /\ (Qabs (whole y - whole z) == 1)%Q).
  { unfold y. destruct (Qlt_le_dec p (whole z)) as [Lo|Hi].
    - rewrite Qabs_pos in T by lra. assert (Y1 : (whole (z - 1) == whole z - 1)%Q) by (unfold whole, Zminus; rewrite inject_Z_plus; reflexivity). rewrite Y1. rewrite (Qabs_neg (whole z - 1 - p)), (Qabs_neg (whole z - 1 - whole z)) by lra. lra.
    - rewrite Qabs_neg in T by lra. rewrite whole_1. rewrite (Qabs_pos (whole z + 1 - p)), (Qabs_pos (whole z + 1 - whole z)) by lra. lra. }
  destruct Yd as [Y1 Y2]. assert (By : Z.abs y <= 2 ^ 53).
  { assert (V : (whole (Z.abs y) < whole (2 ^ 53 + 1))%Q). { change (whole (Z.abs y)) with (Qabs (whole y)). rewrite whole_1. setoid_replace (whole y) with ((whole y - p) + p)%Q by ring. eapply Qle_lt_trans; [apply Qabs_triangle|]. lra. } apply whole_lt1 in V. lia. }
  destruct (rnd_even binary64 ltac:(cbn; lia) p (whole y) (NN y By)) as [h Hh].
  { fold (fl p). rewrite Ez. intros K. rewrite K, (Qabs_0 (whole z - whole z)) in Y2 by lra. lra. }
  { fold (fl p). rewrite Ez, Y1, T. reflexivity. }
  fold (fl p) in Hh. rewrite Ez, Y2 in Hh. assert (Hz : z = 2 * h) by (unfold whole, Qeq, Qmult in Hh; cbn [Qnum Qden inject_Z] in Hh; lia). rewrite Hz, Z.even_mul. reflexivity.
Qed.
Lemma product_back d : wf c d -> Z.abs (signed d) <= 2 ^ 53 -> (ex d <= 22)%nat ->
  (Qabs (whole (signed d) - product (to_double c d) (ex d)) <= whole (Z.abs (signed d)) * (2 * u + u * u))%Q.
Proof.
  intros W B E. pose proof W as [W1 _]. rewrite (to_double_value d W B E), product_eq by auto. set (x := value d). set (D := tens (ex d)). set (m := whole (signed d)). assert (V : (x * D == m)%Q) by apply value_tens.
  assert (HD : (1 <= D)%Q) by apply tens_pos. destruct (Z.eq_dec (signed d) 0) as [Z0|Z0].
  - assert (X0 : (x == 0)%Q) by (unfold x; rewrite value_div, Z0; change (whole 0) with 0%Q; field; fold D; lra). rewrite (fl_eq x 0 X0). change (fl 0) with 0%Q. rewrite (fl_eq (0 * D) 0) by lra. change (fl 0) with 0%Q. unfold m. rewrite Z0. discriminate.
  - assert (Nx := value_normal d Z0 E). fold x in Nx. pose proof (P_le (-1022) (-80) ltac:(lia)) as PL. pose proof (fl_error x ltac:(lra)) as E1. set (a := fl x) in *. clearbody a.
    assert (Am : (Qabs x * D == Qabs m)%Q) by (rewrite <- (Qabs_pos D) at 1 by lra; rewrite <- Qabs_Qmult, V; reflexivity).
    assert (E2 : (Qabs (a * D - m) <= Qabs m * u)%Q). { setoid_replace (a * D - m)%Q with ((a - x) * D)%Q by (rewrite <- V; ring). rewrite Qabs_Qmult, (Qabs_pos D), <- Am by lra. nra. }
    assert (M1 : (1 <= Qabs m)%Q) by (apply (whole_le2 1 (Z.abs (signed d))); lia).
    assert (E3 : (Qabs (a * D) <= Qabs m * (1 + u))%Q). { setoid_replace (a * D)%Q with ((a * D - m) + m)%Q by ring. eapply Qle_trans; [apply Qabs_triangle|]. lra. }
    assert (E4 : (Qabs m * (1 - u) <= Qabs (a * D))%Q). { assert (T : (Qabs m <= Qabs (a * D) + Qabs (m - a * D))%Q) by (eapply Qle_trans; [|apply Qabs_triangle]; apply Qle_lteq; right; apply Qabs_wd; ring). rewrite (Qabs_Qminus m) in T. lra. }
    assert (PL2 : (P (-1022) <= 1 # 2)%Q) by exact (P_le (-1022) (-1) ltac:(lia)). pose proof (fl_error (a * D) ltac:(lra)) as E5.
    change (whole (Z.abs (signed d))) with (Qabs m). setoid_replace (m - fl (a * D))%Q with ((m - a * D) + (a * D - fl (a * D)))%Q by ring. eapply Qle_trans; [apply Qabs_triangle|]. rewrite (Qabs_Qminus m), (Qabs_Qminus (a * D) (fl _)). lra.
Qed.
(** A decimal of up to 15 digits (less than 2^51 units) is found again by rounding. *)
Theorem decimal_double_round_trip_partial d : wf c d -> Z.abs (signed d) < 2 ^ 51 -> (ex d <= 22)%nat ->
  exists d', make_rounded c (to_double c d) (ex d) = Ok d' /\ wf c d' /\ ex d' = ex d /\ (value d' == value d)%Q /\ (signed d <> 0 -> d' = d).
Proof.
  intros W B E. pose proof W as [W1 W2]. pose proof (product_back d W ltac:(lia) E) as N.
  assert (I : integer Rounded (product (to_double c d) (ex d)) = signed d).
  { cbn [integer]. apply (near_unique _ _ (product (to_double c d) (ex d)) (qround_spec _)). eapply Qle_lt_trans; [exact N|].
    assert (L : (whole (Z.abs (signed d)) <= whole (2 ^ 51 - 1))%Q) by (apply whole_le2; lia). eapply Qle_lt_trans; [apply Qmult_le_compat_r; [exact L|discriminate]|]. reflexivity. }
  assert (M1 : Z.abs (signed d) <= max_man c) by (unfold max_man, man_len, p2, signed in *; destruct (neg d); lia).
  destruct (convert_int Rounded (to_double c d) (ex d) W1 ltac:(rewrite I; auto) ltac:(rewrite I; lia)) as (d' & E' & W' & X' & S' & G'). rewrite I in S', G'. exists d'. split; [exact E'|]. split; auto. split; auto.
  split; [rewrite !value_div, S', X'; reflexivity|]. intros Z. destruct d as [n x mm], d' as [n' x' mm']. unfold signed in *. cbn [neg ex man] in *. subst x'. destruct n, n'; try lia; f_equal; lia.
Qed.
(** Truncation loses at most one unit. *)
Theorem decimal_double_truncated_partial d : wf c d -> Z.abs (signed d) < 2 ^ 51 -> (ex d <= 22)%nat ->
  exists d', make_truncated c (to_double c d) (ex d) = Ok d' /\ wf c d' /\ ex d' = ex d /\ (Z.abs (signed d') = Z.abs (signed d) \/ Z.abs (signed d') = Z.abs (signed d) - 1) /\ 0 <= signed d * signed d'.
Proof.
  intros W B E. pose proof W as [W1 W2]. pose proof (product_back d W ltac:(lia) E) as N.
  assert (L : (whole (Z.abs (signed d)) <= whole (2 ^ 51 - 1))%Q) by (apply whole_le2; lia). assert (H : (Qabs (whole (signed d) - product (to_double c d) (ex d)) < 1 # 2)%Q).
  { eapply Qle_lt_trans; [exact N|]. eapply Qle_lt_trans; [apply Qmult_le_compat_r; [exact L|discriminate]|]. reflexivity. }
  assert (M1 : Z.abs (signed d) <= max_man c) by (unfold max_man, man_len, p2, signed in *; destruct (neg d); lia).
  assert (I : let z := integer Truncated (product (to_double c d) (ex d)) in (Z.abs z = Z.abs (signed d) \/ Z.abs z = Z.abs (signed d) - 1) /\ 0 <= signed d * z).
  { cbv zeta. set (p := product _ _) in *. clearbody p. cbn [integer]. apply Qabs_Qlt_condition in H as [H1 H2]. set (m := signed d) in *.
    destruct (Z.eq_dec m 0) as [Z0|Z0].
    - assert (X : qtrunc p = 0). { rewrite Z0 in H1, H2. change (whole 0) with 0%Q in *. destruct (Qlt_le_dec p 0) as [S|S].
        - rewrite qtrunc_neg by lra. assert (- 1 < qceil p). { apply whole_lt1. change (whole (-1)) with (-1 # 1)%Q. pose proof (qceil_spec p). lra. } assert (qceil p <= 0) by (apply (integer_between Ceiled p 0); change (whole 0) with 0%Q; lra). lia.
        - rewrite qtrunc_pos by lra. assert (qfloor p < 1). { apply whole_lt1. change (whole 1) with 1%Q. pose proof (qfloor_spec p). lra. } assert (0 <= qfloor p) by (apply (integer_between Floored p 0); change (whole 0) with 0%Q; lra). lia. }
      rewrite X, Z0. lia.
    - destruct (Z.le_gt_cases 0 m) as [S|S].
      + assert (1 <= whole m)%Q by (apply (whole_le2 1); lia). rewrite qtrunc_pos by lra. pose proof (qfloor_spec p) as [F1 F2].
        assert (m - 1 <= qfloor p) by (apply (integer_between Floored p (m - 1)); unfold whole, Zminus in *; rewrite inject_Z_plus; change (inject_Z (- (1))) with (-1 # 1)%Q; lra).
        assert (qfloor p < m + 1) by (apply whole_lt1; rewrite whole_1; lra). nia.
      + assert (whole m <= -1 # 1)%Q by (apply (whole_le2 m (-1)); lia). rewrite qtrunc_neg by lra. pose proof (qceil_spec p) as [F1 F2].
        assert (qceil p <= m + 1) by (apply (integer_between Ceiled p (m + 1)); rewrite whole_1; lra).
        assert (m - 1 < qceil p) by (apply whole_lt1; unfold whole, Zminus in *; rewrite inject_Z_plus; change (inject_Z (- (1))) with (-1 # 1)%Q; lra). nia. }
  cbv zeta in I. destruct I as [I1 I2].
  destruct (convert_int Truncated (to_double c d) (ex d) W1 ltac:(lia) ltac:(discriminate)) as (d' & E' & W' & X' & S' & G'). exists d'. rewrite S'. auto.
Qed.
End D.

(** ** Arithmetic *)
From Verif Require Import DecimalProps.
Section A.
Context (c : cfg) (Hc : good c).
Notation u := (1 # 9007199254740992)%Q.
Lemma assign_truncated d val : wf c d -> assign c d val = make_truncated c val (ex d).
Proof. intros [H _]. unfold make_truncated, assign. rewrite blank_ex by auto. destruct (to_integer _ _); auto. unfold set_mantissa. rewrite blank_ex by auto. reflexivity. Qed.
(** An integer of 53 bits is assigned exactly. *)
Theorem decimal_assign_integer_partial d v : wf c d -> (ex d <= 22)%nat -> Z.abs v * 10 ^ Z.of_nat (ex d) <= Z.min (2 ^ 53) (max_man c) ->
  exists r, assign_integer c d v = Ok r /\ wf c r /\ ex r = ex d /\ (value r == whole v)%Q.
Proof.
  intros W E B. pose proof W as [W1 _]. unfold assign_integer. rewrite assign_truncated by auto. pose proof (pow10_pos (ex d)) as P0. assert (V : Z.abs v <= 2 ^ 53) by nia. pose proof (fl_whole v V) as F. fold (whole v).
  assert (T : (fl (whole v) * tens (ex d) == whole (v * 10 ^ Z.of_nat (ex d)))%Q) by (rewrite F; unfold whole, tens; now rewrite inject_Z_mult).
  assert (FT : fits c (fl (whole v)) (ex d)). { split; auto. split; auto. rewrite T. change (Qabs (whole (v * 10 ^ Z.of_nat (ex d)))) with (whole (Z.abs (v * 10 ^ Z.of_nat (ex d)))). apply whole_le2. rewrite Z.abs_mul, (Z.abs_eq (10 ^ _)); lia. }
  destruct (convert_ok c Hc Truncated _ _ FT) as (r & R1 & R2 & R3 & R4 & _). exists r. split; [exact R1|]. split; auto. split; auto.
  rewrite value_div, R3, R4. unfold integer. rewrite product_eq by auto. rewrite (fl_eq _ _ T).
  assert (G : (fl (whole (v * 10 ^ Z.of_nat (ex d))) == whole (v * 10 ^ Z.of_nat (ex d)))%Q) by (apply fl_whole; rewrite Z.abs_mul, (Z.abs_eq (10 ^ _)); lia).
  assert (Q : qtrunc (fl (whole (v * 10 ^ Z.of_nat (ex d)))) = v * 10 ^ Z.of_nat (ex d)).
  { destruct (Z.le_gt_cases 0 v) as [S|S].
    - rewrite qtrunc_pos. { apply floor_unique. lra. } rewrite G. apply (whole_le2 0). nia.
    - rewrite qtrunc_neg. 2: { rewrite G. apply (whole_le2 _ 0). nia. } pose proof (qceil_spec (fl (whole (v * 10 ^ Z.of_nat (ex d))))) as [C1 C2]. set (z := qceil _) in *. clearbody z. assert (C3 : (whole (v * 10 ^ Z.of_nat (ex d)) <= whole z)%Q) by lra. apply whole_le1 in C3. assert (z - 1 < v * 10 ^ Z.of_nat (ex d)); [|lia]. apply whole_lt1. unfold whole, Zminus in *. rewrite inject_Z_plus. change (inject_Z (- (1))) with (-1 # 1)%Q. lra. }
  rewrite Q. unfold whole, tens. rewrite inject_Z_mult. pose proof (tens_pos (ex d)). unfold tens, whole in *. field. lra.
Qed.
(** A cast to an integer type truncates if the mantissa fits in the type. *)
Theorem decimal_cast_integer_partial bits d : (0 < bits)%nat -> wf c d -> (ex d <= 22)%nat -> Z.abs (signed d) < 2 ^ 53 -> Z.abs (signed d) < 2 ^ Z.of_nat (bits - 1) ->
  exists z, cast_integer bits c d = Ok z /\ (Qabs (value d - whole z) < 1)%Q /\ Z.abs z * 10 ^ Z.of_nat (ex d) <= Z.abs (signed d) /\ 0 <= z * signed d.
Proof.
  intros HB W E B1 B2. pose proof W as [W1 _]. unfold cast_integer. rewrite (wrap_ok bits (mantissa d) (Z.abs (signed d))) by (auto; change (mantissa d) with (signed d); lia).
  change (fl (fl (inject_Z (mantissa d)) / denom_double c (ex d))) with (to_double c d). rewrite to_double_value by (auto; lia).
  set (m := signed d) in *. set (D := 10 ^ Z.of_nat (ex d)). assert (HD : 0 < D) by apply pow10_pos. assert (V : (value d * tens (ex d) == whole m)%Q) by apply value_tens. assert (TP := tens_pos (ex d)). change (tens (ex d)) with (whole D) in *.
  set (x := value d) in *. set (a := fl x). set (z := Z.quot m D).
  assert (Zb : Z.abs z <= Z.abs m) by (unfold z; rewrite <- Z.quot_abs by lia; apply Z.quot_le_upper_bound; nia).
  assert (I : qtrunc a = z).
  { assert (AB : (Qabs (a - x) * whole D < 1)%Q). { destruct (Z.eq_dec m 0) as [Z0|Z0].
      - assert (X0 : (x == 0)%Q) by (rewrite Z0 in V; change (whole 0) with 0%Q in V; nra). unfold a. rewrite (fl_eq x 0 X0). change (fl 0) with 0%Q. rewrite X0. change (Qabs (0 - 0)) with 0%Q. lra.
      - assert (Nx := value_normal d Z0 E). fold x in Nx. pose proof (P_le (-1022) (-80) ltac:(lia)) as PL. pose proof (fl_error x ltac:(lra)) as E1. fold a in E1.
        assert (Am : (Qabs x * whole D == whole (Z.abs m))%Q) by (rewrite <- (Qabs_pos (whole D)) at 1 by lra; rewrite <- Qabs_Qmult, V; reflexivity).
        assert (L : (whole (Z.abs m) <= whole (2 ^ 53 - 1))%Q) by (apply whole_le2; lia). change (whole (2 ^ 53 - 1)) with (9007199254740991 # 1)%Q in L.
        assert (T : (Qabs (a - x) * whole D <= whole (Z.abs m) * u)%Q) by (rewrite <- Am; nra). lra. }
    pose proof (Z.quot_rem' m D) as QR. destruct (Z.le_gt_cases 0 m) as [S|S].
    - pose proof (Z.rem_bound_pos m D S HD) as RB. assert (Z0 : 0 <= z) by (apply Z.quot_pos; lia). assert (X0 : (0 <= x)%Q) by (assert (0 <= whole m)%Q by (apply (whole_le2 0); auto); nra).
      assert (A0 : (0 <= a)%Q) by (apply (fl_mono 0 x); auto). rewrite qtrunc_pos by auto. apply floor_unique. split.
      + assert (K : (whole z <= x)%Q) by (assert (whole (z * D) <= whole m)%Q by (apply whole_le2; fold z in QR; nia); unfold whole in *; rewrite inject_Z_mult in *; nra). apply fl_mono in K. rewrite fl_whole in K by lia. exact K.
      + assert (K : (whole (m + 1) <= whole ((z + 1) * D))%Q) by (apply whole_le2; fold z in QR; nia). rewrite whole_1 in K. unfold whole in *. rewrite inject_Z_mult, inject_Z_plus in K. change (inject_Z 1) with 1%Q in K. rewrite <- V in K.
        assert (AB2 : ((a - x) * inject_Z D < 1)%Q) by (pose proof (Qle_Qabs (a - x)); nra). destruct (Qlt_le_dec a (inject_Z z + 1)) as [?|G]; auto. exfalso. nra.
    - pose proof (Z.rem_bound_pos_neg m D HD ltac:(lia)) as RB. assert (Z0 : z <= 0) by (unfold z; rewrite <- (Z.opp_involutive m), Z.quot_opp_l by lia; pose proof (Z.quot_pos (- m) D ltac:(lia) HD); lia). assert (X0 : (x <= 0)%Q) by (assert (whole m <= 0)%Q by (apply (whole_le2 m 0); lia); nra).
      assert (A0 : (a <= 0)%Q) by (apply (fl_mono x 0); auto). rewrite qtrunc_neg by auto. pose proof (qceil_spec a) as [C1 C2].
      assert (K1 : (a <= whole z)%Q). { assert (K : (x <= whole z)%Q) by (assert (whole m <= whole (z * D))%Q by (apply whole_le2; fold z in QR; nia); unfold whole in *; rewrite inject_Z_mult in *; nra). apply fl_mono in K. rewrite fl_whole in K by lia. exact K. }
      assert (K2 : (whole z - 1 < a)%Q).
      { assert (K : (whole ((z - 1) * D) <= whole (m - 1))%Q) by (apply whole_le2; fold z in QR; nia). unfold whole, Zminus in *. rewrite inject_Z_mult, !inject_Z_plus in K. change (inject_Z (- (1))) with (-1 # 1)%Q in K. rewrite <- V in K.
        assert (AB2 : ((x - a) * inject_Z D < 1)%Q) by (pose proof (Qle_Qabs (x - a)) as Y; rewrite Qabs_Qminus in Y; nra). destruct (Qlt_le_dec (inject_Z z - 1) a) as [?|G]; auto. exfalso. nra. }
      assert (whole (qceil a) < whole (z + 1))%Q by (rewrite whole_1; lra). assert (whole z < whole (qceil a + 1))%Q by (rewrite whole_1; lra). apply whole_lt1 in H, H0. lia. }
  rewrite I, (to_integer_ok bits z (Z.abs m)) by lia. exists z. split; auto.
  pose proof (Z.quot_rem' m D) as QR. fold z in QR. assert (RB : Z.abs (Z.rem m D) < D) by (rewrite <- (Z.abs_eq D) at 2 by lia; apply Z.rem_bound_abs; lia). assert (RS : 0 <= Z.rem m D * m) by (apply Z.rem_sign_mul; lia).
  split; [|split].
  - apply Qabs_Qlt_condition. assert (R1 : (whole (- D) < whole (m - z * D))%Q) by (apply whole_lt; lia). assert (R2 : (whole (m - z * D) < whole D)%Q) by (apply whole_lt; lia).
    assert (Y : (whole (m - z * D) == (x - whole z) * whole D)%Q) by (unfold whole, Zminus in *; rewrite inject_Z_plus, inject_Z_opp, inject_Z_mult, <- V; ring). assert (Y2 : (whole (- D) == - whole D)%Q) by reflexivity. rewrite Y2 in R1. rewrite Y in R1, R2. split; nra.
  - unfold z. rewrite <- (Z.abs_eq D) at 2 by lia. rewrite <- Z.abs_mul. fold z. destruct (Z.le_gt_cases 0 m) as [S|S].
    + pose proof (Z.rem_bound_pos m D S HD). pose proof (Z.quot_pos m D S HD). fold z in H0. nia.
    + pose proof (Z.rem_bound_pos_neg m D HD ltac:(lia)). assert (z <= 0) by (unfold z; rewrite <- (Z.opp_involutive m), Z.quot_opp_l by lia; pose proof (Z.quot_pos (- m) D ltac:(lia) HD); lia). nia.
  - destruct (Z.le_gt_cases 0 m) as [S|S].
    + pose proof (Z.quot_pos m D S HD). fold z in H. nia.
    + assert (z <= 0) by (unfold z; rewrite <- (Z.opp_involutive m), Z.quot_opp_l by lia; pose proof (Z.quot_pos (- m) D ltac:(lia) HD); lia). nia.
Qed.
(** Sums and differences are less than a unit away. *)
Theorem decimal_add_double_partial d val : wf c d -> (ex d <= 22)%nat -> (Qabs (val * tens (ex d)) <= whole (Z.min (2 ^ 53) (max_man c - 1 - Z.abs (signed d))))%Q ->
  exists r s, add_double c d val = Ok r /\ sub_double c d val = Ok s /\ wf c r /\ wf c s /\ ex r = ex d /\ ex s = ex d /\
    (Qabs (value r - (value d + val)) < unit_of (ex d))%Q /\ (Qabs (value s - (value d - val)) < unit_of (ex d))%Q.
Proof.
  intros W E B. pose proof W as [W1 W2].  assert (FT : fits c val (ex d)). { split; auto. split; auto. eapply Qle_trans; [exact B|]. apply whole_le2. lia. }
  destruct (decimal_from_double_partial c Hc Truncated val (ex d) FT) as (o & O1 & O2 & O3 & O4). destruct (convert_ok c Hc Truncated val (ex d) FT) as (o' & O1' & _ & _ & O5 & _). rewrite O1 in O1'. injection O1' as <-.
  assert (N : Z.abs (signed o) + Z.abs (signed d) <= max_man c).
  { set (M := Z.min (2 ^ 53) (max_man c - 1 - Z.abs (signed d))) in *. assert (M0 : 0 <= M). { apply whole_le1. eapply Qle_trans; [|exact B]. apply Qabs_nonneg. } apply Qabs_Qle_condition in B as [B1 B2].
    pose proof (proj2 (product_between (val * tens (ex d)) M ltac:(unfold M in *; lia)) B2) as K1. assert (K2 := proj1 (product_between (val * tens (ex d)) (- M) ltac:(unfold M in *; lia))). unfold whole in K2. rewrite inject_Z_opp in K2. specialize (K2 B1).
    assert (H1 : signed o <= M) by (rewrite O5, product_eq by auto; apply (integer_between Truncated); auto). assert (H2 : - M <= signed o) by (rewrite O5, product_eq by auto; apply (integer_between Truncated); unfold whole; rewrite inject_Z_opp; auto). unfold M in *. lia. }
  assert (R : forall z, Z.abs z <= max_man c -> representable c (ex d) (whole z / tens (ex d))).
  { intros z Hz. destruct (set_blank c Hc (ex d) z W1 Hz) as (x & _ & X1 & X2 & X3 & _). exists x. split; auto. split; auto. rewrite value_div, X2, X3. reflexivity. }
  pose proof (decimal_add_sub_exact_partial c d o Hc W O2) as K. cbv zeta in K. rewrite O3, Nat.max_id in K. unfold add_double, sub_double. change (make_other c d val) with (convert c Truncated val (ex d)). rewrite O1. cbn [rbind].
  pose proof (value_div d) as Vd. pose proof (value_div o) as Vo. rewrite O3 in Vo. pose proof (tens_pos (ex d)) as TP.
  assert (Rd : representable c (ex d) (value d)) by (exists d; split; [exact W|split; reflexivity]). assert (Ro : representable c (ex d) (value o)) by (exists o; split; [exact O2|split; [exact O3|reflexivity]]).
  assert (RS : representable c (ex d) (value d + value o)).
  { destruct (R (signed d + signed o) ltac:(lia)) as (x & X1 & X2 & X3). exists x. split; [exact X1|]. split; [exact X2|]. rewrite X3, Vd, Vo. unfold whole. rewrite inject_Z_plus. field. lra. }
  assert (RD : representable c (ex d) (value d - value o)).
  { destruct (R (signed d - signed o) ltac:(lia)) as (x & X1 & X2 & X3). exists x. split; [exact X1|]. split; [exact X2|]. rewrite X3, Vd, Vo. unfold whole, Zminus. rewrite inject_Z_plus, inject_Z_opp. field. lra. }
  destruct K as [K1 K2]. destruct (add c d o) as [r| |]; [|destruct K1; auto|contradiction]. destruct (sub c d o) as [t| |]; [|destruct K2; auto|contradiction].
  destruct K1 as (A1 & A2 & A3). destruct K2 as (B1 & B2 & B3). exists r, t. split; auto. split; auto. split; auto. split; auto. split; auto. split; auto. rewrite (A3 RS), (B3 RD). apply Qabs_Qlt_condition in O4. split; apply Qabs_Qlt_condition; lra.
Qed.
Lemma scale_ok d w x : wf c d -> (ex d <= 22)%nat -> (Qabs (w - x) <= Qabs x * u)%Q -> (P (-1000) <= Qabs x)%Q ->
  (Qabs (x * tens (ex d)) + 3 <= whole (Z.min (2 ^ 53) (max_man c)))%Q ->
  exists r, make_other c d (fl w) = Ok r /\ wf c r /\ ex r = ex d /\ (Qabs (value r - x) < unit_of (ex d) + Qabs x * (3 * u))%Q.
Proof.
  intros W E E1 Nx B. pose proof W as [W1 _]. pose proof (P_pos (-1000)) as PP.
  assert (E3 : (Qabs w <= Qabs x * (1 + u))%Q). { setoid_replace w with ((w - x) + x)%Q by ring. eapply Qle_trans; [apply Qabs_triangle|]. lra. }
  assert (E4 : (Qabs x * (1 - u) <= Qabs w)%Q). { assert (T : (Qabs x <= Qabs w + Qabs (x - w))%Q) by (eapply Qle_trans; [|apply Qabs_triangle]; apply Qle_lteq; right; apply Qabs_wd; ring). rewrite (Qabs_Qminus x) in T. lra. }
  assert (PL : (P (-1022) <= P (-1001))%Q) by (apply P_le; lia). assert (PH : (P (-1000) == 2 * P (-1001))%Q) by exact (P_plus 1 (-1001)).
  pose proof (fl_error w ltac:(lra)) as E5. set (y := fl w) in *. clearbody y.
  assert (E6 : (Qabs (y - x) <= Qabs x * (3 * u))%Q). { setoid_replace (y - x)%Q with ((y - w) + (w - x))%Q by ring. eapply Qle_trans; [apply Qabs_triangle|]. lra. }
  pose proof (tens_pos (ex d)) as TP. rewrite Qabs_Qmult, (Qabs_pos (tens _)) in B by lra. assert (M53 : (whole (Z.min (2 ^ 53) (max_man c)) <= 9007199254740992)%Q) by (apply (whole_le2 _ (2 ^ 53)); lia).
  assert (FT : fits c y (ex d)).
  { split; auto. split; auto. rewrite Qabs_Qmult, (Qabs_pos (tens _)) by lra. assert (Ay : (Qabs y <= Qabs x + Qabs x * (3 * u))%Q). { setoid_replace y with ((y - x) + x)%Q by ring. eapply Qle_trans; [apply Qabs_triangle|]. lra. }
    assert (A2 : (Qabs y * tens (ex d) <= (Qabs x * tens (ex d)) * (1 + 3 * u))%Q) by nra. lra. }
  destruct (decimal_from_double_partial c Hc Truncated y (ex d) FT) as (r & R1 & R2 & R3 & R4). exists r. split; [exact R1|]. split; auto. split; auto.
  setoid_replace (value r - x)%Q with ((value r - y) + (y - x))%Q by ring. eapply Qle_lt_trans; [apply Qabs_triangle|]. lra.
Qed.
Lemma to_double_error d : wf c d -> (ex d <= 22)%nat -> Z.abs (signed d) <= 2 ^ 53 -> (Qabs (to_double c d - value d) <= Qabs (value d) * u)%Q.
Proof.
  intros W E B. rewrite to_double_value by auto. destruct (Z.eq_dec (signed d) 0) as [Z0|Z0].
  - assert (X0 : (value d == 0)%Q) by (rewrite value_div, Z0; change (whole 0) with 0%Q; pose proof (tens_pos (ex d)); field; lra). rewrite (fl_eq _ 0 X0). change (fl 0) with 0%Q. rewrite X0. discriminate.
  - pose proof (value_normal d Z0 E). pose proof (P_le (-1022) (-80) ltac:(lia)). apply fl_error. lra.
Qed.
(** A product or a quotient is computed in doubles: besides the unit that the truncation may lose,
    the error is that of the roundings. *)
Theorem decimal_times_double_partial d a : wf c d -> (ex d <= 22)%nat -> Z.abs (signed d) <= 2 ^ 53 ->
  let x := (value d * a)%Q in (P (-1000) <= Qabs x)%Q -> (Qabs (x * tens (ex d)) + 3 <= whole (Z.min (2 ^ 53) (max_man c)))%Q ->
  exists r, times_assign c d a = Ok r /\ wf c r /\ ex r = ex d /\ (Qabs (value r - x) < unit_of (ex d) + Qabs x * (3 # 2 ^ 53))%Q.
Proof.
  intros W E B x Nx F. apply (scale_ok d (a * to_double c d) x W E); auto. pose proof (to_double_error d W E B) as T. setoid_replace (a * to_double c d - x)%Q with (a * (to_double c d - value d))%Q by (unfold x; ring). unfold x. rewrite !Qabs_Qmult. pose proof (Qabs_nonneg a). nra.
Qed.
Theorem decimal_divide_double_partial d a : wf c d -> (ex d <= 22)%nat -> Z.abs (signed d) <= 2 ^ 53 -> (~ a == 0)%Q ->
  let x := (value d / a)%Q in (P (-1000) <= Qabs x)%Q -> (Qabs (x * tens (ex d)) + 3 <= whole (Z.min (2 ^ 53) (max_man c)))%Q ->
  exists r, divide_assign c d a = Ok r /\ wf c r /\ ex r = ex d /\ (Qabs (value r - x) < unit_of (ex d) + Qabs x * (3 # 2 ^ 53))%Q.
Proof.
  intros W E B N x Nx F. unfold divide_assign, guard. destruct (Qeq_bool a 0) eqn:Q; [apply Qeq_bool_iff in Q; contradiction|]. cbn [negb].
  apply (scale_ok d (to_double c d / a) x W E); auto. pose proof (to_double_error d W E B) as T. setoid_replace (to_double c d / a - x)%Q with ((to_double c d - value d) * / a)%Q by (unfold x; field; auto). unfold x, Qdiv. rewrite !Qabs_Qmult. pose proof (Qabs_nonneg (/ a)). nra.
Qed.
(** Division by zero is undefined: the quotient is no number and is cast to an integer. *)
Theorem decimal_divide_zero d a : (a == 0)%Q -> divide_assign c d a = UB.
Proof. intros H. unfold divide_assign, guard. apply Qeq_bool_iff in H. rewrite H. reflexivity. Qed.
End A.

(** ** What does not hold *)
(** Above 51 bits a decimal is not found again. *)
Theorem decimal_double_round_trip_refuted : exists x r, wf d64 x /\ Z.abs (signed x) < 2 ^ 52 /\ make_rounded d64 (to_double d64 x) (ex x) = Ok r /\ ~ (value r == value x)%Q.
Proof. exists (d false 14 4126106454088053), (d false 14 4126106454088054). split; [apply wf_dec; reflexivity|]. split; [reflexivity|]. split; [reflexivity|]. discriminate. Qed.
(** Above 53 bits the double is not the nearest one, *)
Theorem decimal_to_double_refuted : exists x y, wf d64 x /\ number binary64 y /\ (Qabs (value x - y) < Qabs (value x - to_double d64 x))%Q.
Proof.
  exists (d false 9 435878354952838311), (fl (value (d false 9 435878354952838311))). split; [apply wf_dec; reflexivity|]. split; [apply rnd_number; cbn; lia|]. reflexivity.
Qed.
(** and different decimals are equal doubles. *)
Theorem decimal_double_distinct_refuted : exists x y, wf d64 x /\ wf d64 y /\ (value x < value y)%Q /\ to_double d64 x = to_double d64 y.
Proof. exists (d false 0 9007199254740992), (d false 0 9007199254740993). split; [apply wf_dec; reflexivity|]. split; [apply wf_dec; reflexivity|]. split; reflexivity. Qed.
(** Truncation takes a cent of a number with two digits: make_decimal(0.29, 2) is 0.28,
    0.29 + 0.29 is 0.57 if one of them is a double, and multiplication by 1 changes 0.29. *)
Theorem decimal_truncated_refuted : exists x r s t, wf d64 x /\ (value x == 29 # 100)%Q /\
  make_truncated d64 (to_double d64 x) 2 = Ok r /\ (value r == 28 # 100)%Q /\
  add_double d64 x (to_double d64 x) = Ok s /\ (value s == 57 # 100)%Q /\
  times_assign d64 x 1 = Ok t /\ (value t < value x)%Q.
Proof. exists (d false 2 29), (d false 2 28), (d false 2 57), (d false 2 28). split; [apply wf_dec; reflexivity|]. repeat split. Qed.
(** make_floored gives more than its argument ("the largest decimal value not greater than arg") and
    make_ceiled less ("the smallest decimal value not less than arg"). *)
Theorem decimal_floored_refuted : exists v w r s, number binary64 v /\ number binary64 w /\
  make_floored d64 v 1 = Ok r /\ (v < value r)%Q /\ make_ceiled d64 w 1 = Ok s /\ (value s < w)%Q.
Proof.
  exists (fl (3 # 10)), (fl (11 # 10)), (d false 1 3), (d false 1 11). split; [apply rnd_number; cbn; lia|]. split; [apply rnd_number; cbn; lia|]. repeat split.
Qed.
(** operator = says "we do not round so abs(decimal) < abs(val)". *)
Theorem decimal_assign_magnitude_refuted : exists v r, number binary64 v /\ assign d64 (d false 1 0) v = Ok r /\ (0 < v)%Q /\ (v < value r)%Q.
Proof. exists (fl (3 # 10)), (d false 1 3). split; [apply rnd_number; cbn; lia|]. repeat split. Qed.
(** An int gets the low half of the mantissa: cast<int>() of 4294967296.00 is 0. *)
Theorem decimal_cast_integer_refuted : exists x, wf d64 x /\ (value x == 2147483648 / 100)%Q /\ cast_integer 32 d64 x = Ok (-21474836).
Proof. exists (d false 2 2147483648). split; [apply wf_dec; reflexivity|]. split; reflexivity. Qed.
(** An integer above 53 bits is assigned through double, *)
Theorem decimal_assign_integer_refuted : exists r, 9007199254740993 <= max_man d64 /\ assign_integer d64 (d false 0 0) 9007199254740993 = Ok r /\ signed r = 9007199254740992.
Proof. exists (d false 0 9007199254740992). split; [discriminate|]. split; reflexivity. Qed.
(** a number that does not fit in the mantissa is reduced without an exception, and one that does not fit in Int is undefined. *)
Theorem decimal_from_large_refuted : exists r, make_truncated d64 (fl (whole (10 ^ 18))) 0 = Ok r /\ (value r < whole (10 ^ 18))%Q /\ make_truncated d64 (fl (whole (10 ^ 19))) 0 = UB.
Proof. exists (d false 0 423539247696576512). split; [reflexivity|]. split; reflexivity. Qed.

(** ** Examples *)
Example decimal_double_demo :
  to_double d64 (d false 2 29) = fl (29 # 100) /\ make_rounded d64 (fl (29 # 100)) 2 = Ok (d false 2 29) /\
  make_rounded d64 (- (1 # 8)) 2 = Ok (d true 2 13) /\ make_truncated d64 (- (1 # 8)) 2 = Ok (d true 2 12) /\
  make_ceiled d64 (- (1 # 8)) 2 = Ok (d true 2 12) /\ make_floored d64 (- (1 # 8)) 2 = Ok (d true 2 13).
Proof. repeat split. Qed.
Example decimal_double_fits : fits d64 (123456789 # 8) 3 /\ convert d64 Truncated (123456789 # 8) 3 = Ok (d false 3 15432098625) /\ number binary64 ((123456789 # 8) * tens 3).
Proof. split; [split; [cbn; lia|split; [lia|discriminate]]|]. split; [reflexivity|]. exists 15432098625, 0. split; [|split]; [cbn; lia|cbn; lia|reflexivity]. Qed.
Example decimal_double_arithmetic :
  add_double d64 (d false 2 150) (5 # 2) = Ok (d false 2 400) /\ sub_double d64 (d false 2 150) (5 # 2) = Ok (d true 2 100) /\
  times_assign d64 (d false 2 150) (5 # 2) = Ok (d false 2 375) /\ divide_assign d64 (d true 2 150) 4 = Ok (d true 2 37) /\
  cast_integer 32 d64 (d true 2 199) = Ok (-1) /\ assign_integer d64 (d false 2 0) (-7) = Ok (d true 2 700) /\ divide_assign d64 (d false 2 150) 0 = UB.
Proof. repeat split. Qed.
(** 450359962737050.25 has 4503599627370502.5 units. *)
Example decimal_double_tie : fits d64 (1801439850948201 # 4) 1 /\ make_ceiled d64 (1801439850948201 # 4) 1 = Ok (d false 1 4503599627370502) /\ (whole (2 ^ 52) <= Qabs ((1801439850948201 # 4) * tens 1))%Q.
Proof. split; [split; [cbn; lia|split; [lia|discriminate]]|]. split; [reflexivity|discriminate]. Qed.
