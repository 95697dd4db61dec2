(** Adapters of boost::multiprecision (C72, C73). *)
From Coq Require Import ZifyBool ZifyNat.
From Verif Require Import Common DecimalModel DecimalSpec DecimalProps MultiModel.
Local Open Scope Z_scope.

(** ** C72: the two representations of decimals *)
(** What a program sees of a decimal: sign, exponent, mantissa, bits *)
Definition mp_view (c : cfg) (v : Z) : bool * Z * Z * Z := (mp_positive c v, mp_exp c v, mp_man c v, v).
Definition data_view (c : cfg) (d : dec) : bool * Z * Z * Z := (negb (neg d), Z.of_nat (ex d), man d, to_bits c d).
(** Exponents that fit, arguments of the types of the parameters *)
Definition op_ok (c : cfg) (o : op) : Prop :=
  match o with
  | SetPositive _ => True
  | SetExp e => 0 <= e < 2 ^ Z.of_nat (X c)
  | SetMan m => 0 <= m < 2 ^ Z.of_nat (W c)
  | FromBits r => 0 <= r < 2 ^ Z.of_nat (W c)
  end.

Lemma bit_mod z n i : 0 <= i -> 0 <= n -> Z.testbit (z mod 2 ^ n) i = (i <? n) && Z.testbit z i.
Proof. intros A B. destruct (Z.ltb_spec i n). - now rewrite Z.mod_pow2_bits_low by lia. - now rewrite Z.mod_pow2_bits_high by lia. Qed.
Lemma bit_div z n i : 0 <= i -> 0 <= n -> Z.testbit (z / 2 ^ n) i = Z.testbit z (i + n).
Proof. intros A B. now rewrite <- Z.shiftr_div_pow2, Z.shiftr_spec by lia. Qed.
Lemma bit_high z n i : 0 <= z < 2 ^ n -> n <= i -> Z.testbit z i = false.
Proof. intros A B. destruct (Z.eq_dec z 0) as [->|N]; [apply Z.bits_0|]. apply Z.bits_above_log2; [lia|]. apply Z.log2_lt_pow2; [lia|]. apply Z.lt_le_trans with (2 ^ n); [lia|]. apply Z.pow_le_mono_r; lia. Qed.
Lemma bit_shl c z n i : 0 <= i -> Z.testbit (ushl c z n) i = (i <? Z.of_nat (W c)) && (Z.of_nat n <=? i) && Z.testbit z (i - Z.of_nat n).
Proof.
  intros A. unfold ushl, p2. rewrite bit_mod by lia. destruct (Z.ltb_spec i (Z.of_nat (W c))); cbn [andb]; auto. rewrite Z.shiftl_spec by lia. destruct (Z.leb_spec (Z.of_nat n) i); cbn [andb]; auto. apply Z.testbit_neg_r. lia.
Qed.
Lemma bit_not c z i : 0 <= i -> Z.testbit (unot c z) i = (i <? Z.of_nat (W c)) && negb (Z.testbit z i).
Proof. intros A. unfold unot, p2. rewrite bit_mod by lia. now rewrite Z.lnot_spec by lia. Qed.
Lemma bit_one i : 0 <= i -> Z.testbit 1 i = (i =? 0).
Proof. intros A. destruct (Z.eqb_spec i 0) as [->|N]; auto. apply (bit_high 1 1); lia. Qed.
Section M.
Context (c : cfg) (Hc : (X c + 2 <= W c)%nat) (HX : (X c <= 8)%nat).
Lemma bit_exp_mask i : 0 <= i -> Z.testbit (exp_mask c) i = (1 <=? i) && (i <=? Z.of_nat (X c)).
Proof.
  intros A. unfold exp_mask. rewrite bit_shl by lia. assert (E : ushl c 1 (X c) - 1 = Z.ones (Z.of_nat (X c))).
  { unfold ushl, p2. rewrite Z.shiftl_1_l, Z.mod_small; [rewrite Z.ones_equiv; lia|]. split; [apply Z.pow_nonneg; lia|apply Z.pow_lt_mono_r; lia]. }
  rewrite E. change (Z.of_nat 1) with 1. destruct (Z.leb_spec 1 i); [|now rewrite andb_false_r].
  destruct (Z.leb_spec i (Z.of_nat (X c))).
  - rewrite Z.ones_spec_low by lia. destruct (Z.ltb_spec i (Z.of_nat (W c))); auto. lia.
  - rewrite Z.ones_spec_high by lia. now rewrite !andb_false_r.
Qed.
Lemma bit_man_mask i : 0 <= i -> Z.testbit (man_mask c) i = (Z.of_nat (X c) <? i) && (i <? Z.of_nat (W c)).
Proof.
  intros A. unfold man_mask, p2. rewrite Z.land_spec, bit_not, Z.lor_spec, bit_exp_mask by lia. unfold sign_mask. rewrite bit_one by lia. replace (2 ^ Z.of_nat (W c) - 1) with (Z.ones (Z.of_nat (W c))) by (rewrite Z.ones_equiv; lia).
  destruct (Z.ltb_spec i (Z.of_nat (W c))).
  - rewrite Z.ones_spec_low by lia. destruct (Z.eqb_spec i 0), (Z.leb_spec 1 i), (Z.leb_spec i (Z.of_nat (X c))), (Z.ltb_spec (Z.of_nat (X c)) i); cbn; auto; lia.
  - rewrite Z.ones_spec_high by lia. now destruct (Z.of_nat (X c) <? i).
Qed.
Definition fields (v : Z) : dec := from_bits c v.
Lemma land_range a b : 0 <= a < 2 ^ Z.of_nat (W c) -> 0 <= Z.land a b < 2 ^ Z.of_nat (W c).
Proof.
  intros A. assert (0 <= Z.land a b) by (apply Z.land_nonneg; lia). split; auto. rewrite <- (Z.mod_small _ _ A). destruct (Z.eq_dec (Z.land a b) 0) as [E|E].
  - rewrite (Z.mod_small _ _ A), E. lia.
  - rewrite (Z.mod_small _ _ A). apply Z.log2_lt_pow2; [lia|]. destruct (Z.lt_ge_cases (Z.log2 (Z.land a b)) (Z.of_nat (W c))) as [?|G]; auto. exfalso.
    pose proof (Z.bit_log2 (Z.land a b) ltac:(lia)) as T. rewrite Z.land_spec, (bit_high a (Z.of_nat (W c))) in T by auto. discriminate.
Qed.
Lemma bits_range v : 0 <= v -> (forall i, Z.of_nat (W c) <= i -> Z.testbit v i = false) -> v < 2 ^ Z.of_nat (W c).
Proof.
  intros A H. destruct (Z.eq_dec v 0) as [->|N]; [apply Z.pow_pos_nonneg; lia|]. apply Z.log2_lt_pow2; [lia|]. destruct (Z.lt_ge_cases (Z.log2 v) (Z.of_nat (W c))) as [?|G]; auto. exfalso. pose proof (Z.bit_log2 v ltac:(lia)) as T. rewrite H in T by auto. discriminate.
Qed.
(** Setting the bits of a field *)
Definition put (v w : Z) (f : Z -> bool) : Prop := 0 <= w < 2 ^ Z.of_nat (W c) /\ forall i, 0 <= i -> Z.testbit w i = (i <? Z.of_nat (W c)) && f i.
Lemma ushl_range z n : 0 <= ushl c z n < 2 ^ Z.of_nat (W c). Proof. apply Z.mod_pos_bound. apply Z.pow_pos_nonneg; lia. Qed.
Lemma put_lor v a b f : 0 <= a < 2 ^ Z.of_nat (W c) -> 0 <= b < 2 ^ Z.of_nat (W c) -> (forall i, 0 <= i < Z.of_nat (W c) -> Z.testbit a i || Z.testbit b i = f i) -> put v (Z.lor a b) f.
Proof.
  intros A B H. assert (N : 0 <= Z.lor a b) by (apply Z.lor_nonneg; lia). assert (K : forall i, Z.of_nat (W c) <= i -> Z.testbit (Z.lor a b) i = false) by (intros; rewrite Z.lor_spec, !(bit_high _ (Z.of_nat (W c))); auto).
  split; [split; auto using bits_range|]. intros i Hi. destruct (Z.ltb_spec i (Z.of_nat (W c))); cbn [andb]; auto. rewrite Z.lor_spec. apply H. lia.
Qed.
Lemma put_exp v e : 0 <= v < 2 ^ Z.of_nat (W c) -> 0 <= e < 2 ^ Z.of_nat (X c) ->
  put v (mp_set_exp c v e) (fun i => if (1 <=? i) && (i <=? Z.of_nat (X c)) then Z.testbit e (i - 1) else Z.testbit v i).
Proof.
  intros V E. apply put_lor; [now apply land_range|apply ushl_range|]. intros i Hi. rewrite Z.land_spec, bit_not, bit_shl, bit_exp_mask by lia. change (Z.of_nat 1) with 1. destruct (Z.ltb_spec i (Z.of_nat (W c))); [|lia]. cbn [andb].
  destruct (Z.leb_spec 1 i), (Z.leb_spec i (Z.of_nat (X c))); cbn [andb negb]; rewrite ?andb_true_r, ?andb_false_r, ?orb_false_r; cbn [orb]; auto; try lia.
  rewrite (bit_high e (Z.of_nat (X c))) by lia. now rewrite orb_false_r.
Qed.
Lemma put_man v m : 0 <= v < 2 ^ Z.of_nat (W c) ->
  put v (mp_set_man c v m) (fun i => if Z.of_nat (X c) <? i then Z.testbit m (i - Z.of_nat (X c + 1)) else Z.testbit v i).
Proof.
  intros V. apply put_lor; [now apply land_range|apply ushl_range|]. intros i Hi. rewrite Z.land_spec, bit_not, bit_shl, bit_man_mask by lia. destruct (Z.ltb_spec i (Z.of_nat (W c))); [|lia]. cbn [andb]. rewrite andb_true_r.
  destruct (Z.ltb_spec (Z.of_nat (X c)) i), (Z.leb_spec (Z.of_nat (X c + 1)) i); cbn [andb negb]; rewrite ?andb_true_r, ?andb_false_r, ?orb_false_r; cbn [orb]; auto; lia.
Qed.
Lemma put_positive v pos : 0 <= v < 2 ^ Z.of_nat (W c) -> put v (mp_set_positive c v pos) (fun i => if i =? 0 then negb pos else Z.testbit v i).
Proof.
  intros V. apply put_lor; [now apply land_range|destruct pos; split; try lia; apply Z.pow_gt_1; lia|]. intros i Hi. rewrite Z.land_spec, bit_not by lia. unfold sign_mask. rewrite bit_one by lia. destruct (Z.ltb_spec i (Z.of_nat (W c))); [|lia]. cbn [andb].
  destruct (Z.eqb_spec i 0); subst; cbn [negb]; rewrite ?andb_false_r, ?andb_true_r; destruct pos; cbn [orb negb]; rewrite ?Z.bits_0, ?orb_false_r; auto. rewrite bit_one by lia. destruct (Z.eqb_spec i 0); [lia|apply orb_false_r].
Qed.
Lemma field_ex v i : 0 <= i -> Z.testbit (v / 2 mod p2 (X c)) i = (i <? Z.of_nat (X c)) && Z.testbit v (i + 1).
Proof. intros A. unfold p2. rewrite bit_mod by lia. change 2 with (2 ^ 1) at 1. now rewrite bit_div by lia. Qed.
Lemma field_man v i : 0 <= i -> Z.testbit (v / p2 (X c + 1) mod p2 (man_len c)) i = (i <? Z.of_nat (man_len c)) && Z.testbit v (i + Z.of_nat (X c + 1)).
Proof. intros A. unfold p2. rewrite bit_mod by lia. now rewrite bit_div by lia. Qed.
Lemma field_neg v : (v mod 2 =? 1) = Z.testbit v 0.
Proof. rewrite <- Z.bit0_mod. now destruct (Z.testbit v 0). Qed.
Lemma dec_eq a b : neg a = neg b -> ex a = ex b -> man a = man b -> a = b. Proof. destruct a, b; cbn. now intros -> -> ->. Qed.
Lemma man_len_W : Z.of_nat (W c) = Z.of_nat (X c + 1) + Z.of_nat (man_len c). Proof. unfold man_len. lia. Qed.
Lemma step_fields v o : 0 <= v < 2 ^ Z.of_nat (W c) -> op_ok c o -> 0 <= mp_step c v o < 2 ^ Z.of_nat (W c) /\ fields (mp_step c v o) = data_step c (fields v) o.
Proof.
  intros V O. pose proof man_len_W as MW. destruct o as [pos|e|m|r]; cbn [op_ok mp_step data_step] in *.
  - destruct (put_positive v pos V) as [R B]. split; auto. set (w := mp_set_positive c v pos) in *. apply dec_eq; unfold fields, from_bits; cbn [neg ex man].
    + rewrite field_neg, B by lia. destruct (Z.ltb_spec 0 (Z.of_nat (W c))); [reflexivity|lia].
    + f_equal. apply Z.bits_inj'. intros i Hi. rewrite !field_ex, B by lia. destruct (Z.ltb_spec i (Z.of_nat (X c))); cbn [andb]; auto. destruct (Z.ltb_spec (i + 1) (Z.of_nat (W c))); [|lia]. destruct (Z.eqb_spec (i + 1) 0); [lia|reflexivity].
    + apply Z.bits_inj'. intros i Hi. rewrite !field_man, B by lia. destruct (Z.ltb_spec i (Z.of_nat (man_len c))); cbn [andb]; auto. destruct (Z.ltb_spec (i + Z.of_nat (X c + 1)) (Z.of_nat (W c))); [|lia]. destruct (Z.eqb_spec (i + Z.of_nat (X c + 1)) 0); [lia|reflexivity].
  - destruct (put_exp v e V O) as [R B]. split; auto. set (w := mp_set_exp c v e) in *. apply dec_eq; unfold fields, from_bits, set_exp; cbn [neg ex man].
    + rewrite !field_neg, B by lia. destruct (Z.ltb_spec 0 (Z.of_nat (W c))); [reflexivity|lia].
    + assert (P : (Z.to_nat e < 2 ^ X c)%nat) by (apply Nat2Z.inj_lt; rewrite Nat2Z.inj_pow, Z2Nat.id by lia; cbn; lia). rewrite Nat.mod_small by auto. f_equal.
      apply Z.bits_inj'. intros i Hi. rewrite !field_ex, B by lia. destruct (Z.ltb_spec i (Z.of_nat (X c))); cbn [andb]; [|now rewrite (bit_high e (Z.of_nat (X c))) by lia]. destruct (Z.ltb_spec (i + 1) (Z.of_nat (W c))); [|lia].
      destruct (Z.leb_spec 1 (i + 1)), (Z.leb_spec (i + 1) (Z.of_nat (X c))); cbn [andb]; try lia. f_equal. lia.
    + apply Z.bits_inj'. intros i Hi. rewrite !field_man, B by lia. destruct (Z.ltb_spec i (Z.of_nat (man_len c))); cbn [andb]; auto. destruct (Z.ltb_spec (i + Z.of_nat (X c + 1)) (Z.of_nat (W c))); [|lia]. cbn [andb].
      destruct (Z.leb_spec (i + Z.of_nat (X c + 1)) (Z.of_nat (X c))); [lia|]. now rewrite andb_false_r.
  - destruct (put_man v m V) as [R B]. split; auto. set (w := mp_set_man c v m) in *. apply dec_eq; unfold fields, from_bits, set_man; cbn [neg ex man].
    + rewrite !field_neg, B by lia. destruct (Z.ltb_spec 0 (Z.of_nat (W c))); [|lia]. destruct (Z.ltb_spec (Z.of_nat (X c)) 0); [lia|reflexivity].
    + f_equal. apply Z.bits_inj'. intros i Hi. rewrite !field_ex, B by lia. destruct (Z.ltb_spec i (Z.of_nat (X c))); cbn [andb]; auto. destruct (Z.ltb_spec (i + 1) (Z.of_nat (W c))); [|lia]. destruct (Z.ltb_spec (Z.of_nat (X c)) (i + 1)); [lia|reflexivity].
    + apply Z.bits_inj'. intros i Hi. rewrite !field_man, B by lia. unfold p2. rewrite bit_mod by lia. destruct (Z.ltb_spec i (Z.of_nat (man_len c))); cbn [andb]; auto. destruct (Z.ltb_spec (i + Z.of_nat (X c + 1)) (Z.of_nat (W c))); [|lia].
      destruct (Z.ltb_spec (Z.of_nat (X c)) (i + Z.of_nat (X c + 1))); [|lia]. cbn [andb]. f_equal. lia.
  - split; auto.
Qed.
Lemma view_fields v : 0 <= v < 2 ^ Z.of_nat (W c) -> mp_view c v = data_view c (fields v).
Proof.
  intros V. pose proof man_len_W as MW. destruct (decimal_bits_round_trip c Hc) as [_ RT]. destruct (RT v V) as [_ TB]. unfold mp_view, data_view. change (fields v) with (from_bits c v). rewrite TB. f_equal. f_equal; [f_equal|].
  - unfold from_bits, mp_positive, sign_mask. cbn [neg]. rewrite field_neg. assert (L : Z.land v 1 = Z.b2z (Z.testbit v 0)).
    { apply Z.bits_inj'. intros i Hi. rewrite Z.land_spec, bit_one by lia. destruct (Z.eqb_spec i 0) as [->|N]; [rewrite andb_true_r; now destruct (Z.testbit v 0)|]. rewrite andb_false_r. destruct (Z.testbit v 0); cbn [Z.b2z]; [rewrite bit_one by lia; lia|now rewrite Z.bits_0]. }
    rewrite L. now destruct (Z.testbit v 0).
  - unfold from_bits, mp_exp. cbn [ex]. assert (P0 : 0 <= v / 2 mod p2 (X c) < p2 (X c)) by (apply Z.mod_pos_bound, Z.pow_pos_nonneg; lia). assert (P1 : p2 (X c) <= 2 ^ 8) by (apply Z.pow_le_mono_r; lia). rewrite Z2Nat.id by lia.
    transitivity ((v / 2 mod p2 (X c)) mod 256); [|apply Z.mod_small; lia]. f_equal. apply Z.bits_inj'. intros i Hi. rewrite field_ex, Z.shiftr_spec, Z.land_spec, bit_exp_mask by lia.
    destruct (Z.ltb_spec i (Z.of_nat (X c))), (Z.leb_spec 1 (i + 1)), (Z.leb_spec (i + 1) (Z.of_nat (X c))); cbn [andb]; rewrite ?andb_true_r, ?andb_false_r; auto; lia.
  - unfold from_bits, mp_man. cbn [man]. apply Z.bits_inj'. intros i Hi. rewrite field_man, Z.shiftr_spec by lia. destruct (Z.ltb_spec i (Z.of_nat (man_len c))); cbn [andb]; auto. apply (bit_high v (Z.of_nat (W c))); auto. lia.
Qed.
(** Every program over the interface of the data sees the same with both representations. *)
Theorem multiprecision_data_partial pos e m (ops : list op) : op_ok c (SetExp e) -> op_ok c (SetMan m) -> Forall (op_ok c) ops ->
  mp_view c (fold_left (mp_step c) ops (mp_make c pos e m)) =
  data_view c (fold_left (data_step c) ops {| neg := negb pos; ex := Z.to_nat e; man := m mod 2 ^ Z.of_nat (man_len c) |}).
Proof.
  intros E M O. set (v0 := mp_make c pos e m). set (d0 := {| neg := _; ex := _; man := _ |}).
  assert (W0 : 0 < 2 ^ Z.of_nat (W c)) by (apply Z.pow_pos_nonneg; lia).
  assert (I : 0 <= v0 < 2 ^ Z.of_nat (W c) /\ fields v0 = d0).
  { destruct (step_fields 0 (SetPositive pos) ltac:(lia) Logic.I) as [A1 A2]. destruct (step_fields _ (SetExp e) A1 E) as [B1 B2]. destruct (step_fields _ (SetMan m) B1 M) as [C1 C2]. cbn [mp_step data_step] in *.
    split; [exact C1|]. unfold v0, mp_make. rewrite C2, B2, A2. unfold d0, set_man, set_exp, fields, from_bits. cbn [neg ex man].
    assert (P : (Z.to_nat e < 2 ^ X c)%nat) by (cbn in E; apply Nat2Z.inj_lt; rewrite Nat2Z.inj_pow, Z2Nat.id by lia; cbn; lia). now rewrite Nat.mod_small. }
  clearbody v0 d0. revert v0 d0 I. induction O as [|o ops Ho _ IH]; intros v d [R F]; cbn [fold_left].
  - subst d. now apply view_fields.
  - apply IH. destruct (step_fields v o R Ho) as [R' F']. split; auto. now rewrite F', F.
Qed.
End M.
(** An exponent that does not fit goes into the mantissa; a bit-field drops the high bits. *)
Theorem multiprecision_exp_refuted : exists c v e, (X c + 2 <= W c)%nat /\ 0 <= v < 2 ^ Z.of_nat (W c) /\ 0 <= e < 256 /\
  mp_man c v = 4 /\ mp_man c (mp_set_exp c v e) = 5 /\ man (data_step c (from_bits c v) (SetExp e)) = 4.
Proof. exists {| W := 128; X := 4 |}, (32 * 4), 16. vm_compute. repeat split; try discriminate; repeat constructor. Qed.
(** The length of the mantissa is computed in uint8_t ("TODO: uint8_t is not enough for boost::multiprecision"):
    right up to 256 bits, *)
Theorem multiprecision_man_len_partial c : (W c = 64 \/ W c = 128 \/ W c = 256)%nat -> (X c + 1 <= W c)%nat -> mp_man_len c = Z.of_nat (man_len c) mod 256.
Proof. intros [E|[E|E]] H; unfold mp_man_len, man_len; rewrite E; change (Z.of_nat (64 / 8) mod 256 * 8) with 64; change (Z.of_nat (128 / 8) mod 256 * 8) with 128; change (Z.of_nat (256 / 8) mod 256 * 8) with 256; f_equal; lia. Qed.
(** but with uint512_t the largest mantissa has 251 bits although 507 are stored. *)
Theorem multiprecision_man_len_refuted : exists c, W c = 512%nat /\ mp_man_len c = 251 /\ man_len c = 507%nat /\ mp_man c (mp_make c true 0 (2 ^ 300)) = 2 ^ 300.
Proof. exists {| W := 512; X := 4 |}. split; [reflexivity|]. split; [reflexivity|]. split; [reflexivity|]. vm_compute. reflexivity. Qed.

(** ** C73: numbers in streams *)
(** The number of a sequence of bytes, the most significant one first *)
Fixpoint number_of (l : list Z) : Z := match l with [] => 0 | b :: r => b * 256 ^ Z.of_nat (length r) + number_of r end.
Definition byte (b : Z) : Prop := 0 <= b < 256.
(** The values of a type *)
Definition in_range (t : num_type) (z : Z) : Prop := Z.abs z < 2 ^ Z.of_nat (width t) /\ (is_signed t = false -> 0 <= z).

Lemma number_app a b : number_of (a ++ b) = number_of a * 256 ^ Z.of_nat (length b) + number_of b.
Proof. induction a as [|x a IH]; cbn [app number_of]; [lia|]. rewrite IH, app_length, Nat2Z.inj_add, Z.pow_add_r by lia. ring. Qed.
Lemma be_length n m : length (be n m) = n.
Proof. revert m. induction n as [|n IH]; intros m; cbn [be]; auto. rewrite app_length, IH. cbn. lia. Qed.
Lemma be_bytes n m : Forall byte (be n m).
Proof. revert m. induction n as [|n IH]; intros m; cbn [be]; auto. apply Forall_app. split; auto. constructor; auto. unfold byte. apply Z.mod_pos_bound. lia. Qed.
Lemma be_number n m : 0 <= m < 256 ^ Z.of_nat n -> number_of (be n m) = m.
Proof.
  revert m. induction n as [|n IH]; intros m H; cbn [be]; [cbn in *; lia|]. rewrite Nat2Z.inj_succ, Z.pow_succ_r in H by lia. rewrite number_app, IH.
  - cbn. pose proof (Z.div_mod m 256 ltac:(lia)). lia.
  - split; [apply Z.div_pos; lia|apply Z.div_lt_upper_bound; lia].
Qed.
Lemma fold_number l a : fold_left (fun a b => a * 256 + b) l a = a * 256 ^ Z.of_nat (length l) + number_of l.
Proof. revert a. induction l as [|b l IH]; intros a; cbn [fold_left number_of length]; [cbn; lia|]. rewrite IH, Nat2Z.inj_succ, Z.pow_succ_r by lia. ring. Qed.
Lemma count_spec m : 0 <= m -> m < 256 ^ Z.of_nat (byte_count m) /\ (m <> 0 -> 256 ^ (Z.of_nat (byte_count m) - 1) <= m) /\ (1 <= byte_count m)%nat.
Proof.
  intros H. unfold byte_count. destruct (Z.eqb_spec m 0) as [->|N]; [cbn; lia|]. pose proof (Z.log2_spec m ltac:(lia)) as [L1 L2]. pose proof (Z.log2_nonneg m). assert (0 <= Z.log2 m / 8) by (apply Z.div_pos; lia). rewrite Z2Nat.id by lia.
  change 256 with (2 ^ 8). rewrite <- !Z.pow_mul_r by lia. pose proof (Z.div_mod (Z.log2 m) 8 ltac:(lia)). pose proof (Z.mod_pos_bound (Z.log2 m) 8 ltac:(lia)). split; [|split; [|lia]].
  - eapply Z.lt_le_trans; [exact L2|]. apply Z.pow_le_mono_r; lia.
  - intros _. eapply Z.le_trans; [|exact L1]. apply Z.pow_le_mono_r; lia.
Qed.
Lemma count_bound m k : 0 <= m -> (1 <= k)%nat -> (byte_count m <= k)%nat <-> m < 256 ^ Z.of_nat k.
Proof.
  intros H K. destruct (count_spec m H) as (A & B & C). split; intros G.
  - eapply Z.lt_le_trans; [exact A|]. apply Z.pow_le_mono_r; lia.
  - destruct (Z.eq_dec m 0) as [->|N]; [cbn; lia|]. specialize (B N). assert (L : 256 ^ (Z.of_nat (byte_count m) - 1) < 256 ^ Z.of_nat k) by lia. apply Z.pow_lt_mono_r_iff in L; lia.
Qed.
Lemma export_number z : number_of (export_bits z) = Z.abs z.
Proof. unfold export_bits. apply be_number. split; [lia|]. apply count_spec. lia. Qed.
(** A number below 2^1016 is written, others throw. *)
Theorem multiprecision_write_limit z : (exists l, mp_write z = Ok l) <-> Z.abs z < 2 ^ 1016.
Proof.
  unfold mp_write, export_bits. rewrite be_length. pose proof (count_bound (Z.abs z) 127 ltac:(lia) ltac:(lia)) as B. change (256 ^ Z.of_nat 127) with (2 ^ 1016) in B. destruct (Nat.ltb_spec 127 (byte_count (Z.abs z))).
  - split; [intros [l E]; discriminate|]. intros K. lia.
  - split; [intros _; lia|]. intros _. eauto.
Qed.
(** The bytes: the sign and the number of bytes, then the magnitude without leading zeros *)
Theorem multiprecision_bytes z l : mp_write z = Ok l ->
  exists n m, l = n :: m /\ n = Z.of_nat (length m) + (if z <? 0 then 128 else 0) /\ number_of m = Z.abs z /\ (1 <= length m <= 127)%nat /\ Forall byte l /\
    (forall m', Forall byte m' -> number_of m' = Z.abs z -> m' <> [] -> (length m <= length m')%nat).
Proof.
  unfold mp_write. intros E. destruct (127 <? length (export_bits z))%nat eqn:L; [discriminate|]. injection E as <-. pose proof (export_number z) as N. set (m := export_bits z) in *.
  assert (LM : length m = byte_count (Z.abs z)) by apply be_length. destruct (count_spec (Z.abs z) ltac:(lia)) as (C1 & C2 & C3). exists (Z.of_nat (length m) + (if z <? 0 then 128 else 0)), m. repeat split; auto; try lia.
  - constructor; [unfold byte; destruct (z <? 0); lia|apply be_bytes].
  - intros m' F Nm' NE. rewrite LM. apply count_bound; [lia|destruct m'; [contradiction|cbn; lia]|]. rewrite <- Nm'. clear - F.
    induction F as [|b r Hb _ IH]; cbn [number_of length]; [cbn; lia|]. unfold byte in Hb. rewrite Nat2Z.inj_succ, Z.pow_succ_r by lia. nia.
Qed.
(** What is written is read back, and nothing after it. *)
Theorem multiprecision_round_trip_partial t z l rest : in_range t z -> mp_write z = Ok l -> mp_read t (l ++ rest) = Ok (z, rest).
Proof.
  intros [R S] E. destruct (multiprecision_bytes z l E) as (n & m & -> & -> & N & L & _). cbn [app mp_read]. set (k := Z.of_nat (length m)) in *.
  assert (M : (k + (if z <? 0 then 128 else 0)) mod 128 = k). { destruct (z <? 0). - rewrite Z.add_mod, Z.mod_same, Z.add_0_r, Z.mod_mod, Z.mod_small by lia. lia. - rewrite Z.add_0_r. apply Z.mod_small. lia. }
  rewrite M. assert (KN : Z.to_nat k = length m) by apply Nat2Z.id. rewrite KN, app_length. destruct (Nat.ltb_spec (length m + length rest) (length m)); [lia|]. assert (F1 : firstn (length m) (m ++ rest) = m) by (rewrite firstn_app, Nat.sub_diag, firstn_all; cbn; apply app_nil_r). assert (F2 : skipn (length m) (m ++ rest) = rest) by (rewrite skipn_app, Nat.sub_diag, skipn_all; reflexivity). rewrite F1, F2. f_equal. f_equal.
  unfold import_bits. rewrite fold_number, Z.mul_0_l, Z.add_0_l, N, (Z.mod_small (Z.abs z)) by lia. destruct (Z.ltb_spec z 0).
  - destruct (Z.leb_spec 128 (k + 128)); [|lia]. unfold negate_num. destruct (is_signed t); [lia|]. specialize (S eq_refl). lia.
  - destruct (Z.leb_spec 128 (k + 0)); [unfold k in *; lia|lia].
Qed.
(** All the types up to 512 bits can be written: there is no exception. *)
Theorem multiprecision_total t z : (width t <= 1016)%nat -> in_range t z -> exists l, mp_write z = Ok l /\ forall rest, mp_read t (l ++ rest) = Ok (z, rest).
Proof.
  intros W R. assert (K : Z.abs z < 2 ^ 1016) by (destruct R as [R _]; eapply Z.lt_le_trans; [exact R|]; apply Z.pow_le_mono_r; lia). apply multiprecision_write_limit in K as [l E]. exists l. split; auto. intros rest. now apply multiprecision_round_trip_partial.
Qed.
(** Data that ends early is never accepted. *)
Theorem multiprecision_truncated t z l k : mp_write z = Ok l -> (k < length l)%nat -> mp_read t (firstn k l) = Throw EndOfFile.
Proof.
  intros E K. destruct (multiprecision_bytes z l E) as (n & m & -> & -> & N & L & _). destruct k as [|k]; [reflexivity|]. cbn [firstn mp_read length] in *. set (j := Z.of_nat (length m)) in *.
  assert (M : (j + (if z <? 0 then 128 else 0)) mod 128 = j). { destruct (z <? 0). - rewrite Z.add_mod, Z.mod_same, Z.add_0_r, Z.mod_mod, Z.mod_small by lia. lia. - rewrite Z.add_0_r. apply Z.mod_small. lia. }
  rewrite M. unfold j. rewrite Nat2Z.id, firstn_length. destruct (Nat.ltb_spec (Nat.min k (length m)) (length m)); auto. lia.
Qed.
(** Different numbers have different bytes, none of which begin with the other's. *)
Theorem multiprecision_prefix a b la lb rest : mp_write a = Ok la -> mp_write b = Ok lb -> lb = la ++ rest -> a = b.
Proof.
  intros A B E. set (t := {| is_signed := true; width := Z.to_nat 1016 |}).
  assert (R : forall z l, mp_write z = Ok l -> in_range t z). { intros z l W. split; [|discriminate]. cbn [width t]. rewrite Z2Nat.id by lia. apply multiprecision_write_limit. eauto. }
  pose proof (multiprecision_round_trip_partial t a la rest (R a la A) A) as RA. pose proof (multiprecision_round_trip_partial t b lb [] (R b lb B) B) as RB. rewrite app_nil_r in RB. subst lb. rewrite RA in RB. now injection RB.
Qed.
(** int1024_t: the largest numbers are not written. *)
Theorem multiprecision_wide_refuted : exists t z, width t = 1024%nat /\ in_range t z /\ mp_write z = Throw Corruption.
Proof. exists {| is_signed := true; width := 1024 |}, (2 ^ 1016). split; [reflexivity|]. split; [split; [reflexivity|discriminate]|]. vm_compute. reflexivity. Qed.
(** Malformed data is accepted: a minus sign of an unsigned number, bytes that do not fit, other bytes of one number. *)
Theorem multiprecision_malformed_refuted : exists t, is_signed t = false /\
  mp_read t [129; 1] = Ok (2 ^ 128 - 1, []) /\ mp_read t (17 :: 1 :: repeat 0 16) = Ok (0, []) /\ mp_read t [2; 0; 7] = mp_read t [1; 7].
Proof. exists {| is_signed := false; width := 128 |}. vm_compute. repeat split. Qed.

(** ** Examples *)
Example multiprecision_data_demo : let c := {| W := 256; X := 5 |} in
  mp_view c (fold_left (mp_step c) [SetExp 7; SetPositive false; SetMan (2 ^ 200 + 1)] (mp_make c true 3 5)) = (false, 7, 2 ^ 200 + 1, 1 + 2 * 7 + 64 * (2 ^ 200 + 1)) /\
  Forall (op_ok c) [SetExp 7; SetPositive false; SetMan (2 ^ 200 + 1)].
Proof. split; [vm_compute; reflexivity|]. repeat constructor; vm_compute; try discriminate; auto. Qed.
Example multiprecision_rw_demo : let t := {| is_signed := true; width := 128 |} in
  mp_write (-300) = Ok [130; 1; 44] /\ mp_read t [130; 1; 44; 99] = Ok (-300, [99]) /\ mp_write 0 = Ok [1; 0] /\ in_range t (-300) /\
  mp_read t [130; 1] = Throw EndOfFile /\ mp_write (2 ^ 64) = Ok [9; 1; 0; 0; 0; 0; 0; 0; 0; 0].
Proof. repeat split; discriminate. Qed.
