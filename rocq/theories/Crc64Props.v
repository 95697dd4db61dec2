(** CRC-64 (C30). *)
From Coq Require Import ZifyBool ZifyNat Btauto.
From Verif Require Import Common Int2ArrayModel Int2ArrayProps Crc64Model.
Local Open Scope Z_scope.

(** ** Specification: the shift register of the "Jones" polynomial 0xad93d23594c935a9,
    reflected, fed with the bits of the message, the lowest bit of a byte first *)
Definition poly : Z := 0x95ac9329ac4bc9b5.
Definition bit_step (s : Z) (b : bool) : Z :=
  if xorb (Z.odd s) b then Z.lxor (s / 2) poly else s / 2.
Definition byte_bits (b : Z) : list bool := map (fun i => Z.testbit b (Z.of_nat i)) (seq 0 8).
Definition msg_bits (msg : list Z) : list bool := flat_map byte_bits msg.
Definition u64 (s : Z) : Prop := 0 <= s < 2 ^ 64.

(** ** Proofs *)
Definition BS (s : Z) : Z := if Z.odd s then Z.lxor (Z.shiftr s 1) poly else Z.shiftr s 1.
Lemma odd_lxor a b : Z.odd (Z.lxor a b) = xorb (Z.odd a) (Z.odd b).
Proof. rewrite <- !Z.bit0_odd. apply Z.lxor_spec. Qed.
Lemma odd_shiftl y : Z.odd (Z.shiftl y 1) = false.
Proof. rewrite <- Z.bit0_odd. apply Z.shiftl_spec_low. lia. Qed.
Lemma shiftr_shiftl1 y n : 0 <= n -> Z.shiftr (Z.shiftl y n) n = y.
Proof. intros Hn. rewrite Z.shiftr_shiftl_l by lia. now rewrite Z.sub_diag, Z.shiftl_0_r. Qed.
Lemma bit_step_BS s b : bit_step s b = BS (Z.lxor s (Z.b2z b)).
Proof.
  unfold bit_step, BS. rewrite odd_lxor. replace (Z.odd (Z.b2z b)) with b by now destruct b.
  rewrite Z.shiftr_lxor. replace (Z.shiftr (Z.b2z b) 1) with 0 by now destruct b. rewrite Z.lxor_0_r, Z.shiftr_div_pow2 by lia. reflexivity.
Qed.
Lemma BS_lxor x y : BS (Z.lxor x (Z.shiftl y 1)) = Z.lxor (BS x) y.
Proof.
  unfold BS. rewrite odd_lxor, odd_shiftl, xorb_false_r, Z.shiftr_lxor, shiftr_shiftl1 by lia. destruct (Z.odd x); [|reflexivity].
  rewrite !Z.lxor_assoc. f_equal. apply Z.lxor_comm.
Qed.
Fixpoint iter (n : nat) (x : Z) : Z := match n with O => x | S n => iter n (BS x) end.
Lemma iter_lxor n : forall x y, iter n (Z.lxor x (Z.shiftl y (Z.of_nat n))) = Z.lxor (iter n x) y.
Proof.
  induction n as [|n IH]; intros x y; cbn [iter]; [now rewrite Z.shiftl_0_r|].
  replace (Z.of_nat (S n)) with (Z.of_nat n + 1) by lia. rewrite <- Z.shiftl_shiftl by lia. now rewrite BS_lxor, IH.
Qed.
Fixpoint W (bs : list bool) : Z := match bs with [] => 0 | b :: r => Z.lxor (Z.b2z b) (Z.shiftl (W r) 1) end.
Lemma fold_bits bs : forall s, fold_left bit_step bs s = iter (length bs) (Z.lxor s (W bs)).
Proof.
  induction bs as [|b bs IH]; intros s; cbn [fold_left length iter W]; [now rewrite Z.lxor_0_r|].
  rewrite IH, bit_step_BS, <- Z.lxor_assoc, BS_lxor. reflexivity.
Qed.
Lemma all_bytes (P : Z -> bool) : forallb P (map Z.of_nat (seq 0 256)) = true -> forall b, is_byte b -> P b = true.
Proof.
  intros F b Hb. unfold is_byte in Hb. rewrite forallb_forall in F. apply F. apply in_map_iff. exists (Z.to_nat b). split; [lia|]. apply in_seq. lia.
Qed.
Lemma W_byte b : is_byte b -> W (byte_bits b) = b.
Proof. intros Hb. apply Z.eqb_eq. revert b Hb. apply (all_bytes (fun b => W (byte_bits b) =? b)). vm_compute. reflexivity. Qed.
Lemma tab_spec b : is_byte b -> nth (Z.to_nat b) crc64_tab 0 = iter 8 b.
Proof. intros Hb. apply Z.eqb_eq. revert b Hb. apply (all_bytes (fun b => nth (Z.to_nat b) crc64_tab 0 =? iter 8 b)). vm_compute. reflexivity. Qed.
Lemma split_byte x : x = Z.lxor (Z.land x 255) (Z.shiftl (Z.shiftr x 8) 8).
Proof.
  apply Z.bits_inj'. intros n Hn. rewrite Z.lxor_spec. change 255 with (Z.ones 8). destruct (Z.ltb_spec n 8) as [L|L].
  - rewrite Z.land_spec, Z.ones_spec_low, Z.shiftl_spec_low by lia. now rewrite andb_true_r, xorb_false_r.
  - rewrite Z.land_spec, Z.ones_spec_high, Z.shiftl_spec_high by lia. rewrite Z.shiftr_spec by lia. replace (n - 8 + 8) with n by lia. now rewrite andb_false_r, xorb_false_l.
Qed.
Lemma land_byte b : is_byte b -> Z.land b 255 = b.
Proof. intros Hb. unfold is_byte in Hb. change 255 with (Z.ones 8). rewrite Z.land_ones by lia. apply Z.mod_small. exact Hb. Qed.
Lemma shiftr_byte b : is_byte b -> Z.shiftr b 8 = 0.
Proof. intros Hb. unfold is_byte in Hb. rewrite Z.shiftr_div_pow2 by lia. apply Z.div_small. exact Hb. Qed.
Lemma land_is_byte x : is_byte (Z.land x 255).
Proof. unfold is_byte. change 255 with (Z.ones 8). rewrite Z.land_ones by lia. apply Z.mod_pos_bound. reflexivity. Qed.

Lemma calc_bits s b : is_byte b -> calc s b = fold_left bit_step (byte_bits b) s.
Proof.
  intros Hb. rewrite fold_bits, W_byte by auto. change (length (byte_bits b)) with 8%nat. unfold calc.
  assert (E : Z.lxor (Z.land s 255) b = Z.land (Z.lxor s b) 255).
  { rewrite <- (land_byte b Hb) at 1. apply Z.bits_inj'. intros n Hn. rewrite Z.lxor_spec, !Z.land_spec, Z.lxor_spec. destruct (Z.testbit s n), (Z.testbit b n), (Z.testbit 255 n); reflexivity. }
  rewrite E, tab_spec by apply land_is_byte. rewrite (split_byte (Z.lxor s b)) at 2.
  pose proof (iter_lxor 8 (Z.land (Z.lxor s b) 255) (Z.shiftr (Z.lxor s b) 8)) as I. change (Z.of_nat 8) with 8 in I. rewrite I. f_equal.
  rewrite Z.shiftr_lxor, (shiftr_byte b) by auto. now rewrite Z.lxor_0_r.
Qed.
Lemma run_bits msg : Forall is_byte msg -> forall s, crc_run s msg = fold_left bit_step (msg_bits msg) s.
Proof.
  unfold crc_run, msg_bits. induction 1 as [|b msg Hb Hm IH]; intros s; [reflexivity|]. cbn [fold_left flat_map]. now rewrite fold_left_app, <- calc_bits, IH.
Qed.

(** The register is a bijection. *)
Lemma u64_bits s : 0 <= s -> (u64 s <-> forall n, 64 <= n -> Z.testbit s n = false).
Proof.
  intros Hs. unfold u64. split.
  - intros [_ L] n Hn. destruct (Z.eq_dec s 0) as [->|N]; [apply Z.bits_0|]. apply Z.bits_above_log2; [auto|]. apply Z.log2_lt_pow2; [lia|]. apply Z.lt_le_trans with (2 ^ 64); [auto|]. apply Z.pow_le_mono_r; lia.
  - intros A. split; [auto|]. destruct (Z.eq_dec s 0) as [->|N]; [reflexivity|]. apply Z.log2_lt_pow2; [lia|].
    destruct (Z.ltb_spec (Z.log2 s) 64) as [L|L]; [auto|]. specialize (A _ L). rewrite Z.bit_log2 in A by lia. discriminate.
Qed.
Lemma u64_lxor a b : u64 a -> u64 b -> u64 (Z.lxor a b).
Proof.
  intros A B. assert (0 <= Z.lxor a b) by (apply Z.lxor_nonneg; unfold u64 in *; lia). apply u64_bits; auto. intros n Hn. rewrite Z.lxor_spec.
  rewrite (proj1 (u64_bits a ltac:(unfold u64 in *; lia)) A), (proj1 (u64_bits b ltac:(unfold u64 in *; lia)) B) by auto. reflexivity.
Qed.
Lemma u64_shiftr a : u64 a -> u64 (Z.shiftr a 1).
Proof. unfold u64. intros A. rewrite Z.shiftr_div_pow2 by lia. change (2 ^ 1) with 2. split; [apply Z.div_pos; lia|]. apply Z.le_lt_trans with a; [|lia]. apply Z.div_le_upper_bound; lia. Qed.
Lemma poly_u64 : u64 poly.
Proof. unfold u64. vm_compute. split; [discriminate|reflexivity]. Qed.
Lemma BS_u64 s : u64 s -> u64 (BS s).
Proof. intros U. unfold BS. destruct (Z.odd s); [apply u64_lxor; [|apply poly_u64]|]; now apply u64_shiftr. Qed.
Lemma BS_bit63 s : u64 s -> Z.testbit (BS s) 63 = Z.odd s.
Proof.
  intros U. assert (E : Z.testbit (Z.shiftr s 1) 63 = false).
  { rewrite Z.shiftr_spec by lia. apply (u64_bits s); auto; unfold u64 in *; lia. }
  unfold BS. destruct (Z.odd s); [|auto]. rewrite Z.lxor_spec, E. reflexivity.
Qed.
Lemma lxor_cancel a b c : Z.lxor a c = Z.lxor b c -> a = b.
Proof. intros E. rewrite <- (Z.lxor_0_r a), <- (Z.lxor_nilpotent c), <- Z.lxor_assoc, E, Z.lxor_assoc, Z.lxor_nilpotent. apply Z.lxor_0_r. Qed.
Lemma BS_inj s t : u64 s -> u64 t -> BS s = BS t -> s = t.
Proof.
  intros Us Ut E. assert (O : Z.odd s = Z.odd t) by (rewrite <- !BS_bit63 by auto; now rewrite E).
  assert (S1 : Z.shiftr s 1 = Z.shiftr t 1).
  { unfold BS in E. rewrite O in E. destruct (Z.odd t); [now apply lxor_cancel in E|auto]. }
  rewrite !Z.shiftr_div_pow2 in S1 by lia. change (2 ^ 1) with 2 in S1. rewrite (Z.div_mod s 2), (Z.div_mod t 2) by lia. rewrite !Zmod_odd, O, S1. reflexivity.
Qed.
Lemma iter_inj n : forall s t, u64 s -> u64 t -> iter n s = iter n t -> s = t.
Proof. induction n as [|n IH]; intros s t Us Ut E; [exact E|]. apply BS_inj; auto. apply IH; auto using BS_u64. Qed.
Lemma iter_u64 n : forall s, u64 s -> u64 (iter n s).
Proof. induction n; intros s U; cbn; auto using BS_u64. Qed.
Lemma W_bound bs : 0 <= W bs < 2 ^ Z.of_nat (length bs).
Proof.
  induction bs as [|b bs IH]; cbn [W length]; [cbn; lia|]. rewrite Z.shiftl_mul_pow2 by lia. change (2 ^ 1) with 2.
  replace (Z.lxor (Z.b2z b) (W bs * 2)) with (Z.b2z b + 2 * W bs).
  - replace (Z.of_nat (S (length bs))) with (Z.of_nat (length bs) + 1) by lia. rewrite Z.pow_add_r by lia. change (2 ^ 1) with 2. destruct b; cbn [Z.b2z]; lia.
  - rewrite Z.mul_comm. symmetry. rewrite <- Z.add_nocarry_lxor; [lia|]. apply Z.bits_inj'. intros n Hn. rewrite Z.land_spec, Z.bits_0. destruct (Z.eq_dec n 0) as [->|N].
    + rewrite Z.mul_comm, Z.testbit_even_0. apply andb_false_r.
    + destruct b; cbn [Z.b2z]; [|now rewrite Z.bits_0]. replace (Z.testbit 1 n) with false; [reflexivity|]. symmetry. change 1 with (2 ^ 0). apply Z.pow2_bits_false. lia.
Qed.
Lemma W_inj a : forall b, length a = length b -> W a = W b -> a = b.
Proof.
  induction a as [|x a IH]; intros [|y b] L E; try discriminate; [reflexivity|]. injection L as L. cbn [W] in E.
  assert (O : x = y).
  { apply (f_equal Z.odd) in E. rewrite !odd_lxor, !odd_shiftl, !xorb_false_r in E. destruct x, y; cbn in E; congruence. }
  subst y. f_equal. apply IH; auto. rewrite (Z.lxor_comm (Z.b2z x)), (Z.lxor_comm _ (Z.shiftl (W b) 1)) in E. apply lxor_cancel in E.
  apply (f_equal (fun z => Z.shiftr z 1)) in E. now rewrite !shiftr_shiftl1 in E by lia.
Qed.
Lemma W_u64 bs : (length bs <= 64)%nat -> u64 (W bs).
Proof. intros L. pose proof (W_bound bs) as [A B]. split; [auto|]. apply Z.lt_le_trans with (2 ^ Z.of_nat (length bs)); [auto|]. apply Z.pow_le_mono_r; lia. Qed.
Lemma fold_u64 bs : forall s, u64 s -> u64 (fold_left bit_step bs s).
Proof.
  induction bs as [|b bs IH]; intros s U; [exact U|]. cbn [fold_left]. apply IH. rewrite bit_step_BS. apply BS_u64. apply u64_lxor; auto. destruct b; unfold u64; cbn; lia.
Qed.
Lemma fold_inj bs : forall s t, u64 s -> u64 t -> fold_left bit_step bs s = fold_left bit_step bs t -> s = t.
Proof.
  induction bs as [|b bs IH]; intros s t Us Ut E; [exact E|]. cbn [fold_left] in E. assert (Ub : u64 (Z.b2z b)) by (destruct b; unfold u64; cbn; lia).
  apply IH in E; [|rewrite bit_step_BS; auto using BS_u64, u64_lxor|rewrite bit_step_BS; auto using BS_u64, u64_lxor].
  rewrite !bit_step_BS in E. apply BS_inj in E; auto using u64_lxor. eapply lxor_cancel; eauto.
Qed.

Lemma to_array_inj a b : u64 a -> u64 b -> to_array 8 a = to_array 8 b -> a = b.
Proof.
  intros A B E. rewrite <- (int_array_round_trip false 8 a), <- (int_array_round_trip false 8 b) by (auto; lia). now rewrite E.
Qed.
Lemma run_u64 s msg : Forall is_byte msg -> u64 s -> u64 (crc_run s msg).
Proof. intros F U. rewrite run_bits by auto. now apply fold_u64. Qed.

(** ** Theorems *)
(** The table computes the shift register, for every seed and message. *)
Theorem crc64_is_jones seed msg : u64 seed -> Forall is_byte msg ->
  crc64 seed msg = to_array 8 (fold_left bit_step (msg_bits msg) seed) /\ u64 (fold_left bit_step (msg_bits msg) seed).
Proof. intros U F. unfold crc64. rewrite run_bits by auto. split; [reflexivity|now apply fold_u64]. Qed.

(** C30, in bits: messages that differ within 64 consecutive bits, in whatever way, have
    different values. *)
Theorem crc64_detects_burst seed m1 m2 p a b q : u64 seed -> Forall is_byte m1 -> Forall is_byte m2 ->
  msg_bits m1 = p ++ a ++ q -> msg_bits m2 = p ++ b ++ q -> length a = length b -> (length a <= 64)%nat -> a <> b ->
  crc64 seed m1 <> crc64 seed m2.
Proof.
  intros U F1 F2 E1 E2 L L64 N E. apply N. unfold crc64 in E. apply to_array_inj in E; [|now apply run_u64|now apply run_u64].
  rewrite !run_bits, E1, E2, !fold_left_app in E by auto. set (s := fold_left bit_step p seed) in *. assert (Us : u64 s) by now apply fold_u64.
  apply fold_inj in E; [|now apply fold_u64|now apply fold_u64]. rewrite !fold_bits, <- L in E.
  apply iter_inj in E; [|apply u64_lxor; auto; apply W_u64; lia|apply u64_lxor; auto; apply W_u64; lia].
  rewrite !(Z.lxor_comm s) in E. apply lxor_cancel in E. now apply W_inj.
Qed.

Lemma msg_bits_app a b : msg_bits (a ++ b) = msg_bits a ++ msg_bits b.
Proof. apply flat_map_app. Qed.
Lemma msg_bits_length a : length (msg_bits a) = (8 * length a)%nat.
Proof. induction a as [|x a IH]; [reflexivity|]. cbn [msg_bits flat_map]. rewrite app_length. fold (msg_bits a). rewrite IH. cbn [length byte_bits map seq]. lia. Qed.
Lemma msg_bits_inj a : forall b, Forall is_byte a -> Forall is_byte b -> length a = length b -> msg_bits a = msg_bits b -> a = b.
Proof.
  induction a as [|x a IH]; intros [|y b] Fa Fb L E; try discriminate; [reflexivity|]. inversion Fa; inversion Fb; subst. injection L as L.
  change (byte_bits x ++ msg_bits a = byte_bits y ++ msg_bits b) in E.
  assert (S1 : forall (u v : list bool) k l, length u = length v -> u ++ k = v ++ l -> u = v /\ k = l).
  { induction u as [|h u IHu]; intros [|h' v] k l Lu Eu; cbn in *; try discriminate; auto. injection Eu as -> Eu. destruct (IHu v k l ltac:(lia) Eu) as [-> ->]. auto. }
  destruct (S1 _ _ _ _ (eq_refl : length (byte_bits x) = length (byte_bits y)) E) as [Ex Ea]. f_equal; [|now apply IH].
  rewrite <- (W_byte x), <- (W_byte y) by auto. now rewrite Ex.
Qed.
(** C30: messages that differ within 8 consecutive bytes. *)
Theorem crc64_detects_8_bytes seed p a b q : u64 seed -> Forall is_byte (p ++ a ++ q) -> Forall is_byte (p ++ b ++ q) ->
  length a = length b -> (length a <= 8)%nat -> a <> b -> crc64 seed (p ++ a ++ q) <> crc64 seed (p ++ b ++ q).
Proof.
  intros U F1 F2 L L8 N. apply (crc64_detects_burst seed _ _ (msg_bits p) (msg_bits a) (msg_bits b) (msg_bits q)); auto.
  - now rewrite !msg_bits_app.
  - now rewrite !msg_bits_app.
  - now rewrite !msg_bits_length, L.
  - rewrite msg_bits_length. lia.
  - intros E. apply N. apply Forall_app in F1, F2. destruct F1 as [_ F1], F2 as [_ F2]. apply Forall_app in F1, F2. apply msg_bits_inj; tauto.
Qed.
(** Different seeds never give the same value of the same message. *)
Theorem crc64_seed_injective s t msg : u64 s -> u64 t -> Forall is_byte msg -> crc64 s msg = crc64 t msg -> s = t.
Proof.
  intros Us Ut F E. apply to_array_inj in E; [|now apply run_u64|now apply run_u64]. rewrite !run_bits in E by auto. eapply fold_inj; eauto.
Qed.
(** Wider elements are hashed as their big-endian bytes. *)
Theorem crc64_ints_bytes w seed vals : crc64_ints w seed vals = crc64 seed (flat_map (to_array w) vals).
Proof.
  unfold crc64_ints, crc64. f_equal. revert seed. induction vals as [|v vals IH]; intros seed; [reflexivity|]. cbn [fold_left flat_map].
  rewrite IH. unfold crc_run. now rewrite fold_left_app.
Qed.
(** Int64Hash is the same number. *)
Theorem int64_hash_is_crc seed msg : u64 seed -> Forall is_byte msg -> int64_hash seed msg = fold_left bit_step (msg_bits msg) seed.
Proof.
  intros U F. unfold int64_hash. destruct (crc64_is_jones seed msg U F) as [-> U1]. apply int_array_round_trip; [lia|exact U1].
Qed.

(** The check value of the header, "123456789" with the initial value 0. *)
Example crc64_check : crc64 0 [49; 50; 51; 52; 53; 54; 55; 56; 57] = [0xe9; 0xc6; 0xd9; 0x14; 0xc4; 0xb8; 0xd9; 0xca].
Proof. vm_compute. reflexivity. Qed.
Example crc64_demo : crc64 default_seed [1; 2; 3] <> crc64 default_seed [1; 7; 9].
Proof. apply (crc64_detects_8_bytes default_seed [1] [2; 3] [7; 9] []); repeat constructor; try discriminate; unfold u64; vm_compute; intros; congruence. Qed.
(** A change of nine bytes can go unnoticed. *)
Theorem crc64_9_bytes_refuted : exists a b, length a = 9%nat /\ length b = 9%nat /\ Forall is_byte a /\ Forall is_byte b /\ a <> b /\ crc64 0 a = crc64 0 b.
Proof.
  exists (1 :: to_array 8 0), (0 :: rev (to_array 8 (iter 8 1))). split; [reflexivity|]. split; [reflexivity|].
  split; [repeat constructor; unfold is_byte; vm_compute; intuition congruence|]. split; [repeat constructor; unfold is_byte; vm_compute; intuition congruence|].
  split; [discriminate|]. vm_compute. reflexivity.
Qed.
