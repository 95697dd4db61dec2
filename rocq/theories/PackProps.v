(** C107: packed bools. *)
From Coq Require Import ZifyBool ZifyNat.
From Verif Require Import Common CompareModel CompKeyModel CodecModel PackModel.
Local Open Scope Z_scope.

(** Specification: the number of bytes, and the bit of the bytes that belongs to an index. *)
Definition bytes_for (n : nat) : nat := (n + 7) / 8.
Definition bit_at (s : bytes) (i : nat) : bool := Z.testbit (nth (i / 8) s 0) (Z.of_nat (i mod 8)).
(** The size fits in the size_type, which has at most 64 bits. *)
Definition fits (t : ity) (n : nat) : Prop := (0 < ibits t <= 64)%nat /\ Z.of_nat n <= imax t.

Section Proofs.
Variable t : ity.

Lemma pow_half : (0 < ibits t)%nat -> 2 ^ Z.of_nat (ibits t) = 2 * 2 ^ (Z.of_nat (ibits t) - 1).
Proof. intros H. rewrite <- Z.pow_succ_r by lia. f_equal. lia. Qed.

Lemma icast_id : forall z, (0 < ibits t)%nat -> 0 <= z <= imax t -> icast t z = z.
Proof.
  intros z B Z0. pose proof (pow_half B). assert (0 < 2 ^ (Z.of_nat (ibits t) - 1)) by (apply Z.pow_pos_nonneg; lia).
  unfold imax in Z0. unfold icast. destruct (isg t); cbn [andb].
  - rewrite Z.mod_small by lia. destruct (Z.leb_spec (2 ^ (Z.of_nat (ibits t) - 1)) z); lia.
  - apply Z.mod_small. lia.
Qed.

Lemma imax_le : (ibits t <= 64)%nat -> (0 < ibits t)%nat -> imax t < 2 ^ 64.
Proof.
  intros B B0. unfold imax. assert (2 ^ Z.of_nat (ibits t) <= 2 ^ 64) by (apply Z.pow_le_mono_r; lia). pose proof (pow_half B0).
  assert (0 < 2 ^ (Z.of_nat (ibits t) - 1)) by (apply Z.pow_pos_nonneg; lia). destruct (isg t); lia.
Qed.

Lemma incr_ok : forall n i, fits t n -> (i < n)%nat -> incr t (Z.of_nat i) = Ok (Z.of_nat (S i)).
Proof.
  intros n i (B & M) I. unfold incr. assert (Z.of_nat i <> imax t) by lia. destruct (Z.eqb_spec (Z.of_nat i) (imax t)); [easy|].
  rewrite andb_false_r. f_equal. rewrite icast_id; lia.
Qed.

Lemma index_ok : forall x i, fits t (length x) -> (i < length x)%nat -> index_of x (Z.of_nat i) = Ok i.
Proof.
  intros x i (B & M) I. unfold index_of. pose proof (imax_le ltac:(lia) ltac:(lia)). rewrite Z.mod_small by lia.
  destruct (Z.ltb_spec (Z.of_nat i) (Z.of_nat (length x))); [|lia]. f_equal. lia.
Qed.

Lemma lor_low : forall a j, 0 <= a < 2 ^ Z.of_nat j -> Z.lor a (2 ^ Z.of_nat j) = a + 2 ^ Z.of_nat j.
Proof.
  intros a j A. assert (L : Z.land a (2 ^ Z.of_nat j) = 0).
  { apply Z.bits_inj'. intros m M. rewrite Z.land_spec, Z.bits_0, Z.pow2_bits_eqb by lia. destruct (Z.eqb_spec (Z.of_nat j) m) as [<-|]; [|apply andb_false_r].
    rewrite andb_true_r. apply Z.testbit_false; [lia|]. rewrite Z.div_small by lia. reflexivity. }
  rewrite Z.add_nocarry_lxor by auto. symmetry. apply Z.lxor_lor. auto.
Qed.

Definition mask_at (j : nat) : Z := if (j <? 8)%nat then 2 ^ Z.of_nat j else 0.
Lemma mask_next : forall j, (j < 8)%nat -> (mask_at j * 2) mod 256 = mask_at (S j).
Proof. intros j J. do 8 (destruct j as [|j]; [reflexivity|]). lia. Qed.

Lemma skipn_nth : forall (x : list bool) i, (i < length x)%nat -> skipn i x = nth i x false :: skipn (S i) x.
Proof. induction x as [|b x IH]; intros [|i] I; cbn in *; try lia; auto. apply IH. lia. Qed.

Lemma pack_byte_S : forall f x n mask i aggr, pack_byte t (S f) x n mask i aggr =
  if (0 <? mask) && (i <? n) then
    let* k := index_of x i in let* i' := incr t i in
    pack_byte t f x n ((mask * 2) mod 256) i' (if nth k x false then Z.lor aggr mask else aggr)
  else Ok (aggr, i).
Proof. reflexivity. Qed.

Lemma pack_byte_ok : forall k j x i a, (j + k = 8)%nat -> fits t (length x) -> (i <= length x)%nat -> 0 <= a < 2 ^ Z.of_nat j ->
  pack_byte t (S k) x (Z.of_nat (length x)) (mask_at j) (Z.of_nat i) a =
  Ok (a + 2 ^ Z.of_nat j * pack (firstn k (skipn i x)), Z.of_nat (i + Nat.min k (length x - i))).
Proof.
  induction k as [|k IH]; intros j x i a J F I A.
  - assert (j = 8)%nat as -> by lia. cbn [pack_byte mask_at]. change (mask_at 8) with 0. cbn [Z.ltb Z.compare andb firstn pack]. f_equal. f_equal; lia.
  - rewrite pack_byte_S. assert (M : mask_at j = 2 ^ Z.of_nat j) by (unfold mask_at; destruct (Nat.ltb_spec j 8); auto; lia).
    assert (P : 0 < 2 ^ Z.of_nat j) by (apply Z.pow_pos_nonneg; lia). assert (Z.ltb 0 (mask_at j) = true) as -> by (rewrite M; apply Z.ltb_lt; auto). cbn [andb].
    destruct (Z.ltb_spec (Z.of_nat i) (Z.of_nat (length x))) as [L|L].
    + rewrite index_ok, (incr_ok (length x)) by (auto; lia). cbn [rbind]. rewrite mask_next by lia.
      assert (Q : 2 ^ Z.of_nat (S j) = 2 * 2 ^ Z.of_nat j) by (rewrite <- Z.pow_succ_r by lia; f_equal; lia).
      rewrite IH.
      * rewrite (skipn_nth x i) by lia. cbn [firstn pack]. f_equal. f_equal; [|lia]. rewrite M, Q. destruct (nth i x false); cbn [Z.b2z]; [rewrite lor_low by auto|]; lia.
      * lia.
      * auto.
      * lia.
      * rewrite Q, M. destruct (nth i x false); [rewrite lor_low by auto|]; lia.
    + rewrite skipn_all2 by lia. cbn [firstn pack]. f_equal. f_equal; lia.
Qed.

Lemma write_loop_ok : forall fuel x i f, fits t (length x) -> (i <= length x)%nat -> (length x - i < fuel)%nat -> (length x - i <= f)%nat ->
  write_loop t fuel x (Z.of_nat (length x)) (Z.of_nat i) = Ok (put_bits f (skipn i x)).
Proof.
  induction fuel as [|fuel IH]; intros x i f F I Fu Ff; [lia|]. cbn [write_loop].
  destruct (Z.ltb_spec (Z.of_nat i) (Z.of_nat (length x))) as [L|L].
  - change 1 with (mask_at 0). rewrite pack_byte_ok by (auto; cbn; lia). cbn [rbind]. destruct f as [|f]; [lia|].
    rewrite (IH x _ f) by (auto; lia). cbn [rbind]. rewrite (skipn_nth x i) by lia. cbn [put_bits]. rewrite <- (skipn_nth x i) by lia.
    assert (E : skipn (i + Nat.min 8 (length x - i)) x = skipn 8 (skipn i x)).
    { destruct (Nat.le_gt_cases 8 (length x - i)).
      - replace (i + Nat.min 8 (length x - i))%nat with (8 + i)%nat by lia. generalize 8%nat as m. clear. intros m. revert i. induction x as [|b x IH]; intros i; [rewrite !skipn_nil; auto|].
        destruct i as [|i]; [rewrite Nat.add_0_r; auto|]. rewrite Nat.add_succ_r. cbn [skipn]. apply IH.
      - rewrite !skipn_all2; auto; rewrite ?skipn_length; lia. }
    rewrite E. f_equal. f_equal. change (2 ^ Z.of_nat 0) with 1. lia.
  - rewrite skipn_all2 by lia. destruct f; reflexivity.
Qed.

Lemma size_ok : forall x, fits t (length x) -> size_of t x = Z.of_nat (length x).
Proof. intros x (B & M). apply icast_id; lia. Qed.

(** The loop is the codec of C31. *)
Theorem packed_write : forall x fuel, fits t (length x) -> (length x < fuel)%nat -> write_bools t fuel x = Ok (put_bits (length x) x).
Proof.
  intros x fuel F L. unfold write_bools. rewrite size_ok by auto. change 0 with (Z.of_nat 0). rewrite (write_loop_ok fuel x 0 (length x)) by (auto; lia). reflexivity.
Qed.

Lemma land_bit : forall a j, negb (Z.land a (2 ^ Z.of_nat j) =? 0) = Z.testbit a (Z.of_nat j).
Proof.
  intros a j. assert (E : Z.land a (2 ^ Z.of_nat j) = if Z.testbit a (Z.of_nat j) then 2 ^ Z.of_nat j else 0).
  { apply Z.bits_inj'. intros m M. rewrite Z.land_spec, Z.pow2_bits_eqb by lia. destruct (Z.eqb_spec (Z.of_nat j) m) as [<-|N].
    - rewrite andb_true_r. destruct (Z.testbit a (Z.of_nat j)); [rewrite Z.pow2_bits_true by lia; auto|now rewrite Z.bits_0].
    - rewrite andb_false_r. destruct (Z.testbit a (Z.of_nat j)); [rewrite Z.pow2_bits_false by lia; auto|now rewrite Z.bits_0]. }
  rewrite E. assert (0 < 2 ^ Z.of_nat j) by (apply Z.pow_pos_nonneg; lia). destruct (Z.testbit a (Z.of_nat j)); [|reflexivity].
  destruct (Z.eqb_spec (2 ^ Z.of_nat j) 0); [lia|reflexivity].
Qed.

Lemma nth_set_nth : forall (x : list bool) k v m, nth m (set_nth x k v) false = if (m =? k)%nat && (k <? length x)%nat then v else nth m x false.
Proof.
  induction x as [|b x IH]; intros [|k] v [|m]; cbn [set_nth nth length]; rewrite ?andb_false_r; auto.
  - rewrite IH. cbn [Nat.eqb]. destruct (Nat.ltb_spec k (length x)), (Nat.ltb_spec (S k) (S (length x))); auto; lia.
Qed.

Lemma unpack_byte_S : forall f aggr x n mask i, unpack_byte t (S f) aggr x n mask i =
  if (0 <? mask) && (i <? n) then
    let* k := index_of x i in let* i' := incr t i in
    unpack_byte t f aggr (set_nth x k (negb (Z.land aggr mask =? 0))) n ((mask * 2) mod 256) i'
  else Ok (x, i).
Proof. reflexivity. Qed.

Lemma unpack_byte_ok : forall k j aggr x i, (j + k = 8)%nat -> fits t (length x) -> (i <= length x)%nat -> exists x',
  unpack_byte t (S k) aggr x (Z.of_nat (length x)) (mask_at j) (Z.of_nat i) = Ok (x', Z.of_nat (i + Nat.min k (length x - i))) /\
  length x' = length x /\
  forall m, nth m x' false = if (i <=? m)%nat && (m <? i + Nat.min k (length x - i))%nat then Z.testbit aggr (Z.of_nat (j + (m - i))) else nth m x false.
Proof.
  induction k as [|k IH]; intros j aggr x i J F I.
  - assert (j = 8)%nat as -> by lia. exists x. cbn [unpack_byte]. change (mask_at 8) with 0. cbn [Z.ltb Z.compare andb]. split; [f_equal; f_equal; lia|]. split; auto.
    intros m. destruct (Nat.leb_spec i m), (Nat.ltb_spec m (i + Nat.min 0 (length x - i))); auto; lia.
  - rewrite unpack_byte_S. assert (M : mask_at j = 2 ^ Z.of_nat j) by (unfold mask_at; destruct (Nat.ltb_spec j 8); auto; lia).
    assert (P : 0 < 2 ^ Z.of_nat j) by (apply Z.pow_pos_nonneg; lia). assert (Z.ltb 0 (mask_at j) = true) as -> by (rewrite M; apply Z.ltb_lt; auto). cbn [andb].
    destruct (Z.ltb_spec (Z.of_nat i) (Z.of_nat (length x))) as [L|L].
    + rewrite index_ok, (incr_ok (length x)) by (auto; lia). cbn [rbind]. rewrite mask_next by lia. rewrite M, land_bit.
      set (x1 := set_nth x i (Z.testbit aggr (Z.of_nat j))). assert (L1 : length x1 = length x) by apply set_nth_length.
      destruct (IH (S j) aggr x1 (S i)) as (x' & E & L' & H); rewrite ?L1; auto; try lia. rewrite L1 in *. exists x'. split; [rewrite E; f_equal; f_equal; lia|]. split; auto.
      intros m. rewrite H. unfold x1. rewrite nth_set_nth.
      destruct (Nat.leb_spec (S i) m), (Nat.ltb_spec m (S i + Nat.min k (length x - S i))), (Nat.leb_spec i m), (Nat.ltb_spec m (i + Nat.min (S k) (length x - i))),
        (Nat.eqb_spec m i), (Nat.ltb_spec i (length x)); cbn [andb]; try lia; auto.
      * f_equal. lia.
      * f_equal. lia.
    + exists x. split; [f_equal; f_equal; lia|]. split; auto.
      intros m. destruct (Nat.leb_spec i m), (Nat.ltb_spec m (i + Nat.min (S k) (length x - i))); auto; lia.
Qed.

Lemma read_loop_ok : forall fuel x q i s, fits t (length x) -> i = Nat.min (8 * q) (length x) -> (length x - i < fuel)%nat -> exists x',
  read_loop t fuel x (Z.of_nat (length x)) (Z.of_nat i) s =
    Ok (x', skipn (bytes_for (length x - i)) s, (8 * length s <? length x - i)%nat) /\
  length x' = length x /\
  forall m, nth m x' false = if (i <=? m)%nat && (m <? length x)%nat && (m / 8 - q <? length s)%nat then bit_at s (m - i) else nth m x false.
Proof.
  induction fuel as [|fuel IH]; intros x q i s F I Fu; [lia|]. cbn [read_loop].
  destruct (Z.ltb_spec (Z.of_nat i) (Z.of_nat (length x))) as [L|L].
  - assert (I8 : i = (8 * q)%nat) by lia. destruct s as [|a s].
    + exists x. cbn [length]. assert (8 * 0 <? length x - i = true)%nat as -> by (apply Nat.ltb_lt; lia). rewrite skipn_nil. split; auto. split; auto.
      intros m. destruct (Nat.ltb_spec (m / 8 - q) 0); [lia|]. now rewrite andb_false_r.
    + change 1 with (mask_at 0). destruct (unpack_byte_ok 8 0 a x i) as (x1 & E & L1 & H); auto; try lia. rewrite E. cbn [rbind]. rewrite <- L1 in *.
      set (i1 := (i + Nat.min 8 (length x1 - i))%nat) in *.
      destruct (IH x1 (S q) i1 s) as (x' & E' & L' & H'); auto; try lia. exists x'. split; [|split; auto].
      * rewrite E'. f_equal. f_equal; [f_equal|].
        -- assert (bytes_for (length x1 - i) = S (bytes_for (length x1 - i1))) as ->; [|reflexivity]. unfold bytes_for.
           destruct (Nat.le_gt_cases 8 (length x1 - i)).
           ++ replace (length x1 - i + 7)%nat with (1 * 8 + (length x1 - i1 + 7))%nat by lia. rewrite Nat.div_add_l by lia. lia.
           ++ replace (length x1 - i1)%nat with 0%nat by lia. change ((0 + 7) / 8)%nat with 0%nat. symmetry. apply Nat.div_unique with (r := (length x1 - i - 1)%nat); lia.
        -- cbn [length]. destruct (Nat.ltb_spec (8 * length s) (length x1 - i1)), (Nat.ltb_spec (8 * S (length s)) (length x1 - i)); auto; lia.
      * intros m. rewrite H', H. cbn [length]. pose proof (Nat.div_mod m 8 ltac:(lia)) as DM. pose proof (Nat.mod_upper_bound m 8 ltac:(lia)) as MU.
        set (d := (m / 8)%nat) in *. set (r := (m mod 8)%nat) in *.
        destruct (Nat.leb_spec i1 m) as [A|A].
        -- (* a later byte *)
           assert (B : (i <=? m)%nat = true) by (apply Nat.leb_le; lia). rewrite B. cbn [andb].
           destruct (Nat.ltb_spec m (length x1)) as [C|C]; cbn [andb].
           ++ assert (i1 = (8 * S q)%nat) as I1 by lia. assert (D : (S q <= d)%nat) by lia.
              assert (G : (m <? i1)%nat = false) by (apply Nat.ltb_ge; lia). rewrite G.
              destruct (Nat.ltb_spec (d - S q) (length s)), (Nat.ltb_spec (d - q) (S (length s))); try lia; auto.
              unfold bit_at. replace ((m - i) / 8)%nat with (d - q)%nat by (apply Nat.div_unique with (r := r); lia).
              replace ((m - i1) / 8)%nat with (d - S q)%nat by (apply Nat.div_unique with (r := r); lia).
              replace ((m - i) mod 8)%nat with r by (apply Nat.mod_unique with (q := (d - q)%nat); lia).
              replace ((m - i1) mod 8)%nat with r by (apply Nat.mod_unique with (q := (d - S q)%nat); lia).
              replace (d - q)%nat with (S (d - S q))%nat by lia. reflexivity.
           ++ assert (G : (m <? i1)%nat = false) by (apply Nat.ltb_ge; lia). rewrite G. auto.
        -- cbn [andb]. destruct (Nat.leb_spec i m) as [B|B]; cbn [andb]; auto. destruct (Nat.ltb_spec m i1) as [C|C]; [|lia].
           assert (G : (m <? length x1)%nat = true) by (apply Nat.ltb_lt; lia). rewrite G. cbn [andb]. assert (D : d = q) by lia.
           destruct (Nat.ltb_spec (d - q) (S (length s))); [|lia]. unfold bit_at.
           replace ((m - i) / 8)%nat with 0%nat by (symmetry; apply Nat.div_small; lia). rewrite (Nat.mod_small (m - i) 8) by lia. cbn [nth]. f_equal; lia.
  - exists x. replace (length x - i)%nat with 0%nat by lia. split; [|split; auto].
    + change (bytes_for 0) with 0%nat. reflexivity.
    + intros m. destruct (Nat.leb_spec i m), (Nat.ltb_spec m (length x)); auto; lia.
Qed.

(** Reading takes one byte for eight elements and assigns the bits in order.  When the stream ends an exception is thrown and the
    elements that the bytes were for have been assigned. *)
Theorem packed_read : forall x s fuel, fits t (length x) -> (length x < fuel)%nat -> exists x',
  read_bools t fuel x s = Ok (x', skipn (bytes_for (length x)) s, (8 * length s <? length x)%nat) /\ length x' = length x /\
  forall m, (m < length x)%nat -> nth m x' false = if (m / 8 <? length s)%nat then bit_at s m else nth m x false.
Proof.
  intros x s fuel F L. unfold read_bools. rewrite size_ok by auto. change 0 with (Z.of_nat 0).
  destruct (read_loop_ok fuel x 0 0 s) as (x' & E & L' & H); auto; try lia. exists x'. rewrite Nat.sub_0_r in E. split; auto. split; auto.
  intros m M. rewrite H. rewrite !Nat.sub_0_r. cbn [Nat.leb andb]. destruct (Nat.ltb_spec m (length x)); [auto|lia].
Qed.
End Proofs.

(** What is written: the bits of the bytes. *)
Lemma put_bits_spec : forall f l, (length l <= f)%nat -> length (put_bits f l) = bytes_for (length l) /\ Forall (fun b => 0 <= b < 256) (put_bits f l) /\
  forall m, (m < length l)%nat -> bit_at (put_bits f l) m = nth m l false.
Proof.
  assert (PB : forall l n, (length l <= n)%nat -> 0 <= pack l < 2 ^ Z.of_nat n).
  { induction l as [|b l IH]; intros n N; cbn [pack length] in *; [split; [lia|apply Z.pow_pos_nonneg; lia]|]. destruct n as [|n]; [lia|].
    specialize (IH n ltac:(lia)). replace (Z.of_nat (S n)) with (Z.succ (Z.of_nat n)) by lia. rewrite Z.pow_succ_r by lia. destruct b; cbn [Z.b2z]; lia. }
  assert (PN : forall l m, Z.testbit (pack l) (Z.of_nat m) = nth m l false).
  { induction l as [|b l IH]; intros m; cbn [pack]; [rewrite Z.bits_0; destruct m; auto|]. destruct m as [|m]; cbn [nth].
    - rewrite Z.add_comm. apply Z.testbit_0_r.
    - rewrite <- IH. replace (Z.of_nat (S m)) with (Z.succ (Z.of_nat m)) by lia. rewrite Z.add_comm. apply Z.testbit_succ_r. lia. }
  assert (NF : forall n (l : list bool) m, (m < n)%nat -> nth m (firstn n l) false = nth m l false).
  { induction n as [|n IH]; intros [|b l] [|m] M; cbn; auto; try lia. apply IH. lia. }
  assert (NS : forall n (l : list bool) m, nth m (skipn n l) false = nth (n + m) l false).
  { induction n as [|n IH]; intros [|b l] m; cbn; auto; destruct m; auto. }
  induction f as [|f IH]; intros l L.
  - destruct l; [|cbn in L; lia]. cbn. split; auto. split; [constructor|]. intros m M. lia.
  - destruct l as [|b l]; [cbn; split; auto; split; [constructor|]; intros m M; lia|]. remember (b :: l) as k eqn:K. assert (K0 : (0 < length k)%nat) by (subst; cbn; lia).
    assert (E : put_bits (S f) k = pack (firstn 8 k) :: put_bits f (skipn 8 k)) by (subst; reflexivity). rewrite E. clear E K.
    destruct (IH (skipn 8 k)) as (I1 & I2 & I3); [rewrite skipn_length; lia|]. rewrite skipn_length in *. split; [|split].
    + cbn [length]. rewrite I1. unfold bytes_for. destruct (Nat.le_gt_cases 8 (length k)).
      * replace (length k + 7)%nat with (1 * 8 + (length k - 8 + 7))%nat by lia. rewrite Nat.div_add_l by lia. lia.
      * replace (length k - 8)%nat with 0%nat by lia. change ((0 + 7) / 8)%nat with 0%nat. apply Nat.div_unique with (r := (length k - 1)%nat); lia.
    + constructor; auto. apply (PB _ 8%nat). rewrite firstn_length. lia.
    + intros m M. unfold bit_at. destruct (Nat.le_gt_cases 8 m) as [G|G].
      * pose proof (Nat.div_mod m 8 ltac:(lia)). pose proof (Nat.mod_upper_bound m 8 ltac:(lia)).
        replace (m / 8)%nat with (S ((m - 8) / 8))%nat by (apply Nat.div_unique with (r := (m mod 8)%nat); [lia|];
          assert ((m - 8) / 8 = m / 8 - 1)%nat by (symmetry; apply Nat.div_unique with (r := (m mod 8)%nat); lia); lia).
        cbn [nth]. assert (m mod 8 = (m - 8) mod 8)%nat as -> by (apply Nat.mod_unique with (q := (m / 8 - 1)%nat); lia).
        pose proof (I3 (m - 8)%nat ltac:(lia)) as I4. unfold bit_at in I4. rewrite I4, NS. f_equal. lia.
      * rewrite Nat.div_small, Nat.mod_small by lia. cbn [nth]. rewrite PN, NF by lia. auto.
Qed.

(** Eight elements to a byte, the first is the lowest bit, whatever the size_type is. *)
Theorem packed_bits : forall t x fuel, fits t (length x) -> (length x < fuel)%nat -> exists bs, write_bools t fuel x = Ok bs /\
  length bs = bytes_for (length x) /\ Forall (fun b => 0 <= b < 256) bs /\ forall m, (m < length x)%nat -> bit_at bs m = nth m x false.
Proof. intros t x fuel F L. exists (put_bits (length x) x). split; [now apply packed_write|]. apply put_bits_spec. lia. Qed.

(** A bitmap of any enumeration reads what a bitset, a vector or another bitmap of the size has written, whatever it contained. *)
Theorem packed_round_trip : forall t t' x y rest fuel, fits t (length x) -> fits t' (length x) -> length y = length x -> (length x < fuel)%nat ->
  exists bs, write_bools t fuel x = Ok bs /\ read_bools t' fuel y (bs ++ rest) = Ok (x, rest, false).
Proof.
  intros t t' x y rest fuel F F' Y L. destruct (packed_bits t x fuel F L) as (bs & E & B1 & B2 & B3). exists bs. split; auto.
  destruct (packed_read t' y (bs ++ rest) fuel) as (x' & E' & L' & H); rewrite ?Y; auto. rewrite E', Y.
  assert (Q : (length x <= 8 * bytes_for (length x))%nat).
  { unfold bytes_for. pose proof (Nat.div_mod (length x + 7) 8 ltac:(lia)). pose proof (Nat.mod_upper_bound (length x + 7) 8 ltac:(lia)). lia. }
  assert (x' = x) as ->.
  { apply nth_ext with (d := false) (d' := false); [lia|]. intros m M. rewrite L', Y in M. rewrite H by lia. rewrite <- (B3 m M).
    assert (D : (m / 8 < length bs)%nat).
    { rewrite B1. unfold bytes_for. pose proof (Nat.div_mod m 8 ltac:(lia)). apply Nat.div_le_lower_bound with (b := 8%nat) (q := S (m / 8)); lia. }
    rewrite app_length. destruct (Nat.ltb_spec (m / 8) (length bs + length rest)); [|lia]. unfold bit_at. rewrite app_nth1 by auto. auto. }
  rewrite app_length. destruct (Nat.ltb_spec (8 * (length bs + length rest)) (length x)); [lia|]. rewrite <- B1, skipn_app, skipn_all, Nat.sub_diag. reflexivity.
Qed.

(** An enumeration over signed char with 127 enumerators, and nine bits read from one byte. *)
Example ex_packed :
  let t := IT true 8 in
  let x := map (fun i => Nat.even (i * i / 3)) (seq 0 127) in
  (match write_bools t 200 x with Ok bs => length bs = 16%nat /\ read_bools t 200 (repeat true 127) bs = Ok (x, [], false) | _ => False end) /\
  read_bools (IT false 64) 20 [true; true; true; true; true; true; true; true; true] [5] =
    Ok ([true; false; true; false; false; false; false; false; true], [], true).
Proof. vm_compute. auto. Qed.
