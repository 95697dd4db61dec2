(** decimal<UInt, exp_len>, properties C12-C19, C47 and C48.  [value] is the exact
    rational number a decimal stands for (DecimalSpec.v), [==] and [<] below are
    equality and order of rationals. *)
From Coq Require Import ZifyBool ZifyNat Qabs.
From Verif Require Import Common DecimalModel DecimalSpec DecimalProofs DecimalText.
Local Open Scope Z_scope.

Lemma good_d64 : good d64.
Proof. unfold good, d64; cbn [W X]. repeat split; try lia. Qed.
Lemma good_d128 : good d128.
Proof. unfold good, d128; cbn [W X]. repeat split; try lia. Qed.

Lemma Zpos_ten e : Z.pos (ten e) = 10 ^ Z.of_nat e.
Proof. unfold ten. apply Z2Pos.id. apply pow10_pos. Qed.

Lemma value_eq a b : (value a == value b)%Q <-> signed a * 10 ^ Z.of_nat (ex b) = signed b * 10 ^ Z.of_nat (ex a).
Proof. unfold value, Qeq; cbn [Qnum Qden]. now rewrite !Zpos_ten. Qed.

Lemma value_lt a b : (value a < value b)%Q <-> signed a * 10 ^ Z.of_nat (ex b) < signed b * 10 ^ Z.of_nat (ex a).
Proof. unfold value, Qlt; cbn [Qnum Qden]. now rewrite !Zpos_ten. Qed.

Lemma value_le a b : (value a <= value b)%Q <-> signed a * 10 ^ Z.of_nat (ex b) <= signed b * 10 ^ Z.of_nat (ex a).
Proof. unfold value, Qle; cbn [Qnum Qden]. now rewrite !Zpos_ten. Qed.

(** The decimals with [e] digits that are equal to [q]. *)
Definition representable (c : cfg) (e : nat) (q : Q) : Prop := exists x, wf c x /\ ex x = e /\ (value x == q)%Q.

Definition d (n : bool) (e : nat) (m : Z) : dec := {| neg := n; ex := e; man := m |}.

Lemma wf_dec c x : (ex x <? 2 ^ X c)%nat && (0 <=? man x) && (man x <? 2 ^ Z.of_nat (W c - (X c + 1))) = true -> wf c x.
Proof. unfold wf. intros H. apply andb_prop in H as [H H3]. apply andb_prop in H as [H1 H2]. lia. Qed.
Ltac ground := repeat split; try (apply wf_dec); vm_compute; try reflexivity; try discriminate.

(** ** C18 *)
Theorem decimal_bits_round_trip :
  forall c, (X c + 2 <= W c)%nat ->
    (forall x, wf c x -> 0 <= to_bits c x < 2 ^ Z.of_nat (W c) /\ from_bits c (to_bits c x) = x) /\
    (forall r, 0 <= r < 2 ^ Z.of_nat (W c) -> wf c (from_bits c r) /\ to_bits c (from_bits c r) = r).
Proof.
  intros c Hc. unfold to_bits, from_bits, wf, p2, man_len.
  replace (Z.of_nat (W c)) with (Z.of_nat (X c + 1) + Z.of_nat (W c - (X c + 1))) by lia.
  replace (Z.of_nat (X c + 1)) with (Z.succ (Z.of_nat (X c))) by lia.
  rewrite Z.pow_add_r, Z.pow_succ_r by lia.
  assert (He : Z.of_nat (2 ^ X c) = 2 ^ Z.of_nat (X c)) by (rewrite Nat2Z.inj_pow; reflexivity).
  assert (HE : 0 < 2 ^ Z.of_nat (X c)) by (apply Z.pow_pos_nonneg; lia).
  assert (HM : 0 < 2 ^ Z.of_nat (W c - (X c + 1))) by (apply Z.pow_pos_nonneg; lia).
  set (E := 2 ^ Z.of_nat (X c)) in *. set (K := 2 ^ Z.of_nat (W c - (X c + 1))) in *. clearbody E K.
  split.
  - intros [n e m] [H1 H2]; cbn [neg ex man] in *.
    set (b := if n then 1 else 0). assert (Hb : 0 <= b < 2) by (unfold b; destruct n; lia).
    assert (Hz : 0 <= Z.of_nat e < E) by lia. set (z := Z.of_nat e) in *.
    split; [nia|].
    assert (A1 : (b + 2 * z + 2 * E * m) mod 2 = b).
    { replace (b + 2 * z + 2 * E * m) with (b + (z + E * m) * 2) by ring. rewrite Z.mod_add, Z.mod_small; lia. }
    assert (A2 : (b + 2 * z + 2 * E * m) / 2 = z + m * E).
    { replace (b + 2 * z + 2 * E * m) with (b + (z + m * E) * 2) by ring. rewrite Z.div_add, Z.div_small; lia. }
    assert (A3 : (b + 2 * z + 2 * E * m) / (2 * E) = m).
    { replace (b + 2 * z + 2 * E * m) with (b + 2 * z + m * (2 * E)) by ring. rewrite Z.div_add, Z.div_small; lia. }
    rewrite A1, A2, A3. f_equal.
    + unfold b; destruct n; reflexivity.
    + rewrite Z.mod_add, Z.mod_small by lia. apply Nat2Z.id.
    + apply Z.mod_small. lia.
  - intros r Hr. cbn [neg ex man].
    pose proof (Z.mod_pos_bound (r / 2) E HE) as B1.
    assert (B2 : 0 <= r / (2 * E) < K).
    { split; [apply Z.div_pos; lia|apply Z.div_lt_upper_bound; lia]. }
    split; [split; [lia|rewrite Z.mod_small; lia]|].
    rewrite (Z.mod_small (r / (2 * E))), Z2Nat.id by lia.
    pose proof (Z.div_mod r 2 ltac:(lia)) as D1. pose proof (Z.mod_pos_bound r 2 ltac:(lia)).
    pose proof (Z.div_mod (r / 2) E ltac:(lia)) as D2. rewrite Z.div_div in D2 by lia.
    destruct (r mod 2 =? 1) eqn:?; nia.
Qed.
Print Assumptions decimal_bits_round_trip.

Example decimal_bits_case :
  to_bits d64 (d true 2 150) = 1 + 2 * 2 + 32 * 150 /\ from_bits d64 (1 + 2 * 2 + 32 * 150) = d true 2 150.
Proof. split; reflexivity. Qed.

(** ** C13 *)
(** [<] is the order of the values, except that a negative zero comes before the
    positive one; [==] is the equality of the values, except that the two zeros
    differ. *)
Theorem decimal_order_by_value :
  forall c a b, good c -> wf c a -> wf c b ->
    let minus_zero_below := (value a == 0 /\ value b == 0)%Q /\ neg a = true /\ neg b = false in
    exists l, lt c a b = Ok l /\ (l = true <-> (value a < value b)%Q \/ minus_zero_below) /\
    (equal a b = true <-> (value a == value b)%Q /\ neg a = neg b).
Proof.
  intros c a b G Ha Hb mz. unfold lt.
  exists (match cmp a b with Lt => true | _ => false end). split; [|split].
  - apply (compare_ok G) with (f := fun r => match r with Lt => true | _ => false end); auto.
  - unfold cmp, mz. rewrite value_lt.
    assert (Hz : forall x, (value x == 0)%Q <-> signed x = 0).
    { intros x. unfold value, Qeq; cbn [Qnum Qden]. lia. }
    rewrite !Hz. pose proof (pow10_pos (ex a)). pose proof (pow10_pos (ex b)).
    destruct Ha as [_ A2], Hb as [_ B2]. unfold signed in *.
    destruct (Z.compare_spec ((if neg a then - man a else man a) * 10 ^ Z.of_nat (ex b)) ((if neg b then - man b else man b) * 10 ^ Z.of_nat (ex a)));
      destruct (neg a), (neg b); split; intros; try discriminate; try lia; auto; try nia.
  - rewrite (equal_ok (c := c)) by auto. rewrite value_eq, andb_true_iff, eqb_true_iff, Z.eqb_eq.
    unfold signed. split; intros [H1 H2].
    + split; auto. rewrite <- H1. destruct (neg a); lia.
    + split; auto. rewrite <- H2 in H1. destruct (neg a); lia.
Qed.
Print Assumptions decimal_order_by_value.

Lemma cmp_opp a b : cmp b a = CompOpp (cmp a b).
Proof.
  unfold cmp. rewrite (Z.compare_antisym (signed a * 10 ^ Z.of_nat (ex b))).
  destruct (signed a * 10 ^ Z.of_nat (ex b) ?= signed b * 10 ^ Z.of_nat (ex a)); cbn; auto.
  destruct (neg a), (neg b); reflexivity.
Qed.

Lemma equal_cmp c a b : wf c a -> wf c b -> equal a b = match cmp a b with Eq => true | _ => false end.
Proof.
  intros Ha Hb. rewrite (equal_ok (c := c)) by auto. unfold cmp, signed.
  destruct Ha as [_ A2], Hb as [_ B2]. pose proof (pow10_pos (ex a)). pose proof (pow10_pos (ex b)).
  destruct (neg a), (neg b); cbn [eqb andb].
  - rewrite !Z.mul_opp_l, Z.compare_opp.
    destruct (Z.compare_spec (man b * 10 ^ Z.of_nat (ex a)) (man a * 10 ^ Z.of_nat (ex b))); cbn; lia.
  - destruct (_ ?= _); reflexivity.
  - destruct (_ ?= _); reflexivity.
  - destruct (Z.compare_spec (man a * 10 ^ Z.of_nat (ex b)) (man b * 10 ^ Z.of_nat (ex a))); lia.
Qed.

(** Exactly one of [<], [==], [>] holds and the other operators agree with them. *)
Theorem decimal_order_total :
  forall c a b, good c -> wf c a -> wf c b ->
    exists l g, lt c a b = Ok l /\ gt c a b = Ok g /\ lt c b a = Ok g /\
      le c a b = Ok (l || equal a b) /\ ge c a b = Ok (g || equal a b) /\
      ((l, equal a b, g) = (true, false, false) \/ (l, equal a b, g) = (false, true, false) \/
       (l, equal a b, g) = (false, false, true)).
Proof.
  intros c a b G Ha Hb.
  exists (match cmp a b with Lt => true | _ => false end), (match cmp a b with Gt => true | _ => false end).
  rewrite (equal_cmp c) by auto. unfold lt, gt, le, ge.
  assert (C : forall comp f x y, wf c x -> wf c y -> (forall u v, comp u v = f (u ?= v)) -> compare c x y comp = Ok (f (cmp x y))).
  { intros. apply (compare_ok G); auto. }
  rewrite (C Z.ltb (fun r => match r with Lt => true | _ => false end)) by auto.
  rewrite (C Z.ltb (fun r => match r with Lt => true | _ => false end) b a) by auto.
  rewrite (C (fun u v => v <? u) (fun r => match r with Gt => true | _ => false end)); auto.
  2: { intros u v. rewrite Z.compare_antisym. unfold Z.ltb. destruct (v ?= u); reflexivity. }
  rewrite (C Z.leb (fun r => match r with Gt => false | _ => true end)) by auto.
  rewrite (C (fun u v => v <=? u) (fun r => match r with Lt => false | _ => true end)); auto.
  2: { intros u v. rewrite Z.compare_antisym. unfold Z.leb. destruct (v ?= u); reflexivity. }
  rewrite (cmp_opp a b). destruct (cmp a b); cbn; repeat split; auto.
Qed.
Print Assumptions decimal_order_total.

Theorem decimal_order_transitive :
  forall c x y z, good c -> wf c x -> wf c y -> wf c z ->
    (lt c x y = Ok true -> lt c y z = Ok true -> lt c x z = Ok true) /\
    (equal x y = true -> equal y z = true -> equal x z = true) /\
    (equal x y = true -> lt c x z = lt c y z /\ lt c z x = lt c z y).
Proof.
  intros c x y z G Hx Hy Hz.
  destruct (decimal_order_by_value c x y G Hx Hy) as (l1 & L1 & I1 & E1).
  destruct (decimal_order_by_value c y z G Hy Hz) as (l2 & L2 & I2 & E2).
  destruct (decimal_order_by_value c x z G Hx Hz) as (l3 & L3 & I3 & E3).
  destruct (decimal_order_by_value c z x G Hz Hx) as (l4 & L4 & I4 & _).
  destruct (decimal_order_by_value c z y G Hz Hy) as (l5 & L5 & I5 & _).
  rewrite L1, L2, L3, L4, L5. split; [|split].
  - intros [= ->] [= ->]. f_equal. apply I3.
    destruct (proj1 I1 eq_refl) as [A|[[A A'] [A1 A2]]], (proj1 I2 eq_refl) as [B|[[B B'] [B1 B2]]].
    + left. eapply Qlt_trans; eauto.
    + left. rewrite B', <- B. exact A.
    + left. rewrite A, <- A'. exact B.
    + congruence.
  - intros A B. apply E3. apply E1 in A as [A A']. apply E2 in B as [B B']. split; [rewrite A; exact B|congruence].
  - intros A. apply E1 in A as [A A'].
    assert (K : forall u v : bool, (u = true <-> v = true) -> @Ok bool u = Ok v).
    { intros [] [] K; auto; [symmetry|]; f_equal; tauto. }
    split; apply K.
    + rewrite I3, I2, A, A'. reflexivity.
    + rewrite I4, I5, A, A'. reflexivity.
Qed.
Print Assumptions decimal_order_transitive.

Example decimal_order_case :
  lt d64 (d true 3 1500) (d true 15 1499999999999999) = Ok true /\
  equal (d false 3 1500) (d false 1 15) = true /\ gt d128 (d false 31 2) (d false 30 0) = Ok true /\
  le d64 (d false 0 (2 ^ 59 - 1)) (d false 15 (2 ^ 59 - 1)) = Ok false.
Proof. repeat split. Qed.

(** C13 fails for zeros: text "-0" (or truncating -0.5) gives a zero that is less
    than and different from 0. *)
Theorem decimal_negative_zero_refuted :
  exists a b, from_string d64 [45; 48] = Ok a /\ from_string d64 [48] = Ok b /\
    (value a == value b)%Q /\ equal a b = false /\ lt d64 a b = Ok true /\
    truncate d64 (d true 1 5) 0 = Ok a.
Proof. exists (d true 0 0), (d false 0 0). repeat split. Qed.
Print Assumptions decimal_negative_zero_refuted.

(** C13 fails in decimal<uint64_t, 5>, whose denominators above 10^19 wrap:
    200376420520689664 / 10^23 (about 0.000002) compares greater than 0.5. *)
Definition d64_5 : cfg := {| W := 64; X := 5 |}.
Theorem decimal_order_wrapped_denominator_refuted :
  exists a b, wf d64_5 a /\ wf d64_5 b /\ (value a < value b)%Q /\ gt d64_5 a b = Ok true.
Proof.
  exists (d false 23 200376420520689664), (d false 1 5). ground.
Qed.
Print Assumptions decimal_order_wrapped_denominator_refuted.

(** ** C15 *)
Lemma scale_up x n : (ex x <= n)%nat -> 10 ^ Z.of_nat n = 10 ^ Z.of_nat (ex x) * 10 ^ Z.of_nat (n - ex x).
Proof. intros. rewrite <- pow10_add. f_equal. lia. Qed.

(** To more digits: the same value and sign, or an exception exactly when no
    decimal with that many digits has this value. *)
Theorem decimal_extend_exact :
  forall c x n k, good c -> wf c x -> (ex x < n)%nat ->
    match rescale c x n k with
    | Ok r => wf c r /\ ex r = n /\ neg r = neg x /\ (value r == value x)%Q
    | Throw _ => ~ representable c n (value x)
    | UB => False
    end.
Proof.
  intros c x n k G Hx Hn. unfold rescale. destruct (ex x <? n)%nat eqn:E; [|lia].
  rewrite (extend_eq G) by auto. rewrite E. pose proof Hx as [X1 X2].
  pose proof (pow10_pos (n - ex x)) as P. pose proof (scale_up x n ltac:(lia)) as Hs.
  destruct ((n <? 2 ^ X c)%nat && (man x * 10 ^ Z.of_nat (n - ex x) <? M c)) eqn:B.
  - split; [apply wf_of; [lia|unfold M in *; nia]|]. cbn [ex neg]. split; [auto|]. split; [auto|].
    apply value_eq. unfold signed; cbn [neg ex man]. rewrite Hs. destruct (neg x); ring.
  - intros (y & [Y1 Y2] & E1 & E2). apply value_eq in E2. rewrite E1, Hs in E2. pose proof (pow10_pos (ex x)) as P2.
    assert (signed y = signed x * 10 ^ Z.of_nat (n - ex x)) by nia. fold (M c) in Y2.
    assert (man y = man x * 10 ^ Z.of_nat (n - ex x)).
    { unfold signed in H. destruct (neg x), (neg y); nia. }
    lia.
Qed.
Print Assumptions decimal_extend_exact.

(** To fewer digits: toward zero by less than one unit; when checked, an
    exception exactly when no decimal with that many digits has this value. *)
Theorem decimal_truncate_toward_zero :
  forall c x n, good c -> wf c x -> (n < ex x)%nat ->
    (exists r, truncate c x n = Ok r /\ rescale c x n false = Ok r /\
      wf c r /\ ex r = n /\ neg r = neg x /\
      (Qabs (value r) <= Qabs (value x) /\ Qabs (value x) < Qabs (value r) + unit_of n)%Q) /\
    match rescale c x n true with
    | Ok r => wf c r /\ ex r = n /\ neg r = neg x /\ (value r == value x)%Q
    | Throw _ => ~ representable c n (value x)
    | UB => False
    end.
Proof.
  intros c x n G Hx Hn. pose proof Hx as [X1 X2]. unfold truncate, rescale.
  destruct (ex x <? n)%nat eqn:E1; [lia|]. destruct (n <? ex x)%nat eqn:E2; [|lia].
  rewrite !(trim_eq G) by auto. rewrite E2. cbn [andb].
  pose proof (pow10_pos (ex x - n)) as P. pose proof (pow10_pos n) as Pn. pose proof (pow10_pos (ex x)) as Px.
  assert (Hs : 10 ^ Z.of_nat (ex x) = 10 ^ Z.of_nat n * 10 ^ Z.of_nat (ex x - n)) by (rewrite <- pow10_add; f_equal; lia).
  set (p := 10 ^ Z.of_nat (ex x - n)) in *. fold (M c) in X2.
  pose proof (div_M (c := c) (man x) p X2 P) as Hd. pose proof (Z.div_mod (man x) p ltac:(lia)) as Dm.
  pose proof (Z.mod_pos_bound (man x) p P) as Bm.
  split.
  - eexists. split; [reflexivity|]. split; [reflexivity|]. split; [apply wf_of; lia|].
    split; [reflexivity|]. split; [reflexivity|].
    assert (HA : forall y, 0 <= man y -> (Qabs (value y) == man y # ten (ex y))%Q).
    { intros y Hy. unfold value, Qabs, signed, Qeq; cbn [Qnum Qden]. destruct (neg y); rewrite ?Z.abs_opp, Z.abs_eq by lia; reflexivity. }
    rewrite !HA by (cbn [man]; lia). cbn [ex man]. unfold unit_of, Qle, Qlt, Qplus; cbn [Qnum Qden].
    rewrite Pos2Z.inj_mul, !Zpos_ten, Hs. fold p. split; nia.
  - destruct (man x mod p =? 0) eqn:Em; cbn [negb].
    + split; [apply wf_of; lia|]. split; [reflexivity|]. split; [reflexivity|]. apply value_eq. unfold signed; cbn [neg ex man].
      rewrite Hs. fold p. assert (man x = p * (man x / p)) as Hm by lia. destruct (neg x); nia.
    + intros (y & [Y1 Y2] & I1 & I2). apply value_eq in I2. rewrite I1, Hs in I2.
      assert (Hq : signed y * p = signed x) by nia.
      assert (Hq2 : man x = man y * p).
      { unfold signed in Hq. destruct (neg x), (neg y); nia. }
      rewrite Hq2, Z.mod_mul in Em by lia. lia.
Qed.
Print Assumptions decimal_truncate_toward_zero.

(** normalize keeps value and sign and no decimal of that value has fewer digits. *)
Theorem decimal_normalize_minimal :
  forall c x, wf c x ->
    wf c (normalize x) /\ neg (normalize x) = neg x /\ (value (normalize x) == value x)%Q /\
    forall y, wf c y -> (value y == value x)%Q -> (ex (normalize x) <= ex y)%nat.
Proof.
  intros c x Hx. destruct (normalize_eq (c := c) x Hx) as (N1 & N2 & N3 & N4 & N5 & N6).
  set (r := normalize x) in *. pose proof (scale_up r (ex x) N3) as Hs.
  assert (Hv : (value r == value x)%Q).
  { apply value_eq. unfold signed. rewrite N2, N4, Hs. destruct (neg x); ring. }
  split; [auto|]. split; [auto|]. split; [auto|].
  intros y Hy Hq. destruct N6 as [N6|N6]; [lia|]. destruct (Nat.le_gt_cases (ex r) (ex y)) as [|L]; auto. exfalso.
  assert (Hq2 : (value y == value r)%Q) by (rewrite Hv; exact Hq). apply value_eq in Hq2.
  rewrite (scale_up y (ex r)) in Hq2 by lia. pose proof (pow10_pos (ex y)).
  assert (Hr : signed r = signed y * 10 ^ Z.of_nat (ex r - ex y)) by nia.
  replace (ex r - ex y)%nat with (S (ex r - ex y - 1)) in Hr by lia. rewrite pow10_S in Hr.
  assert (Hm : exists z, man r = z * 10).
  { unfold signed in Hr. destruct (neg r), (neg y);
    [exists (man y * 10 ^ Z.of_nat (ex r - ex y - 1))|exists (- (man y * 10 ^ Z.of_nat (ex r - ex y - 1)))
    |exists (- (man y * 10 ^ Z.of_nat (ex r - ex y - 1)))|exists (man y * 10 ^ Z.of_nat (ex r - ex y - 1))]; lia. }
  destruct Hm as [z Hz]. apply N6. rewrite Hz. apply Z.mod_mul. lia.
Qed.
Print Assumptions decimal_normalize_minimal.

Theorem decimal_rescale_round_trip :
  forall c x n r, good c -> wf c x -> (ex x <= n)%nat -> rescale c x n true = Ok r -> rescale c r (ex x) true = Ok x.
Proof.
  intros c x n r G Hx Hn H. unfold rescale in H at 1. destruct (ex x <? n)%nat eqn:E1.
  - rewrite (extend_eq G) in H by auto. rewrite E1 in H.
    destruct ((n <? 2 ^ X c)%nat && (man x * 10 ^ Z.of_nat (n - ex x) <? M c)) eqn:B; [|discriminate].
    injection H as <-. unfold rescale; cbn [ex]. destruct (n <? ex x)%nat eqn:?; [lia|]. rewrite E1.
    pose proof (pow10_pos (n - ex x)). destruct Hx as [X1 X2].
    rewrite (trim_eq G) by (apply wf_of; [lia|unfold M in *; nia]). cbn [ex man neg]. rewrite E1.
    rewrite Z.mod_mul, Z.div_mul by lia. cbn. destruct x; reflexivity.
  - destruct (n <? ex x)%nat eqn:E2; [lia|]. injection H as <-. unfold rescale.
    destruct (ex x <? ex x)%nat eqn:?; [lia|reflexivity].
Qed.
Print Assumptions decimal_rescale_round_trip.

Example decimal_rescale_case :
  rescale d64 (d true 1 15) 3 true = Ok (d true 3 1500) /\ rescale d64 (d true 3 1500) 1 true = Ok (d true 1 15) /\
  rescale d64 (d true 3 1500) 0 true = Throw LogicError /\ truncate d64 (d true 3 1999) 0 = Ok (d true 0 1) /\
  rescale d64 (d false 0 577) 15 true = Throw LogicError /\ rescale d64 (d false 0 576) 15 true = Ok (d false 15 576000000000000000) /\
  rescale d64 (d false 0 0) 16 true = Throw LogicError /\ normalize (d true 5 120000) = d true 1 12.
Proof. repeat split. Qed.

(** ** C16 *)
(** For a decimal without the sign flag floor and ceil are the lower and the
    upper bound; with the flag they change places. *)
Theorem decimal_floor_ceil_bounds_partial :
  forall c x n, good c -> wf c x -> (n <= ex x)%nat ->
    exists f g, floor c x n = Ok f /\ ceil c x n = Ok g /\ wf c f /\ wf c g /\ ex f = n /\ ex g = n /\
      if neg x
      then (value g <= value x /\ value x <= value f /\ value f < value x + unit_of n /\ value x - unit_of n < value g)%Q
      else (value f <= value x /\ value x <= value g /\ value g < value x + unit_of n /\ value x - unit_of n < value f)%Q.
Proof.
  intros c x n G Hx Hn. pose proof Hx as [X1 X2]. unfold floor, truncate.
  rewrite (trim_eq G), (ceil_eq G) by auto. cbn [andb]. pose proof (pow10_pos n) as Pn. pose proof (pow10_pos (ex x)) as Px.
  destruct (n <? ex x)%nat eqn:E.
  - pose proof (pow10_pos (ex x - n)) as P.
    assert (Hs : 10 ^ Z.of_nat (ex x) = 10 ^ Z.of_nat n * 10 ^ Z.of_nat (ex x - n)) by (rewrite <- pow10_add; f_equal; lia).
    assert (P10 : 10 <= 10 ^ Z.of_nat (ex x - n)).
    { change 10 with (10 ^ Z.of_nat 1) at 1. apply pow10_le. lia. }
    pose proof (pow_fits G _ X1) as Hfit. rewrite Hs in Hfit.
    set (p := 10 ^ Z.of_nat (ex x - n)) in *. fold (M c) in X2.
    pose proof (div_M (c := c) (man x) p X2 P) as Hd. pose proof (Z.div_mod (man x) p ltac:(lia)) as D1.
    pose proof (Z.mod_pos_bound (man x) p P) as B1.
    pose proof (Z.div_mod (- man x) p ltac:(lia)) as D2. pose proof (Z.mod_pos_bound (- man x) p P) as B2.
    do 2 eexists. split; [reflexivity|]. split; [reflexivity|]. cbn [ex].
    split; [apply wf_of; lia|]. split; [apply wf_of; [lia|nia]|]. split; [auto|]. split; [auto|].
    set (q := man x / p) in *. set (q2 := - man x / p) in *.
    unfold value, signed, unit_of, Qle, Qlt, Qminus, Qplus, Qopp; cbn [neg ex man Qnum Qden].
    rewrite !Pos2Z.inj_mul, !Zpos_ten, Hs. fold p.
    set (t := 10 ^ Z.of_nat n) in *. clearbody t p q q2. assert (0 < t * p) by nia. assert (0 < t * t) by nia. assert (0 < t * t * p) by nia.
    destruct (neg x); split; try nia; split; try nia; split; nia.
  - assert (n = ex x) by lia. subst n. exists x, x. repeat split; auto; try lia.
    assert (Hu : (0 < unit_of (ex x))%Q) by (unfold unit_of, Qlt; cbn; lia).
    assert (HL : (value x < value x + unit_of (ex x))%Q).
    { rewrite <- (Qplus_0_r (value x)) at 1. apply Qplus_lt_r. exact Hu. }
    assert (HR : (value x - unit_of (ex x) < value x)%Q).
    { apply Qlt_minus_iff. ring_simplify. exact Hu. }
    destruct (neg x); repeat split; auto; apply Qle_refl.
Qed.
Print Assumptions decimal_floor_ceil_bounds_partial.

Example decimal_floor_ceil_case :
  floor d64 (d false 2 199) 1 = Ok (d false 1 19) /\ ceil d64 (d false 2 191) 1 = Ok (d false 1 20) /\
  ceil d128 (d false 31 1) 0 = Ok (d false 0 1).
Proof. repeat split. Qed.

(** C16 fails for negative values: floor(-1.5) is -1 and ceil(-1.5) is -2. *)
Theorem decimal_floor_negative_refuted :
  exists x f g, from_string d64 [45; 49; 46; 53] = Ok x /\ floor d64 x 0 = Ok f /\ ceil d64 x 0 = Ok g /\
    (value x < value f)%Q /\ (value g < value x)%Q.
Proof. exists (d true 1 15), (d true 0 1), (d true 0 2). ground. Qed.
Print Assumptions decimal_floor_negative_refuted.

(** ** C14 *)
Lemma up_value c x e : wf c x -> (ex x <= e)%nat -> (value x == up x e # ten e)%Q.
Proof.
  intros Hx He. unfold value, up, Qeq; cbn [Qnum Qden]. rewrite !Zpos_ten, (scale_up x e He). ring.
Qed.

Lemma representable_up c x e : wf c x -> (ex x <= e)%nat -> (e < 2 ^ X c)%nat ->
  representable c e (value x) <-> Z.abs (up x e) < M c.
Proof.
  intros Hx He Hc. pose proof (up_value c x e Hx He) as Hv. split.
  - intros (y & [Y1 Y2] & <- & E2). rewrite Hv in E2. unfold value, Qeq in E2; cbn [Qnum Qden] in E2. fold (M c) in Y2.
    assert (signed y = up x (ex y)) by (pose proof (Pos2Z.is_pos (ten (ex y))); nia).
    rewrite <- H. unfold signed. destruct (neg y); lia.
  - intros H. exists {| neg := up x e <? 0; ex := e; man := Z.abs (up x e) |}. split; [apply wf_of; lia|]. split; [reflexivity|].
    rewrite Hv. unfold value, signed; cbn [neg ex man]. destruct (up x e <? 0) eqn:?; [rewrite Z.abs_neq, Z.opp_involutive by lia|rewrite Z.abs_eq by lia]; reflexivity.
Qed.

Lemma exact_or_wrapped c e s q : (e < 2 ^ X c)%nat -> (q == s # ten e)%Q ->
  let r := {| neg := s <? 0; ex := e; man := Z.abs s mod M c |} in
  wf c r /\ (representable c e q -> (value r == q)%Q).
Proof.
  intros He Hq r. pose proof (M_pos c). split; [apply wf_of; [lia|apply Z.mod_pos_bound; lia]|].
  intros (y & [Y1 Y2] & E1 & E2). rewrite Hq in E2 |- *. subst e. unfold value, Qeq in E2; cbn [Qnum Qden] in E2.
  assert (Es : signed y = s) by (pose proof (Pos2Z.is_pos (ten (ex y))); nia). fold (M c) in Y2.
  unfold value, signed; cbn [r neg ex man]. rewrite <- Es. unfold signed.
  destruct (neg y) eqn:Ny.
  - rewrite Z.abs_opp, Z.abs_eq, Z.mod_small by lia. destruct (- man y <? 0) eqn:?; [reflexivity|]. replace (man y) with 0 by lia. reflexivity.
  - rewrite Z.abs_eq, Z.mod_small by lia. destruct (man y <? 0) eqn:?; [lia|reflexivity].
Qed.

(** Missing for C14: a sum that no decimal with that many digits represents is
    not reported, see [decimal_add_overflow_refuted]. *)
Theorem decimal_add_sub_exact_partial :
  forall c a b, good c -> wf c a -> wf c b ->
    let e := Nat.max (ex a) (ex b) in
    let ok (x : res dec) (q : Q) :=
      match x with
      | Ok r => wf c r /\ ex r = e /\ (representable c e q -> (value r == q)%Q)
      | Throw _ => ~ (representable c e (value a) /\ representable c e (value b))
      | UB => False
      end in
    ok (add c a b) (value a + value b)%Q /\ ok (sub c a b) (value a - value b)%Q.
Proof.
  intros c a b G Ha Hb e ok. pose proof Ha as [A1 _]. pose proof Hb as [B1 _].
  assert (He : (e < 2 ^ X c)%nat) by (unfold e; lia).
  assert (Va := up_value c a e Ha ltac:(unfold e; lia)). assert (Vb := up_value c b e Hb ltac:(unfold e; lia)).
  rewrite (add_ok G), (sub_ok G) by auto. fold e. unfold ok.
  destruct ((Z.abs (up a e) <? M c) && (Z.abs (up b e) <? M c)) eqn:E.
  - split.
    + edestruct (exact_or_wrapped c e (up a e + up b e) (value a + value b)%Q He) as [R1 R2].
      { rewrite Va, Vb. unfold Qeq, Qplus; cbn [Qnum Qden]. rewrite Pos2Z.inj_mul. ring. }
      cbn [ex]. auto.
    + edestruct (exact_or_wrapped c e (up a e - up b e) (value a - value b)%Q He) as [R1 R2].
      { rewrite Va, Vb. unfold Qeq, Qminus, Qplus, Qopp; cbn [Qnum Qden]. rewrite Pos2Z.inj_mul. ring. }
      cbn [ex]. auto.
  - rewrite (representable_up c a), (representable_up c b) by (auto; unfold e; lia). lia.
Qed.
Print Assumptions decimal_add_sub_exact_partial.

Example decimal_add_case :
  add d64 (d false 2 150) (d true 5 1) = Ok (d false 5 149999) /\ sub d64 (d false 0 1) (d false 15 1) = Ok (d false 15 999999999999999) /\
  add d64 (d false 0 1000) (d false 15 1) = Throw LogicError /\ representable d64 5 (value (d false 2 150) + value (d true 5 1))%Q.
Proof. repeat split. exists (d false 5 149999). ground. Qed.

(** C14: the sum of two values near the limit is silently wrong. *)
Theorem decimal_add_overflow_refuted :
  exists a b r, wf d64 a /\ wf d64 b /\ add d64 a b = Ok r /\ (value r < value a)%Q /\ (0 < value b)%Q.
Proof. exists (d false 0 (2 ^ 59 - 1)), (d false 0 1), (d false 0 0). ground. Qed.
Print Assumptions decimal_add_overflow_refuted.

(** ** C19 *)
(** Missing for C19: an exponent sum or a product outside the range is not
    reported, see the two theorems below. *)
Theorem decimal_multiply_exact_partial :
  forall c a b, good c -> wf c a -> wf c b ->
    representable c (ex a + ex b) (value a * value b)%Q ->
    exists r, multiply c a b = Ok r /\ wf c r /\ ex r = (ex a + ex b)%nat /\ (value r == value a * value b)%Q.
Proof.
  intros c a b G Ha Hb (y & [Y1 Y2] & E1 & E2). rewrite E1 in Y1. fold (M c) in Y2.
  assert (Hv : (value a * value b == signed a * signed b # ten (ex a + ex b))%Q).
  { unfold value, Qeq, Qmult; cbn [Qnum Qden]. rewrite Pos2Z.inj_mul, !Zpos_ten, pow10_add. ring. }
  rewrite Hv in E2. unfold value, Qeq in E2; cbn [Qnum Qden] in E2. rewrite E1 in E2.
  assert (Es : signed y = signed a * signed b) by (pose proof (Pos2Z.is_pos (ten (ex a + ex b))); nia).
  assert (Hb2 : Z.abs (signed a * signed b) < M c) by (rewrite <- Es; unfold signed; destruct (neg y); lia).
  rewrite (multiply_ok G) by auto. eexists. split; [reflexivity|]. split; [apply wf_of; lia|]. split; [reflexivity|].
  rewrite Hv. unfold value, signed at 1; cbn [neg ex man].
  destruct (signed a * signed b <? 0) eqn:?; [rewrite Z.abs_neq, Z.opp_involutive by lia|rewrite Z.abs_eq by lia]; reflexivity.
Qed.
Print Assumptions decimal_multiply_exact_partial.

Example decimal_multiply_case :
  multiply d64 (d true 2 150) (d false 3 2000) = Ok (d true 5 300000) /\
  representable d64 5 (value (d true 2 150) * value (d false 3 2000))%Q.
Proof. split; [reflexivity|]. exists (d true 5 300000). ground. Qed.

(** C19: 10^-8 * 10^-8 = 1, and 2^30 * 2^30 = 0. *)
Theorem decimal_multiply_overflow_refuted :
  (exists a b r, wf d64 a /\ wf d64 b /\ multiply d64 a b = Ok r /\ (value a < 1)%Q /\ (value b < 1)%Q /\ (value r == 1)%Q) /\
  (exists a b r, wf d64 a /\ wf d64 b /\ multiply d64 a b = Ok r /\ (1 < value a)%Q /\ (1 < value b)%Q /\ (value r == 0)%Q).
Proof.
  split.
  - exists (d false 8 1), (d false 8 1), (d false 0 1). ground.
  - exists (d false 0 (2 ^ 30)), (d false 0 (2 ^ 30)), (d false 0 0). ground.
Qed.
Print Assumptions decimal_multiply_overflow_refuted.

(** C19: larger products overflow the signed type, which is undefined. *)
Theorem decimal_multiply_undefined_refuted :
  exists a b, wf d64 a /\ wf d64 b /\ multiply d64 a b = UB.
Proof. exists (d false 0 (2 ^ 32)), (d false 0 (2 ^ 32)). ground. Qed.
Print Assumptions decimal_multiply_undefined_refuted.

(** ** C17 *)
Lemma number_strip s i f : digits i -> digits f ->
  (number s i f == number s i (strip f))%Q.
Proof.
  intros Di Df. unfold number, Qeq; cbn [Qnum Qden]. destruct (strip_decomp f) as [n E].
  generalize dependent (strip f). intros F ->. rewrite !app_assoc, (num_app _ _ (repeat 48 n)), num_zeros, app_length, repeat_length.
  rewrite !Zpos_ten, pow10_add. destruct s; ring.
Qed.

(** What a numeral denotes is parsed exactly, or an exception says that no decimal
    has this value; a text that is no numeral is rejected.  Missing for C17: a
    fraction with 256 or more digits up to its last non-zero one, see
    [decimal_parse_counter_refuted], and the empty text, whose first character is
    read ([decimal_parse_empty_refuted]). *)
Theorem decimal_parse_exact_partial :
  forall c t, good c -> t <> [] ->
    match numeral t with
    | Some (s, i, f) =>
        (length (strip f) < 256)%nat ->
        match from_string c t with
        | Ok r => wf c r /\ neg r = s /\ (value r == number s i f)%Q
        | Throw _ => forall x, wf c x -> ~ (value x == number s i f)%Q
        | UB => False
        end
    | None => from_string c t = Throw LogicError
    end.
Proof.
  intros c t G Ht. pose proof (from_string_ok G t Ht) as H. destruct (numeral t) as [[[s i] f]|] eqn:En; [|exact H].
  intros Hl. rewrite (H Hl). clear H.
  assert (Hd : digits i /\ digits f).
  { unfold numeral in En. destruct (match t with [] => _ | _ => _ end) as [s0 body]. destruct (split_point body) as [i0 f0].
    destruct (forallb is_digit i0 && forallb is_digit f0) eqn:E; [|discriminate]. injection En as <- <- <-. now apply andb_prop in E. }
  destruct Hd as [Di Df]. pose proof (number_strip s i f Di Df) as Hn. set (F := strip f) in *.
  assert (DF : digits F) by (apply strip_digits; auto).
  assert (Dif : digits (i ++ F)) by (apply digits_app; auto).
  assert (HB := num_bound _ Dif).
  assert (HF : F = [] \/ num 0 (i ++ F) mod 10 <> 0).
  { assert (Hid := strip_idem f). fold F in Hid. clearbody F.
    destruct F as [|y r _] using rev_ind; [left; reflexivity|right].
    apply strip_last in Hid. apply digits_app in DF as [_ DF2]. cbn [forallb] in DF2. unfold is_digit in DF2.
    rewrite app_assoc, num_app. cbn [num]. rewrite Z.mul_comm, Z.add_comm, Z.mod_add by lia.
    rewrite Z.mod_small; lia. }
  destruct ((length F <? 2 ^ X c)%nat && (num 0 (i ++ F) <? M c)) eqn:E.
  - split; [apply wf_of; lia|]. split; [reflexivity|]. rewrite Hn. reflexivity.
  - intros x Hx Hv. rewrite Hn in Hv.
    destruct (decimal_normalize_minimal c x Hx) as ([R1 R2] & _ & R3 & _).
    destruct (normalize_eq (c := c) x Hx) as (_ & _ & _ & _ & R5 & R6).
    rewrite <- R3 in Hv. set (r := normalize x) in *. fold (M c) in R2.
    unfold value, number, Qeq in Hv; cbn [Qnum Qden] in Hv. rewrite !Zpos_ten in Hv.
    pose proof (pow10_pos (length F)) as P1. pose proof (pow10_pos (ex r)) as P2.
    assert (Hm : man r * 10 ^ Z.of_nat (length F) = num 0 (i ++ F) * 10 ^ Z.of_nat (ex r)).
    { unfold signed in Hv. destruct (neg r), s; nia. }
    destruct (normal_unique (ex r) (man r) (length F) (num 0 (i ++ F))) as [U1 U2]; auto; try lia.
    { intros Hz. destruct HF as [->|HF]; [reflexivity|]. rewrite Hz in HF. now cbn in HF. }
    { destruct HF as [->|HF]; auto. }
Qed.
Print Assumptions decimal_parse_exact_partial.

Example decimal_parse_case :
  let t := [45; 48; 48; 49; 46; 53; 48] in (* -001.50 *)
  numeral t = Some (true, [48; 48; 49], [53; 48]) /\ from_string d64 t = Ok (d true 1 15) /\
  from_string d64 (repeat 57 18) = Throw LogicError /\ from_string d64 (53 :: repeat 57 17) = Throw LogicError /\
  from_string d64 (53 :: repeat 48 17) = Ok (d false 0 500000000000000000) /\
  from_string d64 (49 :: 46 :: repeat 48 300) = Ok (d false 0 1) /\ from_string d64 [49; 46; 46] = Throw LogicError /\
  numeral [49; 46; 46] = None.
Proof. vm_compute. repeat split. Qed.

(** C17: the 8-bit counters of the fraction wrap.  "0." and 255 zeros and "1"
    is parsed as 1; with 256 zeros it is parsed as 0.1. *)
Theorem decimal_parse_counter_refuted :
  let t n := [48; 46] ++ repeat 48 n ++ [49] in
  from_string d64 (t 255%nat) = Ok (d false 0 1) /\ from_string d64 (t 256%nat) = Ok (d false 1 1) /\
  from_string d128 (t 255%nat) = Ok (d false 0 1) /\
  forall n, exists f, numeral (t n) = Some (false, [48], f) /\ (0 < number false [48]%Z f /\ number false [48]%Z f <= 1 # ten n)%Q.
Proof.
  intros t. split; [vm_compute; reflexivity|]. split; [vm_compute; reflexivity|]. split; [vm_compute; reflexivity|].
  intros n. exists (repeat 48 n ++ [49]).
  assert (D : digits (repeat 48 n ++ [49])) by (apply digits_app; split; [apply digits_zeros|reflexivity]).
  split.
  - unfold t. change ([48; 46] ++ ?l) with ((if false then [45] else []) ++ [48] ++ (if false then [] else 46 :: l)).
    apply (numeral_print false [48] _ false); auto; discriminate.
  - assert (Hn : num 0 ([48] ++ repeat 48 n ++ [49]) = 1).
    { rewrite !num_app, num_zeros. cbn [num]. lia. }
    unfold number. rewrite Hn. unfold Qlt, Qle; cbn [Qnum Qden]. rewrite !Zpos_ten, app_length, repeat_length. split; [lia|].
    pose proof (pow10_le n (n + length [49]) ltac:(lia)). lia.
Qed.
Print Assumptions decimal_parse_counter_refuted.

(** C17: a mantissa that leaves fewer than four spare bits in UInt lets the
    accumulated integer wrap; a denominator table that wraps (decimal<uint64_t, 5>)
    turns 1.00000000000000000000001 into about 0.000002. *)
Theorem decimal_parse_wrap_refuted :
  (exists t r, numeral t = Some (false, t, []) /\ num 0 t = 2 ^ 64 + 4 /\
     from_string {| W := 64; X := 2 |} t = Ok r /\ (value r == 4)%Q) /\
  (exists f r, numeral ([49; 46] ++ f) = Some (false, [49], f) /\ (1 < number false [49]%Z f)%Q /\
     from_string d64_5 ([49; 46] ++ f) = Ok r /\ (value r < 1 # 100000)%Q).
Proof.
  split.
  - exists (put_uint d128 (2 ^ 64 + 4)), (d false 0 4). vm_compute. repeat split.
  - exists (repeat 48 22 ++ [49]), (d false 23 200376420520689665). vm_compute. repeat split.
Qed.
Print Assumptions decimal_parse_wrap_refuted.

Theorem decimal_parse_empty_refuted : forall c, from_string c [] = UB.
Proof. reflexivity. Qed.
Print Assumptions decimal_parse_empty_refuted.

(** ** C12 *)
(** The printed text is a numeral with exactly [ex] fraction digits denoting the
    exact value, and parsing it gives the value and sign back; the very same
    mantissa and exponent when there are no trailing zeros to drop. *)
Theorem decimal_text_round_trip_partial :
  forall c x, good c -> wf c x ->
    exists t i f r, print c x = Ok t /\ numeral t = Some (neg x, i, f) /\ length f = ex x /\
      (number (neg x) i f == value x)%Q /\
      from_string c t = Ok r /\ neg r = neg x /\ (value r == value x)%Q /\
      ((ex x = O \/ man x mod 10 <> 0) -> r = x).
Proof.
  intros c x G Hx. destruct (print_ok G x Hx) as (i & f & E & Di & Hi & Df & Hl & Ni & Nf).
  set (t := (if neg x then [45] else []) ++ i ++ (if (ex x =? 0)%nat then [] else 46 :: f)) in *.
  assert (Hb : (ex x =? 0)%nat = true -> f = []) by (intros; destruct f; [auto|cbn in Hl; lia]).
  assert (En : numeral t = Some (neg x, i, f)) by (apply numeral_print; auto).
  pose proof (pow10_pos (ex x)) as P.
  assert (Hm : num 0 (i ++ f) = man x).
  { rewrite num_app, num_shift, Hl, Ni, Nf. pose proof (Z.div_mod (man x) (10 ^ Z.of_nat (ex x)) ltac:(lia)). lia. }
  assert (Ht : t <> []).
  { intros Hc. unfold t in Hc. destruct (neg x), i; cbn in Hc; congruence. }
  pose proof Hx as [X1 X2]. fold (M c) in X2. pose proof (X_bound G).
  pose proof (strip_length f) as Hs.
  assert (Hst := from_string_ok G t Ht). rewrite En in Hst. specialize (Hst ltac:(lia)).
  assert (Hi0 : 0 <= num 0 i) by (pose proof (num_bound i Di); lia).
  pose proof (normalize_strip f (neg x) i Df Hi0) as Hnm. rewrite Hl, Hm in Hnm.
  assert (Ex : {| neg := neg x; ex := ex x; man := man x |} = x) by (destruct x; reflexivity). rewrite Ex in Hnm.
  destruct (decimal_normalize_minimal c x Hx) as ([R1 R2] & R3 & R4 & _). rewrite Hnm in R1, R2. cbn [ex man] in R1, R2. fold (M c) in R2.
  assert (Hfs : from_string c t = Ok (normalize x)).
  { rewrite Hst, Hnm. destruct (_ && _) eqn:B; [reflexivity|]. lia. }
  exists t, i, f, (normalize x). split; [auto|]. split; [auto|]. split; [auto|]. split.
  { unfold number, value, signed. rewrite Hm, Hl. reflexivity. }
  split; [auto|]. split; [auto|]. split; [auto|].
  intros Hc. unfold normalize. rewrite <- Ex at 3. destruct (ex x) as [|e]; cbn [normalize_loop].
  - destruct (man x =? 0); reflexivity.
  - destruct Hc as [Hc|Hc]; [lia|]. destruct (man x =? 0) eqn:Ez; [|].
    + replace (man x) with 0 in Hc by lia. now cbn in Hc.
    + destruct (man x mod 10 =? 0) eqn:?; [lia|]. rewrite Ez. reflexivity.
Qed.
Print Assumptions decimal_text_round_trip_partial.

Example decimal_text_case :
  print d64 (d true 3 7) = Ok [45; 48; 46; 48; 48; 55] /\ from_string d64 [45; 48; 46; 48; 48; 55] = Ok (d true 3 7) /\
  print d128 (d false 31 (10 ^ 31 + 2)) = Ok (49 :: 46 :: repeat 48 30 ++ [50]) /\
  from_string d128 (49 :: 46 :: repeat 48 30 ++ [50]) = Ok (d false 31 (10 ^ 31 + 2)).
Proof. vm_compute. repeat split. Qed.

(** C12: trailing zeros are not kept (1.50 comes back as 1.5)... *)
Theorem decimal_text_exponent_refuted :
  exists x t r, wf d64 x /\ print d64 x = Ok t /\ from_string d64 t = Ok r /\ ex r <> ex x.
Proof. exists (d false 2 150), [49; 46; 53; 48], (d false 1 15). ground. Qed.
Print Assumptions decimal_text_exponent_refuted.

(** ... and in decimal<uint64_t, 5> a value of about 0.000002 prints as 1.000... *)
Theorem decimal_text_wrapped_denominator_refuted :
  exists x t r, wf d64_5 x /\ (value x < 1 # 100000)%Q /\ print d64_5 x = Ok t /\ from_string d64_5 t = Ok r /\ (value r == 1)%Q.
Proof. exists (d false 23 200376420520689664), (49 :: 46 :: repeat 48 23), (d false 0 1). ground. Qed.
Print Assumptions decimal_text_wrapped_denominator_refuted.

(** ** C47 *)
(** decimal_to_nanoseconds, for a decimal of seconds with at most nine digits. *)
Theorem decimal_nanoseconds_exact_partial :
  forall c x, good c -> wf c x -> (ex x <= 9)%nat -> W c = 64%nat ->
    match to_nanoseconds c x with
    | Ok n => (n # 1 == value x * (1000000000 # 1))%Q
    | Throw _ => ~ representable c 9 (value x)
    | UB => False
    end.
Proof.
  intros c x G Hx He HW. pose proof Hx as [X1 X2]. unfold to_nanoseconds.
  assert (Hmant : forall y, wf c y -> (mantissa y + p2 63) mod p2 64 - p2 63 = mantissa y).
  { intros y [_ Y2]. pose proof (W_M G) as HM. rewrite HW in HM. fold (M c) in Y2.
    assert (p2 64 = 2 * p2 63) by reflexivity. rewrite Z.mod_small; unfold mantissa; destruct (neg y); lia. }
  destruct (Nat.eq_dec (ex x) 9) as [E9|N9].
  - rewrite (extend_eq G) by auto. destruct (ex x <? 9)%nat eqn:?; [lia|]. cbn [rbind]. rewrite Hmant by auto.
    unfold value. rewrite E9. change (mantissa x) with (signed x). unfold Qeq, Qmult; cbn [Qnum Qden].
    rewrite Pos2Z.inj_mul, Zpos_ten. change (10 ^ Z.of_nat 9) with 1000000000. lia.
  - pose proof (decimal_extend_exact c x 9 true G Hx ltac:(lia)) as H. unfold rescale in H.
    destruct (ex x <? 9)%nat eqn:?; [|lia]. destruct (extend c x 9) as [r| |]; cbn [rbind]; auto.
    destruct H as (R1 & R2 & _ & R4). rewrite Hmant by auto. rewrite <- R4. unfold value. rewrite R2.
    change (mantissa r) with (signed r). unfold Qeq, Qmult; cbn [Qnum Qden].
    rewrite Pos2Z.inj_mul, Zpos_ten. change (10 ^ Z.of_nat 9) with 1000000000. lia.
Qed.
Print Assumptions decimal_nanoseconds_exact_partial.

Example decimal_nanoseconds_case :
  to_nanoseconds d64 (d true 1 15) = Ok (-1500000000) /\ to_nanoseconds d64 (d false 9 7) = Ok 7 /\
  to_nanoseconds d64 (d false 0 576460753) = Throw LogicError.
Proof. repeat split. Qed.

(** C47: with more than nine digits the mantissa is returned as it is, so
    0.000000001000 s gives 1000 ns; a 128-bit count is truncated to 64 bits. *)
Theorem decimal_nanoseconds_refuted :
  (exists x y, (value x == value y)%Q /\ wf d64 x /\ wf d64 y /\ to_nanoseconds d64 x = Ok 1 /\ to_nanoseconds d64 y = Ok 1000) /\
  (exists x, wf d128 x /\ (0 < value x)%Q /\ to_nanoseconds d128 x = Ok 0).
Proof.
  split.
  - exists (d false 9 1), (d false 12 1000). ground.
  - exists (d false 9 (2 ^ 64)). ground.
Qed.
Print Assumptions decimal_nanoseconds_refuted.

(** ** C48 *)
(** The library's operator<< for __uint128_t agrees with the formatting of the
    built-in types when the number is not longer than the field. *)
Theorem u128_width_partial :
  forall c w n, good c -> W c = 128%nat -> 0 <= n < 2 ^ 128 -> (w <= 1)%nat \/ n < 10 ^ Z.of_nat w ->
    put_u128 c w n = put_std c w n /\ digits (put_u128 c w n) /\ num 0 (put_u128 c w n) = n /\ (w <= length (put_u128 c w n))%nat.
Proof.
  intros c w n G HW Hn Hw.
  assert (Hn2 : 0 <= n < p2 (W c)) by (rewrite HW; exact Hn).
  destruct (put_uint_ok G n Hn2) as (A1 & A2 & A3 & A4). destruct (pad_ok w _ A1) as (B1 & B2 & B3).
  assert (E : put_u128 c w n = put_std c w n).
  { unfold put_u128, put_std. destruct ((1 <? w)%nat && (w <? length (put_uint c n))%nat) eqn:E; [|reflexivity].
    destruct Hw as [|Hw]; [lia|]. specialize (A4 w ltac:(lia) Hw). lia. }
  rewrite E. unfold put_std. rewrite B2, B3. repeat split; auto. lia.
Qed.
Print Assumptions u128_width_partial.

Example u128_width_case : put_u128 d128 5 42 = [48; 48; 48; 52; 50] /\ put_u128 d128 0 0 = [48].
Proof. repeat split. Qed.

(** C48: 12345 in a field of two characters is printed as 000012345. *)
Theorem u128_width_refuted :
  exists n, put_std d128 2 n = [49; 50; 51; 52; 53] /\ put_u128 d128 2 n = [48; 48; 48; 48; 49; 50; 51; 52; 53].
Proof. exists 12345. vm_compute. repeat split. Qed.
Print Assumptions u128_width_refuted.
