(** Arithmetic of decimal: denominators, rescaling, comparison, addition. *)
From Verif Require Import Common DecimalModel DecimalSpec.
From Coq Require Import ZifyBool ZifyNat.
Local Open Scope Z_scope.

Definition M (c : cfg) : Z := 2 ^ Z.of_nat (W c - (X c + 1)).

Lemma p2_man c : p2 (man_len c) = M c.
Proof. reflexivity. Qed.

Lemma max_man_M c : max_man c = M c - 1.
Proof. reflexivity. Qed.

Lemma M_pos c : 0 < M c.
Proof. unfold M. apply Z.pow_pos_nonneg; lia. Qed.

Lemma max_exp_eq c : max_exp c = (2 ^ X c - 1)%nat.
Proof.
  unfold max_exp, p2. rewrite <- (Nat2Z.id (2 ^ X c - 1)). f_equal.
  rewrite Nat2Z.inj_sub. 2: { pose proof (Nat.pow_nonzero 2 (X c)). lia. }
  rewrite Nat2Z.inj_pow. reflexivity.
Qed.

Lemma pow10_pos e : 0 < 10 ^ Z.of_nat e.
Proof. apply Z.pow_pos_nonneg; lia. Qed.

Lemma pow10_S e : 10 ^ Z.of_nat (S e) = 10 * 10 ^ Z.of_nat e.
Proof. rewrite Nat2Z.inj_succ, Z.pow_succ_r by lia. reflexivity. Qed.

Lemma pow10_add a b : 10 ^ Z.of_nat (a + b) = 10 ^ Z.of_nat a * 10 ^ Z.of_nat b.
Proof. rewrite Nat2Z.inj_add, Z.pow_add_r by lia. reflexivity. Qed.

Lemma pow10_le a b : (a <= b)%nat -> 10 ^ Z.of_nat a <= 10 ^ Z.of_nat b.
Proof. intros. apply Z.pow_le_mono_r; lia. Qed.

Section Good.
Context {c : cfg} (G : good c).

Lemma X_bound : (2 ^ X c <= 128)%nat.
Proof.
  destruct G as [[_ H] _]. change 128%nat with (2 ^ 7)%nat. apply Nat.pow_le_mono_r; lia.
Qed.

Lemma W_M : 16 * M c <= p2 (W c).
Proof.
  destruct G as [[H1 H2] [H3 _]]. unfold M, p2.
  replace (Z.of_nat (W c)) with (Z.of_nat (W c - (X c + 1)) + Z.of_nat (X c + 1)) by lia.
  rewrite Z.pow_add_r by lia. rewrite Z.mul_comm. apply Z.mul_le_mono_nonneg_l. apply Z.pow_nonneg; lia.
  change 16 with (2 ^ 4). apply Z.pow_le_mono_r; lia.
Qed.

Lemma pow_fits e : (e < 2 ^ X c)%nat -> 10 ^ Z.of_nat e < M c.
Proof.
  intros. destruct G as [_ [_ H1]]. unfold M. eapply Z.le_lt_trans; [|exact H1]. apply pow10_le. lia.
Qed.

Lemma denom_eq e : (e < 2 ^ X c)%nat -> denom c e = 10 ^ Z.of_nat e.
Proof.
  induction e as [|e IH]; intros He; [reflexivity|]. cbn [denom]. rewrite IH by lia.
  unfold uw. rewrite pow10_S, Z.mul_comm. rewrite Z.mod_small; [reflexivity|].
  pose proof (pow_fits (S e) He) as H. rewrite pow10_S in H. pose proof (pow10_pos e). pose proof W_M.
  pose proof (M_pos c). lia.
Qed.

Lemma uw_small z : 0 <= z < 16 * M c -> uw c z = z.
Proof. intros. unfold uw. apply Z.mod_small. pose proof W_M. lia. Qed.

Lemma set_man_small d m : 0 <= m < M c -> set_man c d m = {| neg := neg d; ex := ex d; man := m |}.
Proof. intros. unfold set_man. rewrite p2_man, Z.mod_small by lia. reflexivity. Qed.

Lemma set_exp_small d e : (e < 2 ^ X c)%nat -> set_exp c d e = {| neg := neg d; ex := e; man := man d |}.
Proof. intros. unfold set_exp. rewrite Nat.mod_small by lia. reflexivity. Qed.

Lemma blank_small e : (e < 2 ^ X c)%nat -> blank c e = {| neg := false; ex := e; man := 0 |}.
Proof. intros. unfold blank. rewrite Nat.mod_small by lia. reflexivity. Qed.

Lemma max_exp_lt e : (max_exp c <? e)%nat = negb (e <? 2 ^ X c)%nat.
Proof. rewrite max_exp_eq. pose proof (Nat.pow_nonzero 2 (X c)). lia. Qed.

Lemma is_int_small z : Z.abs z < 8 * M c -> is_int c z = true.
Proof.
  intros H. unfold is_int.
  assert (E : p2 (W c) = 2 * p2 (W c - 1)).
  { unfold p2. destruct G as [? [? ?]]. replace (Z.of_nat (W c)) with (Z.succ (Z.of_nat (W c - 1))) at 1 by lia.
    apply Z.pow_succ_r. lia. }
  pose proof W_M. lia.
Qed.

(** ** Rescaling *)
Lemma extend_eq d n : wf c d ->
  extend c d n =
    if (ex d <? n)%nat then
      if (n <? 2 ^ X c)%nat && (man d * 10 ^ Z.of_nat (n - ex d) <? M c)
      then Ok {| neg := neg d; ex := n; man := man d * 10 ^ Z.of_nat (n - ex d) |}
      else Throw LogicError
    else Ok d.
Proof.
  intros [H1 H2]. unfold extend. destruct (ex d <? n)%nat eqn:E; [|reflexivity].
  unfold check_exp. rewrite max_exp_lt. destruct (n <? 2 ^ X c)%nat eqn:En; cbn [negb andb]; [|reflexivity].
  pose proof (M_pos c) as HM. fold (M c) in H2.
  destruct (man d =? 0) eqn:Em.
  - rewrite set_exp_small by lia. assert (man d = 0) as -> by lia. rewrite Z.mul_0_l.
    destruct (0 <? M c) eqn:?; [reflexivity|lia].
  - rewrite denom_eq by lia. rewrite max_man_M.
    pose proof (pow10_pos (n - ex d)) as Hp. set (p := 10 ^ _) in *.
    assert (Hd : ((M c - 1) / man d <? p) = negb (man d * p <? M c)).
    { destruct (man d * p <? M c) eqn:E1; cbn [negb].
      - apply Z.ltb_ge. apply Z.div_le_lower_bound; lia.
      - apply Z.ltb_lt. apply Z.div_lt_upper_bound; lia. }
    rewrite Hd. destruct (man d * p <? M c) eqn:E1; cbn [negb]; [|reflexivity].
    rewrite uw_small by nia. rewrite set_man_small by nia. rewrite set_exp_small by lia. reflexivity.
Qed.

Lemma div_M a b : 0 <= a < M c -> 0 < b -> 0 <= a / b < M c.
Proof. intros. split. apply Z.div_pos; lia. apply Z.div_lt_upper_bound; nia. Qed.

Lemma trim_eq d n k : wf c d ->
  trim c d n k =
    if (n <? ex d)%nat then
      if k && negb (man d mod 10 ^ Z.of_nat (ex d - n) =? 0) then Throw LogicError
      else Ok {| neg := neg d; ex := n; man := man d / 10 ^ Z.of_nat (ex d - n) |}
    else Ok d.
Proof.
  intros [H1 H2]. unfold trim. destruct (n <? ex d)%nat eqn:E; [|reflexivity].
  rewrite denom_eq by lia. pose proof (pow10_pos (ex d - n)) as Hp. set (p := 10 ^ _) in *. fold (M c) in H2.
  unfold guard. destruct (p =? 0) eqn:?; [lia|]. cbn [negb].
  destruct (k && _); [reflexivity|].
  rewrite set_man_small by (apply div_M; lia). rewrite set_exp_small by lia. reflexivity.
Qed.

Lemma ceil_eq d n : wf c d ->
  ceil c d n =
    if (n <? ex d)%nat then
      Ok {| neg := neg d; ex := n; man := - ((- man d) / 10 ^ Z.of_nat (ex d - n)) |}
    else Ok d.
Proof.
  intros [H1 H2]. unfold ceil. destruct (n <? ex d)%nat eqn:E; [|reflexivity].
  rewrite denom_eq by lia.
  assert (Hp : 10 <= 10 ^ Z.of_nat (ex d - n)).
  { change 10 with (10 ^ Z.of_nat 1) at 1. apply pow10_le. lia. }
  set (p := 10 ^ _) in *. fold (M c) in H2. pose proof (M_pos c).
  unfold guard. destruct (p =? 0) eqn:?; [lia|]. cbn [negb].
  assert (Hd := div_M (man d) p H2 ltac:(lia)).
  assert (Hlt : man d / p + 1 < M c \/ man d = 0).
  { destruct (Z.eq_dec (man d) 0); [right; auto|left].
    destruct (Z.eq_dec (man d / p) 0) as [->|Hn]; [|nia].
    assert (He : (0 < 2 ^ X c)%nat) by lia. pose proof (pow_fits _ H1) as Hf.
    pose proof (pow10_le (ex d - n) (ex d) ltac:(lia)). fold p in H0. lia. }
  destruct (man d mod p =? 0) eqn:Em; cbn [negb].
  - rewrite set_man_small by lia. rewrite set_exp_small by lia.
    rewrite Z.div_opp_l_z by lia. rewrite Z.opp_involutive. reflexivity.
  - destruct Hlt as [Hlt|Hz]; [|rewrite Hz, Z.mod_0_l in Em by lia; lia].
    rewrite uw_small by lia. rewrite set_man_small by lia. rewrite set_exp_small by lia.
    rewrite Z.div_opp_l_nz by lia. cbn. repeat f_equal. lia.
Qed.

(** ** Normalization *)
Lemma normalize_loop_ok e m e' m' : 0 <= m -> normalize_loop e m = (e', m') ->
  (e' <= e)%nat /\ m = m' * 10 ^ Z.of_nat (e - e') /\ 0 <= m' /\ (m' = 0 \/ e' = O \/ m' mod 10 <> 0).
Proof.
  revert m; induction e as [|e IH]; intros m Hm; cbn [normalize_loop].
  - intros [= <- <-]. replace (0 - 0)%nat with 0%nat by lia. cbn. lia.
  - destruct (m =? 0) eqn:Ez.
    { intros [= <- <-]. rewrite Nat.sub_diag. cbn. lia. }
    destruct (m mod 10 =? 0) eqn:Em.
    + intros H. apply IH in H; [|apply Z.div_pos; lia]. destruct H as (H1 & H2 & H3 & H4).
      split; [lia|]. split; [|auto]. replace (S e - e')%nat with (S (e - e')) by lia. rewrite pow10_S.
      rewrite (Z.div_mod m 10) by lia. rewrite H2. lia.
    + intros [= <- <-]. rewrite Nat.sub_diag. cbn. lia.
Qed.

Lemma normalize_eq d : wf c d ->
  let r := normalize d in
  wf c r /\ neg r = neg d /\ (ex r <= ex d)%nat /\ man d = man r * 10 ^ Z.of_nat (ex d - ex r) /\
  (man r = 0 -> ex r = O) /\ (ex r = O \/ man r mod 10 <> 0).
Proof.
  intros [H1 H2]. unfold normalize. destruct (normalize_loop (ex d) (man d)) as [e m] eqn:E.
  destruct (normalize_loop_ok _ _ _ _ (proj1 H2) E) as (A1 & A2 & A3 & A4).
  pose proof (pow10_pos (ex d - e)) as Hp.
  assert (Hr : 0 <= m < 2 ^ Z.of_nat (W c - (X c + 1))) by nia.
  cbn. destruct (m =? 0) eqn:Em; cbn; unfold wf; cbn.
  - assert (m = 0) as -> by lia. pose proof (Nat.pow_nonzero 2 (X c)).
    repeat split; try lia.
  - split; [lia|]. split; [reflexivity|]. split; [lia|]. split; [lia|]. split; [lia|].
    destruct A4 as [|[|]]; auto; lia.
Qed.

Lemma normal_unique e1 m1 e2 m2 :
  0 <= m1 -> 0 <= m2 -> (m1 = 0 -> e1 = O) -> (m2 = 0 -> e2 = O) ->
  (e1 = O \/ m1 mod 10 <> 0) -> (e2 = O \/ m2 mod 10 <> 0) ->
  m1 * 10 ^ Z.of_nat e2 = m2 * 10 ^ Z.of_nat e1 -> e1 = e2 /\ m1 = m2.
Proof.
  intros P1 P2 Z1 Z2 N1 N2 H.
  assert (K : forall e m e' m', (e < e')%nat -> (m' = 0 -> e' = O) -> (e' = O \/ m' mod 10 <> 0) ->
             m * 10 ^ Z.of_nat e' = m' * 10 ^ Z.of_nat e -> False).
  { intros e m e' m' L Hz Hn Heq. replace e' with (e + S (e' - e - 1))%nat in Heq by lia.
    rewrite pow10_add, pow10_S in Heq. pose proof (pow10_pos e) as Hp.
    assert (m' = m * 10 ^ Z.of_nat (e' - e - 1) * 10) by nia.
    destruct Hn as [|Hn]; [lia|]. apply Hn. rewrite H0. apply Z.mod_mul. lia. }
  destruct (Nat.lt_trichotomy e1 e2) as [L|[->|L]].
  - exfalso. exact (K _ _ _ _ L Z2 N2 H).
  - split; [reflexivity|]. pose proof (pow10_pos e2). nia.
  - exfalso. exact (K _ _ _ _ L Z1 N1 (eq_sym H)).
Qed.

Lemma equal_ok a b : wf c a -> wf c b ->
  equal a b = eqb (neg a) (neg b) && (man a * 10 ^ Z.of_nat (ex b) =? man b * 10 ^ Z.of_nat (ex a)).
Proof.
  intros Ha Hb. unfold equal. destruct (eqb (neg a) (neg b)); [|reflexivity]. cbn [andb].
  destruct (normalize_eq a Ha) as (Wa & _ & La & Ea & Za & Na).
  destruct (normalize_eq b Hb) as (Wb & _ & Lb & Eb & Zb & Nb).
  set (a' := normalize a) in *. set (b' := normalize b) in *.
  assert (Hx : man a * 10 ^ Z.of_nat (ex b) = man b * 10 ^ Z.of_nat (ex a) <->
               man a' * 10 ^ Z.of_nat (ex b') = man b' * 10 ^ Z.of_nat (ex a')).
  { assert (Ia : 10 ^ Z.of_nat (ex a) = 10 ^ Z.of_nat (ex a') * 10 ^ Z.of_nat (ex a - ex a')).
    { rewrite <- pow10_add. f_equal. lia. }
    assert (Ib : 10 ^ Z.of_nat (ex b) = 10 ^ Z.of_nat (ex b') * 10 ^ Z.of_nat (ex b - ex b')).
    { rewrite <- pow10_add. f_equal. lia. }
    rewrite Ia, Ib, Ea, Eb. pose proof (pow10_pos (ex a - ex a')) as Qa. pose proof (pow10_pos (ex b - ex b')) as Qb.
    set (u := 10 ^ Z.of_nat (ex a - ex a')) in *. set (v := 10 ^ Z.of_nat (ex b - ex b')) in *.
    set (x := 10 ^ Z.of_nat (ex a')). set (y := 10 ^ Z.of_nat (ex b')).
    replace (man a' * u * (y * v)) with (man a' * y * (u * v)) by ring.
    replace (man b' * v * (x * u)) with (man b' * x * (u * v)) by ring.
    apply Z.mul_cancel_r. nia. }
  destruct (man a * _ =? _) eqn:E.
  - destruct (normal_unique (ex a') (man a') (ex b') (man b')) as [E1 E2]; try tauto.
    { destruct Wa; lia. } { destruct Wb; lia. } { apply Hx. lia. }
    rewrite E1, E2, Nat.eqb_refl, Z.eqb_refl. reflexivity.
  - destruct (ex a' =? ex b')%nat eqn:E1; [|reflexivity]. destruct (man a' =? man b') eqn:E2; [|reflexivity].
    assert (man a * 10 ^ Z.of_nat (ex b) = man b * 10 ^ Z.of_nat (ex a)); [|lia].
    apply Hx. assert (ex a' = ex b') as -> by lia. assert (man a' = man b') as -> by lia. reflexivity.
Qed.

(** ** Comparison *)
Lemma compare_scale p x y : 0 < p -> (x * p ?= y * p) = (x ?= y).
Proof. intros. rewrite !(Z.mul_comm _ p). symmetry. apply Zmult_compare_compat_l. lia. Qed.

Lemma compare_split A B q1 r1 q2 r2 D : 0 <= r1 < D -> 0 <= r2 < D ->
  A = q1 * D + r1 -> B = q2 * D + r2 ->
  (A ?= B) = if q1 =? q2 then (r1 ?= r2) else (q1 ?= q2).
Proof.
  intros. subst. destruct (q1 =? q2) eqn:E.
  - assert (q1 = q2) as -> by lia.
    destruct (Z.compare_spec r1 r2); [apply Z.compare_eq_iff|apply Z.compare_lt_iff|apply Z.compare_gt_iff]; lia.
  - destruct (Z.compare_spec q1 q2); [lia|apply Z.compare_lt_iff|apply Z.compare_gt_iff]; nia.
Qed.

Lemma compare_positive_ok a b comp (f : comparison -> bool) : wf c a -> wf c b ->
  (forall x y, comp x y = f (x ?= y)) ->
  compare_positive c a b comp = Ok (f (man a * 10 ^ Z.of_nat (ex b) ?= man b * 10 ^ Z.of_nat (ex a))).
Proof.
  intros [A1 A2] [B1 B2] Hf. unfold compare_positive. rewrite !denom_eq by lia.
  pose proof (pow10_pos (ex a)) as Pa. pose proof (pow10_pos (ex b)) as Pb.
  pose proof (pow_fits _ A1) as Fa. pose proof (pow_fits _ B1) as Fb. pose proof (M_pos c).
  set (pa := 10 ^ Z.of_nat (ex a)) in *. set (pb := 10 ^ Z.of_nat (ex b)) in *.
  assert (Ea := Z.div_mod (man a) pa ltac:(lia)). assert (Eb := Z.div_mod (man b) pb ltac:(lia)).
  assert (Ra := Z.mod_pos_bound (man a) pa Pa). assert (Rb := Z.mod_pos_bound (man b) pb Pb).
  set (qa := man a / pa) in *. set (qb := man b / pb) in *. set (ra := man a mod pa) in *. set (rb := man b mod pb) in *.
  assert (Hc : (man a * pb ?= man b * pa) = if qa =? qb then (ra * pb ?= rb * pa) else (qa ?= qb)).
  { apply compare_split with (D := pa * pb); try nia. }
  unfold guard. destruct (pa =? 0) eqn:?; [lia|]. destruct (pb =? 0) eqn:?; [lia|]. cbn [negb andb].
  rewrite Hc. destruct (qa =? qb); cbn [negb]; [|now rewrite Hf].
  destruct (ex b <? ex a)%nat eqn:E1; [|destruct (ex a <? ex b)%nat eqn:E2].
  - set (pd := 10 ^ Z.of_nat (ex a - ex b)).
    assert (pa = pb * pd) as Epd.
    { unfold pa, pb, pd. rewrite <- pow10_add. f_equal. lia. }
    rewrite uw_small by nia. rewrite Hf. f_equal. f_equal.
    rewrite Epd. replace (rb * (pb * pd)) with (rb * pd * pb) by ring. now rewrite compare_scale.
  - set (pd := 10 ^ Z.of_nat (ex b - ex a)).
    assert (pb = pa * pd) as Epd.
    { unfold pa, pb, pd. rewrite <- pow10_add. f_equal. lia. }
    rewrite uw_small by nia. rewrite Hf. f_equal. f_equal.
    rewrite Epd. replace (ra * (pa * pd)) with (ra * pd * pa) by ring. now rewrite compare_scale.
  - assert (ex a = ex b) as Ex by lia. assert (pa = pb) as Ep by (unfold pa, pb; now rewrite Ex).
    rewrite Hf. f_equal. f_equal. rewrite Ep. now rewrite compare_scale.
Qed.

(** The order [compare] implements: by value, and the negative zero below the
    positive one. *)
Definition cmp (a b : dec) : comparison :=
  match signed a * 10 ^ Z.of_nat (ex b) ?= signed b * 10 ^ Z.of_nat (ex a) with
  | Eq => match neg a, neg b with true, false => Lt | false, true => Gt | _, _ => Eq end
  | r => r
  end.

Lemma compare_ok a b comp f : wf c a -> wf c b -> (forall x y, comp x y = f (x ?= y)) ->
  compare c a b comp = Ok (f (cmp a b)).
Proof.
  intros Ha Hb Hf. unfold compare, cmp, signed.
  pose proof (pow10_pos (ex a)). pose proof (pow10_pos (ex b)).
  destruct Ha as [A1 A2], Hb as [B1 B2].
  destruct (neg a) eqn:Na, (neg b) eqn:Nb; cbn [andb negb].
  - rewrite (compare_positive_ok b a comp f) by (auto; split; auto). rewrite !Z.mul_opp_l, <- Z.compare_opp.
    destruct (_ ?= _); reflexivity.
  - rewrite Hf. cbn. destruct (Z.compare_spec (- man a * 10 ^ Z.of_nat (ex b)) (man b * 10 ^ Z.of_nat (ex a))); try reflexivity. nia.
  - rewrite Hf. cbn. destruct (Z.compare_spec (man a * 10 ^ Z.of_nat (ex b)) (- man b * 10 ^ Z.of_nat (ex a))); try reflexivity. nia.
  - rewrite (compare_positive_ok a b comp f) by (auto; split; auto). destruct (_ ?= _); reflexivity.
Qed.

(** ** Addition and multiplication *)
Lemma wf_of n e m : (e < 2 ^ X c)%nat -> 0 <= m < M c -> wf c {| neg := n; ex := e; man := m |}.
Proof. intros. split; cbn; auto. Qed.

Definition up (d : dec) (e : nat) : Z := signed d * 10 ^ Z.of_nat (e - ex d).

Lemma align_ok a b : wf c a -> wf c b ->
  let e := Nat.max (ex a) (ex b) in
  align c a b =
    if (Z.abs (up a e) <? M c) && (Z.abs (up b e) <? M c) then
      Ok ({| neg := neg a; ex := e; man := Z.abs (up a e) |}, {| neg := neg b; ex := e; man := Z.abs (up b e) |})
    else Throw LogicError.
Proof.
  intros Ha Hb e. pose proof Ha as [A1 A2]. pose proof Hb as [B1 B2]. fold (M c) in A2, B2. pose proof (M_pos c).
  assert (Hs : forall d, 0 <= man d -> Z.abs (up d e) = man d * 10 ^ Z.of_nat (e - ex d)).
  { intros d Hd. unfold up, signed. pose proof (pow10_pos (e - ex d)). destruct (neg d); nia. }
  rewrite !Hs by lia. clear Hs. unfold align, rescale.
  destruct (ex b <? ex a)%nat eqn:E1; [|destruct (ex a <? ex b)%nat eqn:E2].
  - assert (e = ex a) as -> by (unfold e; lia). rewrite Nat.sub_diag, Z.mul_1_r.
    destruct (man a <? M c) eqn:?; [|lia]. cbn [andb].
    rewrite extend_eq by auto. rewrite E1. destruct (ex a <? 2 ^ X c)%nat eqn:?; [|lia]. cbn [andb].
    destruct (man b * _ <? M c); cbn [rbind]; [destruct a|]; reflexivity.
  - assert (e = ex b) as -> by (unfold e; lia). rewrite Nat.sub_diag, Z.mul_1_r.
    destruct (man b <? M c) eqn:?; [|lia]. rewrite andb_true_r.
    rewrite extend_eq by auto. rewrite E2. destruct (ex b <? 2 ^ X c)%nat eqn:?; [|lia]. cbn [andb].
    destruct (man a * _ <? M c); cbn [rbind]; [destruct b|]; reflexivity.
  - assert (e = ex a) as -> by (unfold e; lia). assert (ex b = ex a) as Eb by lia. rewrite Eb, Nat.sub_diag, !Z.mul_1_r.
    destruct (man a <? M c) eqn:?; [|lia]. destruct (man b <? M c) eqn:?; [|lia]. cbn [andb].
    destruct a, b; cbn in *; subst; reflexivity.
Qed.

Lemma make_ok e m : (e < 2 ^ X c)%nat -> Z.abs m < 2 * M c ->
  make c m e = Ok {| neg := m <? 0; ex := e; man := Z.abs m mod M c |}.
Proof.
  intros He Hm. unfold make, set_mantissa. rewrite blank_small by auto. cbn [neg ex]. rewrite p2_man.
  destruct (0 <=? m) eqn:E.
  - assert ((m <? 0) = false) as -> by lia. rewrite Z.abs_eq by lia. reflexivity.
  - unfold guard. rewrite is_int_small by lia. assert ((m <? 0) = true) as -> by lia. rewrite Z.abs_neq by lia. reflexivity.
Qed.

Lemma abs_mantissa a e : wf c a -> mantissa {| neg := neg a; ex := e; man := Z.abs (up a e) |} = up a e.
Proof.
  intros [H1 H2]. unfold mantissa, up, signed; cbn. pose proof (pow10_pos (e - ex a)). destruct (neg a); nia.
Qed.

Lemma add_ok a b : wf c a -> wf c b ->
  let e := Nat.max (ex a) (ex b) in
  let s := up a e + up b e in
  add c a b =
    if (Z.abs (up a e) <? M c) && (Z.abs (up b e) <? M c) then
      Ok {| neg := s <? 0; ex := e; man := Z.abs s mod M c |}
    else Throw LogicError.
Proof.
  intros Ha Hb e s. unfold add. rewrite align_ok by auto. fold e.
  destruct (_ && _) eqn:E; cbn [rbind]; [|reflexivity]. rewrite !abs_mantissa by auto. cbn [ex].
  fold s. unfold guard. rewrite is_int_small by (pose proof (M_pos c); lia).
  apply make_ok; [destruct Ha, Hb; unfold e; lia|lia].
Qed.

Lemma sub_ok a b : wf c a -> wf c b ->
  let e := Nat.max (ex a) (ex b) in
  let s := up a e - up b e in
  sub c a b =
    if (Z.abs (up a e) <? M c) && (Z.abs (up b e) <? M c) then
      Ok {| neg := s <? 0; ex := e; man := Z.abs s mod M c |}
    else Throw LogicError.
Proof.
  intros Ha Hb e s. unfold sub. rewrite align_ok by auto. fold e.
  destruct (_ && _) eqn:E; cbn [rbind]; [|reflexivity]. rewrite !abs_mantissa by auto. cbn [ex].
  fold s. unfold guard. rewrite is_int_small by (pose proof (M_pos c); lia).
  apply make_ok; [destruct Ha, Hb; unfold e; lia|lia].
Qed.

Lemma multiply_ok a b : wf c a -> wf c b -> (ex a + ex b < 2 ^ X c)%nat -> Z.abs (signed a * signed b) < M c ->
  multiply c a b = Ok {| neg := signed a * signed b <? 0; ex := ex a + ex b; man := Z.abs (signed a * signed b) |}.
Proof.
  intros Ha Hb He Hm. unfold multiply. pose proof X_bound. rewrite Nat.mod_small by lia.
  change (mantissa a) with (signed a). change (mantissa b) with (signed b).
  unfold guard. rewrite is_int_small by lia.
  change (set_mantissa c (blank c (ex a + ex b)) (signed a * signed b)) with (make c (signed a * signed b) (ex a + ex b)).
  rewrite make_ok by lia. rewrite Z.mod_small by lia. reflexivity.
Qed.

End Good.
