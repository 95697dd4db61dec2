(** Parsing and printing of decimals. *)
From Verif Require Import Common DecimalModel DecimalSpec DecimalProofs.
From Coq Require Import ZifyBool ZifyNat.
Local Open Scope Z_scope.

Notation digits l := (forallb is_digit l = true).

Lemma num_app a l m : num a (l ++ m) = num (num a l) m.
Proof. revert a; induction l as [|x l IH]; intros; cbn [num app]; auto. Qed.

Lemma num_shift a l : num a l = a * 10 ^ Z.of_nat (length l) + num 0 l.
Proof.
  revert a; induction l as [|x l IH]; intros a; cbn [num length]; [cbn; lia|].
  rewrite IH, (IH (10 * 0 + _)), pow10_S. ring.
Qed.

Lemma num_bound l : digits l -> 0 <= num 0 l < 10 ^ Z.of_nat (length l).
Proof.
  induction l as [|x l IH]; cbn [forallb num length]; [cbn; lia|]. intros H.
  apply andb_prop in H as [Hx Hl]. specialize (IH Hl). rewrite num_shift, pow10_S. unfold is_digit in Hx.
  pose proof (pow10_pos (length l)). nia.
Qed.

Lemma num_zeros a n : num a (repeat 48 n) = a * 10 ^ Z.of_nat n.
Proof.
  rewrite num_shift, repeat_length. enough (num 0 (repeat 48 n) = 0) by lia.
  induction n as [|n IH]; cbn; auto.
Qed.

Lemma num_ge a l : digits l -> 0 <= a -> a <= num a l.
Proof. intros Hl Ha. rewrite num_shift. pose proof (num_bound l Hl). pose proof (pow10_pos (length l)). nia. Qed.

Lemma digits_app l m : digits (l ++ m) <-> digits l /\ digits m.
Proof. rewrite forallb_app. apply andb_true_iff. Qed.

Lemma digits_zeros n : digits (repeat 48 n).
Proof. induction n; auto. Qed.

Lemma strip_decomp l : exists n, l = strip l ++ repeat 48 n.
Proof.
  induction l as [|x l [n IH]]; [exists O; reflexivity|]. cbn [strip].
  destruct (strip l) as [|y r] eqn:E.
  - destruct (x =? 48) eqn:Ex.
    + exists (S n). cbn in *. rewrite IH. f_equal; lia.
    + exists n. cbn in *. now rewrite IH.
  - exists n. cbn in *. now rewrite IH.
Qed.

Lemma strip_app_nz l x : x <> 48 -> strip (l ++ [x]) = l ++ [x].
Proof.
  intros Hx. induction l as [|y l IH]; cbn [app strip].
  - destruct (x =? 48) eqn:?; [lia|reflexivity].
  - rewrite IH. destruct l; reflexivity.
Qed.

Lemma strip_zeros l n : strip (l ++ repeat 48 n) = strip l.
Proof.
  induction l as [|y l IH]; cbn [app strip].
  - induction n as [|n IH]; [reflexivity|]. cbn [repeat strip]. now rewrite IH.
  - now rewrite IH.
Qed.

Lemma strip_length l : (length (strip l) <= length l)%nat.
Proof. destruct (strip_decomp l) as [n E]. rewrite E at 2. rewrite app_length. lia. Qed.

Lemma strip_digits l : digits l -> digits (strip l).
Proof. intros H. destruct (strip_decomp l) as [n E]. rewrite E in H. apply digits_app in H. tauto. Qed.

Lemma strip_idem l : strip (strip l) = strip l.
Proof.
  induction l as [|x l IH]; [reflexivity|]. cbn [strip].
  destruct (strip l) as [|y r] eqn:E.
  - destruct (x =? 48) eqn:Ex; [reflexivity|]. cbn [strip]. now rewrite Ex.
  - change (strip (x :: y :: r)) with (match strip (y :: r) with [] => if x =? 48 then [] else [x] | q => x :: q end).
    now rewrite IH.
Qed.

Lemma strip_last r y : strip (r ++ [y]) = r ++ [y] -> y <> 48.
Proof.
  intros H ->. assert (E := strip_zeros r 1). cbn [repeat] in E. rewrite E in H.
  pose proof (strip_length r). rewrite H, app_length in H0. cbn in H0. lia.
Qed.

(** Stripping never goes below a prefix that ends with a non-zero digit. *)
Lemma strip_app_r l m : strip m <> [] -> strip (l ++ m) = l ++ strip m.
Proof.
  intros H. induction l as [|x l IH]; [reflexivity|]. cbn [app strip]. rewrite IH.
  destruct l; [cbn [app]|reflexivity]. destruct (strip m); congruence.
Qed.

Lemma strip_nil_zeros m : strip m = [] -> m = repeat 48 (length m).
Proof.
  intros H. destruct (strip_decomp m) as [n E]. rewrite H in E. cbn in E. rewrite E at 2. now rewrite E, repeat_length.
Qed.

Lemma strip_prefix l m : strip l = l -> exists r, strip (l ++ m) = l ++ r /\ (digits m -> digits r).
Proof.
  intros H. destruct (strip m) as [|y r] eqn:E.
  - apply strip_nil_zeros in E. exists []. split; [|auto]. rewrite E, strip_zeros, app_nil_r. exact H.
  - exists (strip m). split; [apply strip_app_r; congruence|apply strip_digits].
Qed.

(** ** Parsing *)
Section Good.
Context {c : cfg} (G : good c).

Lemma do_append_ok s d : 0 <= pv s < M c -> 0 <= d <= 9 ->
  do_append c s d =
    if pv s * 10 + d <? M c then Ok {| dc := u8 (S (dc s)); zc := zc s; pv := pv s * 10 + d |} else Throw LogicError.
Proof.
  intros Hp Hd. unfold do_append. pose proof (M_pos c).
  assert (H16 : 10 * M c <= 16 * M c) by lia.
  rewrite (uw_small G (pv s * 10)) by lia.
  assert (Hu : uw c (pv s * 10 + d) = pv s * 10 + d).
  { apply (uw_small G). lia. }
  rewrite Hu, max_man_M.
  destruct (pv s * 10 + d <? M c) eqn:E; destruct (M c - 1 <? pv s * 10 + d) eqn:E2; try reflexivity; lia.
Qed.

Lemma symbol_ok x : symbol_to_digit x = if is_digit x then Ok (x - 48) else Throw LogicError.
Proof. reflexivity. Qed.

Lemma append_int s d : 0 <= pv s < M c -> 0 <= d <= 9 ->
  exists n, append c true s d =
    if pv s * 10 + d <? M c then Ok {| dc := n; zc := zc s; pv := pv s * 10 + d |} else Throw LogicError.
Proof.
  intros Hp Hd. unfold append. destruct (negb (d =? 0) || negb (pv s =? 0)) eqn:E.
  - eexists. apply do_append_ok; auto.
  - assert (d = 0 /\ pv s = 0) as [-> Hz] by lia. exists (dc s). rewrite Hz. cbn [Z.mul Z.add].
    pose proof (M_pos c). destruct (0 <? M c) eqn:?; [|lia]. destruct s as [a b v]; cbn in *. subst. reflexivity.
Qed.

Lemma parse_int_part t : forall s i f, split_point t = (i, f) -> 0 <= pv s < M c ->
  if forallb is_digit i && (num (pv s) i <? M c)
  then exists s', parse_loop c true s t = Ok (f, s') /\ pv s' = num (pv s) i
  else parse_loop c true s t = Throw LogicError.
Proof.
  induction t as [|x t IH]; intros s i f Hs Hp; cbn [split_point] in Hs.
  - injection Hs as <- <-. cbn. destruct (pv s <? M c) eqn:?; [|lia]. eexists; split; reflexivity.
  - cbn [parse_loop andb]. destruct (x =? 46) eqn:Ex.
    + injection Hs as <- <-. cbn. destruct (pv s <? M c) eqn:?; [|lia]. eexists; split; reflexivity.
    + destruct (split_point t) as [i' f'] eqn:E. injection Hs as <- <-. cbn [forallb num].
      rewrite symbol_ok. destruct (is_digit x) eqn:Dx; cbn [rbind andb]; [|reflexivity].
      assert (Hd : 0 <= x - 48 <= 9) by (unfold is_digit in Dx; lia).
      destruct (append_int s (x - 48) Hp Hd) as [n ->].
      replace (10 * pv s + (x - 48)) with (pv s * 10 + (x - 48)) by ring.
      destruct (pv s * 10 + (x - 48) <? M c) eqn:El; cbn [rbind].
      * specialize (IH {| dc := n; zc := zc s; pv := pv s * 10 + (x - 48) |} i' f' eq_refl). cbn [pv] in IH.
        apply IH. lia.
      * destruct (forallb is_digit i') eqn:Di; cbn [andb]; [|reflexivity].
        assert (H := num_ge (pv s * 10 + (x - 48)) i' Di ltac:(lia)).
        destruct (num (pv s * 10 + (x - 48)) i' <? M c) eqn:?; [lia|reflexivity].
Qed.

Lemma append_zeros_ok n s : 0 <= pv s < M c ->
  append_zeros c n s =
    if pv s * 10 ^ Z.of_nat n <? M c
    then Ok {| dc := match n with O => dc s | _ => u8 (dc s + n) end; zc := zc s; pv := pv s * 10 ^ Z.of_nat n |}
    else Throw LogicError.
Proof.
  revert s; induction n as [|n IH]; intros s Hp; cbn [append_zeros].
  - change (10 ^ Z.of_nat 0) with 1. rewrite Z.mul_1_r. destruct (pv s <? M c) eqn:?; [|lia]. destruct s; reflexivity.
  - rewrite do_append_ok by lia. rewrite Z.add_0_r, pow10_S. pose proof (pow10_pos n).
    destruct (pv s * 10 <? M c) eqn:E; cbn [rbind].
    + rewrite IH by (cbn; lia). cbn [pv dc zc]. replace (pv s * (10 * 10 ^ Z.of_nat n)) with (pv s * 10 * 10 ^ Z.of_nat n) by ring.
      destruct (pv s * 10 * 10 ^ Z.of_nat n <? M c); [|reflexivity]. f_equal. f_equal.
      destruct n; [unfold u8; f_equal; lia|]. unfold u8. rewrite Nat.add_mod_idemp_l by lia. f_equal. lia.
    + destruct (pv s * (10 * _) <? M c) eqn:?; [nia|reflexivity].
Qed.

Lemma u8_small n : (n < 256)%nat -> u8 n = n.
Proof. intros. unfold u8. apply Nat.mod_small. auto. Qed.

(** [S] is what has been read up to the last non-zero digit, [z] the zeros after it. *)
Lemma parse_frac_part f : forall s P z, strip P = P -> digits P ->
  dc s = length P -> zc s = u8 z -> pv s = num 0 P -> 0 <= pv s < M c -> digits f ->
  let R := strip (P ++ repeat 48 z ++ f) in
  (length R < 256)%nat ->
  if num 0 R <? M c
  then exists s', parse_loop c false s f = Ok ([], s') /\ dc s' = length R /\ pv s' = num 0 R
  else parse_loop c false s f = Throw LogicError.
Proof.
  induction f as [|x f IH]; intros s P z HP DP Hd Hz Hv Hp Hf R HR.
  - assert (R = P) as -> by (unfold R; rewrite app_nil_r, strip_zeros; exact HP).
    rewrite <- Hv. destruct (pv s <? M c) eqn:?; [|lia]. exists s. cbn. auto.
  - cbn [parse_loop andb]. cbn [forallb] in Hf. apply andb_prop in Hf as [Dx Hf]. rewrite symbol_ok, Dx. cbn [rbind].
    unfold append. destruct (x - 48 =? 0) eqn:Ex; cbn [rbind].
    + assert (x = 48) as -> by lia.
      assert (ER : R = strip (P ++ repeat 48 (S z) ++ f)).
      { unfold R. change (48 :: f) with ([48] ++ f). rewrite (app_assoc _ [48] f), <- repeat_cons. reflexivity. }
      rewrite ER in *. apply IH; cbn [dc zc pv]; auto. rewrite Hz. unfold u8. rewrite <- (Nat.add_1_l (z mod 256)), Nat.add_mod_idemp_r by lia. reflexivity.
    + assert (ER : R = strip ((P ++ repeat 48 z ++ [x]) ++ f)).
      { unfold R. rewrite <- !app_assoc. reflexivity. }
      assert (HP' : strip (P ++ repeat 48 z ++ [x]) = P ++ repeat 48 z ++ [x]).
      { rewrite app_assoc. apply strip_app_nz. lia. }
      destruct (strip_prefix _ f HP') as [r [Er Dr]]. specialize (Dr Hf). rewrite <- ER in Er.
      assert (Hlen : (length P + z + 1 + length r < 256)%nat).
      { rewrite Er in HR. rewrite !app_length, repeat_length in HR. cbn in HR. lia. }
      rewrite Hz, u8_small by lia. rewrite append_zeros_ok by auto.
      assert (Hx : 0 <= x - 48 <= 9) by (unfold is_digit in Dx; lia).
      pose proof (pow10_pos z) as Hz10.
      assert (Hn : num 0 (P ++ repeat 48 z ++ [x]) = pv s * 10 ^ Z.of_nat z * 10 + (x - 48)).
      { rewrite !num_app, num_zeros, <- Hv. cbn [num]. ring. }
      assert (Hge : pv s * 10 ^ Z.of_nat z * 10 + (x - 48) <= num 0 R).
      { rewrite Er, num_app, Hn. apply num_ge; auto. nia. }
      destruct (pv s * 10 ^ Z.of_nat z <? M c) eqn:E1; cbn [rbind].
      * rewrite do_append_ok by (cbn; nia). cbn [dc zc pv].
        destruct (pv s * 10 ^ Z.of_nat z * 10 + (x - 48) <? M c) eqn:E2; cbn [rbind].
        -- assert (ER2 : R = strip ((P ++ repeat 48 z ++ [x]) ++ repeat 48 0 ++ f)) by exact ER.
           rewrite ER2 in *. apply IH; cbn [dc zc pv]; auto.
           ++ rewrite !digits_app. repeat split; auto using digits_zeros. cbn. now rewrite Dx.
           ++ rewrite !app_length, repeat_length. cbn [length]. destruct z; [rewrite u8_small; lia|].
              rewrite Hd, (u8_small (length P + S z)) by lia. rewrite u8_small; lia.
           ++ nia.
        -- destruct (num 0 R <? M c) eqn:?; [lia|reflexivity].
      * destruct (num 0 R <? M c) eqn:?; [nia|reflexivity].
Qed.

Lemma append_total point s d : exists s', append c point s d = Ok s' \/ append c point s d = Throw LogicError.
Proof.
  assert (D : forall s d, exists s', do_append c s d = Ok s' \/ do_append c s d = Throw LogicError).
  { intros s0 d0. unfold do_append. destruct (_ <? _); eexists; eauto. }
  assert (A : forall n s, exists s', append_zeros c n s = Ok s' \/ append_zeros c n s = Throw LogicError).
  { induction n as [|n IH]; intros s0; cbn; [eexists; eauto|].
    destruct (D s0 0) as [s1 [->| ->]]; cbn [rbind]; [apply IH|exists s0; auto]. }
  unfold append. destruct point.
  - destruct (_ || _); [apply D|eexists; eauto].
  - destruct (_ =? _); [eexists; eauto|].
    destruct (A (zc s) s) as [s1 [->| ->]]; cbn [rbind]; [apply D|exists s; auto].
Unshelve. all: exact s0.
Qed.

Lemma parse_frac_bad f : forall s, forallb is_digit f = false -> parse_loop c false s f = Throw LogicError.
Proof.
  induction f as [|x f IH]; intros s H; cbn in H; [discriminate|]. cbn [parse_loop andb].
  rewrite symbol_ok. destruct (is_digit x); cbn [rbind]; [|reflexivity].
  destruct (append_total false s (x - 48)) as [s' [->| ->]]; cbn [rbind]; [|reflexivity]. apply IH. exact H.
Qed.

Lemma numeral_cons x t :
  numeral (x :: t) =
    let n := ((x =? 43) || (x =? 45)) && negb (x =? 43) in
    let body := if (x =? 43) || (x =? 45) then t else x :: t in
    let (i, f) := split_point body in
    if forallb is_digit i && forallb is_digit f then Some (n, i, f) else None.
Proof. unfold numeral. destruct (x =? 45) eqn:E1, (x =? 43) eqn:E2; try reflexivity; lia. Qed.

Theorem from_string_ok t : t <> [] ->
  match numeral t with
  | Some (s, i, f) =>
      (length (strip f) < 256)%nat ->
      from_string c t =
        if (length (strip f) <? 2 ^ X c)%nat && (num 0 (i ++ strip f) <? M c)
        then Ok {| neg := s; ex := length (strip f); man := num 0 (i ++ strip f) |}
        else Throw LogicError
  | None => from_string c t = Throw LogicError
  end.
Proof.
  intros Ht. destruct t as [|x t]; [congruence|]. rewrite numeral_cons. unfold from_string.
  cbv zeta.
  generalize (((x =? 43) || (x =? 45)) && negb (x =? 43)) as n. generalize (if (x =? 43) || (x =? 45) then t else x :: t) as body.
  intros body n.
  destruct (split_point body) as [i f] eqn:Es.
  pose proof (M_pos c) as HM.
  assert (Hi := parse_int_part body {| dc := 0; zc := 0; pv := 0 |} i f Es ltac:(cbn; lia)). cbn [pv] in Hi.
  unfold parse_int. destruct (forallb is_digit i) eqn:Di; cbn [andb] in Hi |- *.
  2: { rewrite Hi. reflexivity. }
  destruct (forallb is_digit f) eqn:Df.
  2: { destruct (num 0 i <? M c); [|rewrite Hi; reflexivity]. destruct Hi as [s' [-> _]]. cbn [rbind].
       rewrite parse_frac_bad by auto. reflexivity. }
  intros Hlen. set (F := strip f) in *. pose proof (pow10_pos (length F)) as Hp.
  assert (DF : digits F) by (apply strip_digits; auto).
  assert (BF := num_bound F DF). assert (Bi := num_bound i Di).
  rewrite num_app, num_shift.
  destruct (num 0 i <? M c) eqn:E1.
  2: { rewrite Hi. cbn [rbind]. destruct (num 0 i * _ + _ <? M c) eqn:?; [nia|]. now rewrite andb_false_r. }
  destruct Hi as [s' [-> Hs']]. cbn [rbind]. rewrite Hs'.
  assert (Hf := parse_frac_part f {| dc := 0; zc := 0; pv := 0 |} [] 0 eq_refl eq_refl eq_refl eq_refl eq_refl ltac:(cbn; lia) Df).
  cbn [app repeat] in Hf. fold F in Hf. specialize (Hf Hlen).
  destruct (num 0 F <? M c) eqn:E2.
  2: { rewrite Hf. cbn [rbind]. destruct (num 0 i * _ + _ <? M c) eqn:?; [nia|]. now rewrite andb_false_r. }
  destruct Hf as (s2 & -> & Hdc & Hpv). cbn [rbind negb]. rewrite Hdc, Hpv. unfold check_exp. rewrite max_exp_lt.
  destruct (length F <? 2 ^ X c)%nat eqn:Ek; cbn [negb andb]; [|reflexivity].
  rewrite (denom_eq G) by lia. set (p := 10 ^ _) in *. unfold guard. destruct (p =? 0) eqn:?; [lia|]. cbn [negb].
  rewrite max_man_M.
  destruct ((M c - 1) / p <? num 0 i) eqn:E3.
  { destruct (num 0 i * p + num 0 F <? M c) eqn:E4; [|reflexivity]. exfalso.
    assert (num 0 i <= (M c - 1) / p); [apply Z.div_le_lower_bound; nia|lia]. }
  assert (Hle : num 0 i * p <= M c - 1).
  { pose proof (Z.mul_div_le (M c - 1) p Hp). nia. }
  rewrite (uw_small G (num 0 i * p)) by nia.
  destruct (M c - 1 - num 0 i * p <? num 0 F) eqn:E5.
  { destruct (num 0 i * p + num 0 F <? M c) eqn:E4; [lia|reflexivity]. }
  destruct (num 0 i * p + num 0 F <? M c) eqn:E4; [|lia].
  rewrite (uw_small G) by nia. rewrite (set_man_small) by nia. rewrite set_exp_small by lia.
  destruct n; reflexivity.
Qed.

(** ** Printing *)
Lemma digits_of_ok fuel : forall n acc, 0 <= n < 10 ^ Z.of_nat fuel ->
  exists ds, digits_of fuel n acc = ds ++ acc /\ digits ds /\ num 0 ds = n /\
    ((0 < fuel)%nat -> ds <> []) /\ (forall k, (0 < k)%nat -> n < 10 ^ Z.of_nat k -> (length ds <= k)%nat).
Proof.
  induction fuel as [|fuel IH]; intros n acc Hn.
  - exists []. cbn in *. repeat split; try lia. 
  - cbn [digits_of]. pose proof (Z.mod_pos_bound n 10 ltac:(lia)) as Hm.
    assert (Hdig : is_digit (48 + n mod 10) = true) by (unfold is_digit; lia).
    destruct (n <? 10) eqn:E.
    + exists [48 + n mod 10]. cbn [app forallb num length]. rewrite Hdig. split; [reflexivity|]. split; [reflexivity|].
      split; [rewrite Z.mod_small; lia|]. split; [discriminate|lia].
    + rewrite pow10_S in Hn.
      destruct (IH (n / 10) ((48 + n mod 10) :: acc)) as (ds & E1 & E2 & E3 & E4 & E5).
      { split; [apply Z.div_pos; lia|apply Z.div_lt_upper_bound; lia]. }
      exists (ds ++ [48 + n mod 10]). rewrite E1, <- app_assoc. split; [reflexivity|].
      split; [apply digits_app; split; [auto|cbn [forallb]; now rewrite Hdig]|].
      split; [rewrite num_app, E3; cbn [num]; pose proof (Z.div_mod n 10); lia|].
      split; [intros _ Hnil; destruct ds; discriminate|].
      intros k Hk Hlt. rewrite app_length. cbn [length].
      destruct k as [|[|k]]; [lia|cbn in Hlt; lia|]. rewrite pow10_S in Hlt.
      assert (length ds <= S k)%nat; [apply E5; [lia|apply Z.div_lt_upper_bound; lia]|lia].
Qed.

Lemma put_uint_ok n : 0 <= n < p2 (W c) ->
  let ds := put_uint c n in
  digits ds /\ num 0 ds = n /\ ds <> [] /\ (forall k, (0 < k)%nat -> n < 10 ^ Z.of_nat k -> (length ds <= k)%nat).
Proof.
  intros Hn. unfold put_uint. destruct (digits_of_ok (W c) n []) as (ds & E1 & E2 & E3 & E4 & E5).
  { split; [lia|]. eapply Z.lt_le_trans; [apply Hn|]. unfold p2. apply Z.pow_le_mono_l. lia. }
  rewrite E1, app_nil_r. cbn. repeat split; auto. apply E4. destruct G as [? [? ?]]. lia.
Qed.

Lemma pad_ok w l : digits l -> digits (pad w l) /\ num 0 (pad w l) = num 0 l /\ length (pad w l) = Nat.max w (length l).
Proof.
  intros H. unfold pad. rewrite digits_app, num_app, num_zeros, app_length, repeat_length.
  repeat split; auto using digits_zeros. lia.
Qed.

Lemma put_width_fits w n : 0 <= n < p2 (W c) -> (0 < w)%nat -> n < 10 ^ Z.of_nat w ->
  put_width c w n = pad w (put_uint c n).
Proof.
  intros Hn Hw Hlt. unfold put_width, put_u128, put_std.
  destruct (put_uint_ok n Hn) as (_ & _ & _ & Hk). specialize (Hk w Hw Hlt).
  destruct (W c =? 128)%nat; [|reflexivity].
  destruct ((1 <? w)%nat && (w <? length (put_uint c n))%nat) eqn:E; [lia|reflexivity].
Qed.

Lemma put_width_0 n : put_width c 0 n = put_uint c n.
Proof. unfold put_width, put_u128, put_std. destruct (W c =? 128)%nat; reflexivity. Qed.

Lemma print_ok d : wf c d ->
  exists i f, print c d = Ok ((if neg d then [45] else []) ++ i ++ (if (ex d =? 0)%nat then [] else 46 :: f)) /\
    digits i /\ i <> [] /\ digits f /\ length f = ex d /\
    num 0 i = man d / 10 ^ Z.of_nat (ex d) /\ num 0 f = man d mod 10 ^ Z.of_nat (ex d).
Proof.
  intros [H1 H2]. fold (M c) in H2. unfold print. rewrite (denom_eq G) by auto.
  pose proof (pow10_pos (ex d)) as Hp. set (p := 10 ^ _) in *. pose proof (W_M G) as HW. pose proof (M_pos c).
  unfold guard. destruct (p =? 0) eqn:?; [lia|]. cbn [negb].
  assert (Hq := div_M (c := c) (man d) p H2 Hp). assert (Hr := Z.mod_pos_bound (man d) p Hp).
  destruct (put_uint_ok (man d / p) ltac:(lia)) as (A1 & A2 & A3 & _).
  rewrite put_width_0. exists (put_uint c (man d / p)).
  destruct (ex d =? 0)%nat eqn:E0.
  - exists []. assert (p = 1) as -> by (unfold p; replace (ex d) with O by lia; reflexivity).
    rewrite Z.div_1_r, Z.mod_1_r in *. repeat split; auto. cbn. lia.
  - pose proof (pow_fits G _ H1) as Hfit. fold p in Hfit.
    rewrite put_width_fits; [|lia|lia|unfold p in *; lia].
    destruct (put_uint_ok (man d mod p) ltac:(lia)) as (B1 & B2 & B3 & B4).
    destruct (pad_ok (ex d) _ B1) as (C1 & C2 & C3).
    exists (pad (ex d) (put_uint c (man d mod p))). rewrite C2, C3, B2. repeat split; auto.
    specialize (B4 (ex d) ltac:(lia)). unfold p in *. lia.
Qed.

Lemma split_point_app i r : digits i -> split_point (i ++ r) = let (a, b) := split_point r in (i ++ a, b).
Proof.
  induction i as [|x i IH]; cbn [app split_point forallb]; intros H; [destruct (split_point r); reflexivity|].
  apply andb_prop in H as [Hx Hi]. destruct (x =? 46) eqn:E; [unfold is_digit in Hx; lia|].
  rewrite IH by auto. destruct (split_point r); reflexivity.
Qed.

Lemma numeral_print (s : bool) i f (b : bool) : digits i -> i <> [] -> digits f -> (b = true -> f = []) ->
  numeral ((if s then [45] else []) ++ i ++ (if b then [] else 46 :: f)) = Some (s, i, f).
Proof.
  intros Di Hi Df Hb. set (body := i ++ (if b then [] else 46 :: f)).
  assert (Es : split_point body = (i, f)).
  { unfold body. rewrite split_point_app by auto. destruct b; cbn; rewrite app_nil_r; [rewrite Hb by auto|]; reflexivity. }
  assert (En : forall s' : bool, (if forallb is_digit i && forallb is_digit f then Some (s', i, f) else None) = Some (s', i, f)).
  { intros. now rewrite Di, Df. }
  destruct s; cbn [app].
  - rewrite numeral_cons. cbn [Z.eqb Pos.eqb orb negb andb]. cbv zeta. rewrite Es. apply En.
  - destruct i as [|x i]; [congruence|]. fold body. unfold body in *. cbn [app] in *. rewrite numeral_cons.
    assert ((x =? 43) || (x =? 45) = false) as ->.
    { cbn in Di. apply andb_prop in Di as [Dx _]. unfold is_digit in Dx. lia. }
    cbn [andb]. cbv zeta. rewrite Es. apply En.
Qed.

Lemma normalize_strip f : forall s i, digits f -> 0 <= num 0 i ->
  normalize {| neg := s; ex := length f; man := num 0 (i ++ f) |} =
  {| neg := s; ex := length (strip f); man := num 0 (i ++ strip f) |}.
Proof.
  intros s i Df Hi. destruct (strip_decomp f) as [n E]. set (F := strip f) in *.
  assert (DF : digits F) by (apply strip_digits; auto). pose proof (num_bound F DF) as BF.
  unfold normalize. cbn [ex man neg].
  assert (Hl : length f = (length F + n)%nat) by (rewrite E at 1; now rewrite app_length, repeat_length).
  assert (Hm : num 0 (i ++ f) = num 0 (i ++ F) * 10 ^ Z.of_nat n).
  { rewrite E at 1. rewrite app_assoc, num_app, num_zeros. reflexivity. }
  assert (Hnn : 0 <= num 0 (i ++ F)).
  { rewrite num_app, num_shift. pose proof (pow10_pos (length F)). nia. }
  assert (Hloop : forall k m, 0 < m -> (length F = 0%nat \/ m mod 10 <> 0) ->
           normalize_loop (length F + k) (m * 10 ^ Z.of_nat k) = (length F, m)).
  { clear. induction k as [|k IH]; intros m Hm Hc.
    - rewrite Nat.add_0_r. change (10 ^ Z.of_nat 0) with 1. rewrite Z.mul_1_r.
      destruct (length F) as [|e]; [reflexivity|]. cbn [normalize_loop]. destruct (m =? 0) eqn:?; [lia|].
      destruct (m mod 10 =? 0) eqn:?; [lia|reflexivity].
    - rewrite Nat.add_succ_r. cbn [normalize_loop]. rewrite pow10_S. pose proof (pow10_pos k).
      destruct (_ =? 0) eqn:Ez; [nia|].
      replace (m * (10 * 10 ^ Z.of_nat k)) with (m * 10 ^ Z.of_nat k * 10) by ring.
      rewrite Z.mod_mul, Z.div_mul by lia. rewrite Z.eqb_refl. apply IH; auto. }
  rewrite Hl, Hm.
  assert (HF : F = [] \/ num 0 (i ++ F) mod 10 <> 0).
  { assert (Hid := strip_idem f). fold F in Hid. clearbody F.
    destruct F as [|y r _] using rev_ind; [left; reflexivity|right].
    apply strip_last in Hid. apply digits_app in DF as [_ DF2]. cbn [forallb] in DF2. unfold is_digit in DF2.
    rewrite app_assoc, num_app. cbn [num]. rewrite Z.mul_comm, Z.add_comm, Z.mod_add by lia.
    rewrite Z.mod_small; lia. }
  destruct (Z.eq_dec (num 0 (i ++ F)) 0) as [Hz|Hz].
  - destruct HF as [HF|HF]; [|rewrite Hz in HF; cbn in HF; lia].
    rewrite Hz. cbn [Z.mul]. destruct (length F + n)%nat; cbn [normalize_loop Z.eqb]; rewrite HF; reflexivity.
  - rewrite Hloop; [|lia|destruct HF as [->|]; auto].
    destruct (num 0 (i ++ F) =? 0) eqn:?; [lia|reflexivity].
Qed.

End Good.
