(** Integers and arrays of bytes (C38). *)
From Coq Require Import ZifyBool ZifyNat.
From Verif Require Import Common Int2ArrayModel.
Local Open Scope Z_scope.

(** ** Specification: the number that big-endian digits denote *)
Fixpoint be_value (a : list Z) : Z :=
  match a with [] => 0 | b :: r => b * 256 ^ Z.of_nat (length r) + be_value r end.
Definition is_byte (b : Z) : Prop := 0 <= b < 256.

Lemma pow_bytes w : 2 ^ (8 * Z.of_nat w) = 256 ^ Z.of_nat w.
Proof. rewrite Z.pow_mul_r by lia. reflexivity. Qed.
Lemma pow256_pos n : 0 < 256 ^ Z.of_nat n.
Proof. apply Z.pow_pos_nonneg; lia. Qed.
Lemma be_snoc l b : be_value (l ++ [b]) = be_value l * 256 + b.
Proof.
  induction l as [|x l IH]; cbn [app be_value]; [cbn; lia|]. rewrite IH, app_length. cbn [length].
  replace (Z.of_nat (length l + 1)) with (Z.of_nat (length l) + 1) by lia. rewrite Z.pow_add_r by lia. ring.
Qed.
Lemma be_bound a : Forall is_byte a -> 0 <= be_value a < 256 ^ Z.of_nat (length a).
Proof.
  induction 1 as [|b a Hb Ha IH]; cbn [be_value length]; [cbn; lia|]. unfold is_byte in Hb. pose proof (pow256_pos (length a)).
  replace (Z.of_nat (S (length a))) with (Z.of_nat (length a) + 1) by lia. rewrite Z.pow_add_r by lia. nia.
Qed.
Lemma be_inj a : forall b, length a = length b -> Forall is_byte a -> Forall is_byte b -> be_value a = be_value b -> a = b.
Proof.
  induction a as [|x a IH]; intros [|y b] L Ha Hb E; try discriminate; [reflexivity|]. injection L as L. inversion Ha; inversion Hb; subst.
  cbn [be_value] in E. rewrite L in E. pose proof (be_bound a ltac:(auto)) as B1. pose proof (be_bound b ltac:(auto)) as B2. rewrite L in B1.
  assert (x = y) by nia. subst y. f_equal. apply IH; auto. lia.
Qed.

Lemma to_array_S w v : to_array (S w) v = to_array w (Z.shiftr v 8) ++ [v mod 256].
Proof.
  unfold to_array. rewrite seq_S, map_app. cbn [map]. f_equal.
  - apply map_ext_in. intros i Hi. apply in_seq in Hi. rewrite Z.shiftr_shiftr by lia. do 2 f_equal. lia.
  - replace (Z.of_nat (S w - (1 + w)) * 8) with 0 by lia. now rewrite Z.shiftr_0_r.
Qed.
Lemma to_array_length w v : length (to_array w v) = w.
Proof. unfold to_array. now rewrite map_length, seq_length. Qed.
Lemma to_array_bytes w v : Forall is_byte (to_array w v).
Proof. unfold to_array. apply Forall_forall. intros b Hb. apply in_map_iff in Hb. destruct Hb as (i & <- & _). unfold is_byte. apply Z.mod_pos_bound. lia. Qed.
Lemma be_to_array w : forall v, be_value (to_array w v) = v mod 256 ^ Z.of_nat w.
Proof.
  induction w as [|w IH]; intros v; [cbn; symmetry; apply Z.mod_1_r|]. rewrite to_array_S, be_snoc, IH. rewrite Z.shiftr_div_pow2 by lia. change (2 ^ 8) with 256.
  replace (Z.of_nat (S w)) with (1 + Z.of_nat w) by lia. rewrite Z.pow_add_r by lia. change (256 ^ 1) with 256.
  rewrite (Z.rem_mul_r v 256 (256 ^ Z.of_nat w)) by (try pose proof (pow256_pos w); lia). ring.
Qed.

Lemma wrap_mod sg w v : wrap sg w v mod 256 ^ Z.of_nat w = v mod 256 ^ Z.of_nat w.
Proof.
  unfold wrap. rewrite pow_bytes. pose proof (pow256_pos w). destruct sg; [|apply Z.mod_mod; lia].
  rewrite Zminus_mod_idemp_l. f_equal. lia.
Qed.
Lemma wrap_congr sg w a b : a mod 256 ^ Z.of_nat w = b mod 256 ^ Z.of_nat w -> wrap sg w a = wrap sg w b.
Proof.
  intros E. unfold wrap. rewrite pow_bytes. destruct sg; [|exact E]. f_equal. rewrite <- Zplus_mod_idemp_l, E, Zplus_mod_idemp_l. reflexivity.
Qed.
Lemma from_array_wrap sg w a : (0 < w)%nat -> from_array sg w a = wrap sg w (be_value a).
Proof.
  intros Hw. induction a as [|b a IH] using rev_ind.
  - cbn. unfold wrap. rewrite pow_bytes. pose proof (pow256_pos w). destruct sg; [|rewrite Z.mod_0_l; lia].
    cbn [Z.add]. rewrite Z.mod_small; [lia|]. split; [apply Z.div_pos; lia|apply Z.div_lt; lia].
  - unfold from_array in *. rewrite fold_left_app. cbn [fold_left]. rewrite IH, be_snoc. apply wrap_congr. rewrite Z.shiftl_mul_pow2 by lia. change (2 ^ 8) with 256.
    rewrite <- Zplus_mod_idemp_l, <- Zmult_mod_idemp_l, wrap_mod, Zmult_mod_idemp_l, Zplus_mod_idemp_l. reflexivity.
Qed.
Lemma wrap_range sg w v : (0 < w)%nat -> range sg w v -> wrap sg w v = v.
Proof.
  intros Hw R. unfold range, wrap in *. destruct sg; [|now apply Z.mod_small].
  assert (E : 2 ^ (8 * Z.of_nat w) = 2 * 2 ^ (8 * Z.of_nat w - 1)).
  { rewrite <- Z.pow_succ_r by lia. f_equal. lia. }
  rewrite E. rewrite (Z.mul_comm 2), Z.div_mul by lia. rewrite Z.mod_small; lia.
Qed.

(** C38: to an array and back, for every integer type and every value of it. *)
Theorem int_array_round_trip sg w v : (0 < w)%nat -> range sg w v -> from_array sg w (to_array w v) = v.
Proof.
  intros Hw R. rewrite from_array_wrap by auto. rewrite be_to_array. rewrite <- (wrap_range sg w v Hw R) at 2. apply wrap_congr.
  pose proof (pow256_pos w). apply Z.mod_mod. lia.
Qed.
(** From an array and back. *)
Theorem array_int_round_trip sg w a : (0 < w)%nat -> length a = w -> Forall is_byte a -> to_array w (from_array sg w a) = a.
Proof.
  intros Hw L F. apply be_inj; auto; [now rewrite to_array_length|apply to_array_bytes|]. rewrite be_to_array, from_array_wrap, wrap_mod by auto.
  apply Z.mod_small. rewrite <- L. now apply be_bound.
Qed.
(** The most significant byte comes first. *)
Theorem to_array_big_endian w v : length (to_array w v) = w /\ Forall is_byte (to_array w v) /\ be_value (to_array w v) = v mod 256 ^ Z.of_nat w.
Proof. split; [apply to_array_length|]. split; [apply to_array_bytes|apply be_to_array]. Qed.

Example int_array_demo : to_array 4 (-2) = [255; 255; 255; 254] /\ from_array true 4 [255; 255; 255; 254] = -2 /\
  from_array false 4 [255; 255; 255; 254] = 4294967294 /\ to_array 2 258 = [1; 2] /\ from_array true 1 [128] = -128.
Proof. vm_compute. auto. Qed.
