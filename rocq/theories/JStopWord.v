(** The word of __stop_state as flags and counters, sums over threads. *)
From Coq Require Import ZifyBool ZifyNat.
From Verif Require Import Common JStopModel.
Local Open Scope Z_scope.

Definition enc (sp lk : bool) (T S : nat) : Z := Z.b2z sp + 2 * Z.b2z lk + 4 * Z.of_nat T + source_inc * Z.of_nat S.
Definition fits (T S : nat) : Prop := Z.of_nat T < 2 ^ 31 /\ Z.of_nat S < 2 ^ 31.

Lemma land_1 q b : Z.land (2 * q + Z.b2z b) 1 = Z.b2z b.
Proof.
  change 1 with (Z.ones 1). rewrite Z.land_ones by lia. change (2 ^ 1) with 2.
  destruct b; cbn [Z.b2z]; [| replace (2 * q + 0) with (q * 2) by lia; apply Z.mod_mul; lia].
  rewrite Z.add_comm, Z.mul_comm, Z.mod_add by lia. reflexivity.
Qed.
Lemma land_2 q b d : Z.land (4 * q + 2 * Z.b2z b + Z.b2z d) 2 = 2 * Z.b2z b.
Proof.
  apply Z.bits_inj'. intros i Hi.
  rewrite Z.land_spec. replace (4 * q + 2 * Z.b2z b + Z.b2z d) with (2 * (2 * q + Z.b2z b) + Z.b2z d) by lia.
  destruct (Z.eq_dec i 0) as [->|N0].
  - rewrite Z.testbit_0_r. change 2 with (2 * 1). rewrite Z.testbit_even_0, Z.testbit_even_0. now rewrite andb_false_r.
  - replace i with (Z.succ (i - 1)) by lia.
    rewrite Z.testbit_succ_r by lia. change 2 with (2 * 1) at 2 3. rewrite !Z.testbit_even_succ by lia.
    destruct (Z.eq_dec (i - 1) 0) as [->|N1].
    + rewrite Z.testbit_0_r. destruct b; reflexivity.
    + replace (i - 1) with (Z.succ (i - 2)) by lia. change 1 with (Z.b2z true) at 1.
      replace (Z.b2z true) with (2 * 0 + Z.b2z true) by reflexivity. rewrite (Z.testbit_succ_r 0) by lia. rewrite Z.bits_0, andb_false_r.
      destruct b; cbn [Z.b2z]; [change 1 with (2 * 0 + Z.b2z true); rewrite Z.testbit_succ_r by lia|]; now rewrite Z.bits_0.
Qed.

Section Enc.
Context (sp lk : bool) (T S : nat).
Lemma enc_stop : is_stop_requested (enc sp lk T S) = sp.
Proof.
  unfold is_stop_requested, stop_flag, enc, source_inc.
  replace (Z.b2z sp + 2 * Z.b2z lk + 4 * Z.of_nat T + 2 ^ 33 * Z.of_nat S) with (2 * (Z.b2z lk + 2 * Z.of_nat T + 2 ^ 32 * Z.of_nat S) + Z.b2z sp) by lia.
  rewrite land_1. now destruct sp.
Qed.
Lemma enc_locked : is_locked (enc sp lk T S) = lk.
Proof.
  unfold is_locked, locked_flag, enc, source_inc.
  replace (Z.b2z sp + 2 * Z.b2z lk + 4 * Z.of_nat T + 2 ^ 33 * Z.of_nat S) with (4 * (Z.of_nat T + 2 ^ 31 * Z.of_nat S) + 2 * Z.b2z lk + Z.b2z sp) by lia.
  rewrite land_2. now destruct lk.
Qed.
Lemma enc_requestable : fits T S -> is_requestable (enc sp lk T S) = sp || (1 <=? S)%nat.
Proof.
  intros [HT HS]. unfold is_requestable. rewrite enc_stop. f_equal. unfold enc, source_inc.
  destruct sp, lk; cbn [Z.b2z]; destruct (Nat.leb_spec 1 S); destruct (Z.leb_spec (2 ^ 33)  (1 + 2 * 1 + 4 * Z.of_nat T + 2 ^ 33 * Z.of_nat S)); lia.
Qed.
End Enc.

Lemma lor_add a b : Z.land a b = 0 -> Z.lor a b = a + b.
Proof. intros H. symmetry. rewrite Z.add_nocarry_lxor by exact H. now apply Z.lxor_lor. Qed.
Lemma enc_lock sp T S : Z.lor (enc sp false T S) locked_flag = enc sp true T S.
Proof.
  pose proof (enc_locked sp false T S) as H. unfold is_locked in H.
  rewrite lor_add; [unfold enc, locked_flag; cbn [Z.b2z]; lia|].
  destruct (Z.eqb_spec (Z.land (enc sp false T S) locked_flag) 0); [assumption|discriminate].
Qed.
Lemma enc_signal T S : Z.lor (Z.lor (enc false false T S) stop_flag) locked_flag = enc true true T S.
Proof.
  pose proof (enc_stop false false T S) as H. unfold is_stop_requested in H.
  rewrite (lor_add _ stop_flag); [replace (enc false false T S + stop_flag) with (enc true false T S); [apply enc_lock|unfold enc, stop_flag; cbn [Z.b2z]; lia]|].
  destruct (Z.eqb_spec (Z.land (enc false false T S) stop_flag) 0); [assumption|discriminate].
Qed.
Lemma wrap_small z : 0 <= z < 2 ^ 64 -> wrap z = z.
Proof. apply Z.mod_small. Qed.
Ltac encl := unfold fits, enc, source_inc, locked_flag, stop_flag, token_inc in *;
  repeat match goal with b : bool |- _ => destruct b end; cbn [Z.b2z] in *; try rewrite wrap_small; lia.
Lemma enc_unlock sp T S : fits T S -> wrap (enc sp true T S - locked_flag) = enc sp false T S.
Proof. intros. encl. Qed.
Lemma enc_unlock_inc sp T S : fits (Datatypes.S T) S -> wrap (enc sp true T S - (locked_flag - token_inc)) = enc sp false (Datatypes.S T) S.
Proof. intros. encl. Qed.
Lemma enc_unlock_dec sp T S : fits (Datatypes.S T) S -> wrap (enc sp true (Datatypes.S T) S - (locked_flag + token_inc)) = enc sp false T S.
Proof. intros. encl. Qed.
Lemma enc_unlock_last sp T S : fits (Datatypes.S T) S -> (enc sp true (Datatypes.S T) S <? locked_flag + token_inc + token_inc) = (Nat.eqb T 0 && Nat.eqb S 0).
Proof. intros. destruct (Nat.eqb_spec T 0), (Nat.eqb_spec S 0); cbn [andb]; encl. Qed.
Lemma enc_add_token sp lk T S : fits (Datatypes.S T) S -> wrap (enc sp lk T S + token_inc) = enc sp lk (Datatypes.S T) S.
Proof. intros. encl. Qed.
Lemma enc_remove_token sp lk T S : fits (Datatypes.S T) S -> wrap (enc sp lk (Datatypes.S T) S - token_inc) = enc sp lk T S.
Proof. intros. encl. Qed.
(** __remove_token_reference deletes the state if there is no source, whatever the number of tokens *)
Lemma enc_remove_token_last sp lk T S : fits (Datatypes.S T) S -> (enc sp lk (Datatypes.S T) S <? token_inc + source_inc) = Nat.eqb S 0.
Proof. intros. destruct (Nat.eqb_spec S 0); encl. Qed.
Lemma enc_add_source sp lk T S : fits T (Datatypes.S S) -> wrap (enc sp lk T S + source_inc) = enc sp lk T (Datatypes.S S).
Proof. intros. encl. Qed.
Lemma enc_remove_source sp lk T S : fits T (Datatypes.S S) -> wrap (enc sp lk T (Datatypes.S S) - source_inc) = enc sp lk T S.
Proof. intros. encl. Qed.
Lemma enc_remove_source_last sp lk T S : fits T (Datatypes.S S) -> (enc sp lk T (Datatypes.S S) <? token_inc + source_inc) = (Nat.eqb T 0 && Nat.eqb S 0).
Proof. intros. destruct (Nat.eqb_spec T 0), (Nat.eqb_spec S 0); cbn [andb]; encl. Qed.

(** ** Sums *)
Lemma sum_ext f g k : (forall i, (i < k)%nat -> f i = g i) -> sum f k = sum g k.
Proof. induction k as [|k IH]; intros H; [reflexivity|]. cbn [sum]. rewrite H by lia. f_equal. apply IH. intros; apply H; lia. Qed.
Lemma sum_upd (f g : nat -> nat) i k : (i < k)%nat -> (forall j, j <> i -> g j = f j) -> (sum g k + f i = sum f k + g i)%nat.
Proof.
  induction k as [|k IH]; intros Hi Hg; [lia|]. cbn [sum].
  destruct (Nat.eq_dec i k) as [->|N].
  - rewrite (sum_ext g f k); [lia|]. intros; apply Hg; lia.
  - specialize (IH ltac:(lia) Hg). rewrite (Hg k) by lia. lia.
Qed.
Lemma sum_ge f i k : (i < k)%nat -> (f i <= sum f k)%nat.
Proof. induction k as [|k IH]; intros; [lia|]. cbn [sum]. destruct (Nat.eq_dec i k) as [->|]; [lia|]. specialize (IH ltac:(lia)). lia. Qed.
Lemma sum_ge2 f i j k : (i < k)%nat -> (j < k)%nat -> i <> j -> (f i + f j <= sum f k)%nat.
Proof.
  induction k as [|k IH]; intros; [lia|]. cbn [sum].
  destruct (Nat.eq_dec i k) as [->|], (Nat.eq_dec j k) as [->|]; [lia| | |].
  - pose proof (sum_ge f j k). lia.
  - pose proof (sum_ge f i k). lia.
  - specialize (IH ltac:(lia) ltac:(lia)). lia.
Qed.
Lemma sum_pos f k : (1 <= sum f k)%nat -> exists i, (i < k)%nat /\ (1 <= f i)%nat.
Proof.
  induction k as [|k IH]; cbn [sum]; intros; [lia|].
  destruct (f k) eqn:E; [destruct IH as (i & ? & ?); [lia|]; exists i; lia | exists k; lia].
Qed.
Lemma sum_le f k : (forall i, (f i <= 1)%nat) -> (sum f k <= k)%nat.
Proof. intros H. induction k as [|k IH]; cbn [sum]; [lia|]. specialize (H k). lia. Qed.
Lemma countf_in p l f : In f l -> p f = true -> (1 <= countf p l)%nat.
Proof. unfold countf. induction l as [|x l IH]; [easy|]. cbn [filter In]. intros [->|H] E; [rewrite E; cbn [length]; lia|]. specialize (IH H E). destruct (p x); cbn [length]; lia. Qed.
Lemma countf_pos p l : (1 <= countf p l)%nat -> exists f, In f l /\ p f = true.
Proof.
  unfold countf. induction l as [|x l IH]; cbn [filter length]; [lia|]. destruct (p x) eqn:E; intros H; [now exists x; split; [left|]|].
  destruct (IH H) as (f & ? & ?). now exists f; split; [right|].
Qed.
Lemma countf_none p l : countf p l = 0%nat <-> forall f, In f l -> p f = false.
Proof.
  split.
  - intros H f Hf. destruct (p f) eqn:E; [|reflexivity]. pose proof (countf_in p l f Hf E). lia.
  - intros H. destruct (countf p l) eqn:E; [reflexivity|]. destruct (countf_pos p l) as (f & Hf & E'); [lia|]. rewrite (H f Hf) in E'. discriminate.
Qed.
