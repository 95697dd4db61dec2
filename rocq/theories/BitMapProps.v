(** C39: bitmap is a set of enumerators. *)
From Coq Require Import ZifyBool ZifyNat FinFun.
From Verif Require Import Common BitMapModel.
Local Open Scope Z_scope.

(** ** Specification: a variable is a set of enumerators, operations are given by membership. *)
Notation eset := (Z -> Prop).
Definition enumerator (N : nat) (e : Z) : Prop := 0 <= e < Z.of_nat N.
Section Spec.
Context (N : nat).
Notation sstate := (nat -> eset).
Definition sop (o : bitop) (a b : eset) : eset :=
  fun e => match o with BOr => a e \/ b e | BAnd => a e /\ b e | BXor => a e /\ ~ b e \/ b e /\ ~ a e end.
Definition same (a b : eset) : Prop := forall e, enumerator N e -> (a e <-> b e).
Definition truth (b : bool) (P : Prop) : Prop := if b then P else ~ P.
(** [n] enumerators are in the set *)
Definition cardinal (a : eset) (n : nat) : Prop := exists l, NoDup l /\ length l = n /\ forall e, In e l <-> enumerator N e /\ a e.
Definition keep (st st' : sstate) : Prop := forall v, same (st' v) (st v).
Definition put (st st' : sstate) (d : nat) (a : eset) : Prop := same (st' d) a /\ forall v, v <> d -> same (st' v) (st v).
(** What a call may do and answer.  A value that is no enumerator is refused with
    out_of_range; operator[] requires an enumerator. *)
Definition sstep (st : sstate) (o : bop) (st' : sstate) (v : bobs) : Prop :=
  match o with
  | Init d es => v = ODone /\ put st st' d (fun e => In e es)
  | OpEnum d s o e => (enumerator N e /\ v = ODone /\ put st st' d (sop o (st s) (fun x => x = e))) \/ (~ enumerator N e /\ v = OThrow /\ keep st st')
  | OpMap d a b o => v = ODone /\ put st st' d (sop o (st a) (st b))
  | Flip d s => v = ODone /\ put st st' d (fun e => ~ st s e)
  | SetBit d e b => (enumerator N e /\ v = ODone /\ put st st' d (fun x => x = e /\ b = true \/ x <> e /\ st d x)) \/ (~ enumerator N e /\ v = OThrow /\ keep st st')
  | RefSet d e b => v = ODone /\ put st st' d (fun x => x = e /\ b = true \/ x <> e /\ st d x)
  | Test s e => (enumerator N e /\ (exists b, v = OBool b /\ truth b (st s e)) \/ ~ enumerator N e /\ v = OThrow) /\ keep st st'
  | Index s e => (exists b, v = OBool b /\ truth b (st s e)) /\ keep st st'
  | Any s => (exists b, v = OBool b /\ truth b (exists e, enumerator N e /\ st s e)) /\ keep st st'
  | All s => (exists b, v = OBool b /\ truth b (forall e, enumerator N e -> st s e)) /\ keep st st'
  | None_ s => (exists b, v = OBool b /\ truth b (forall e, enumerator N e -> ~ st s e)) /\ keep st st'
  | Count s => (exists n, v = ONum n /\ cardinal (st s) n) /\ keep st st'
  | Size s => v = ONum N /\ keep st st'
  | Equal a b => (exists c, v = OBool c /\ truth c (same (st a) (st b))) /\ keep st st'
  end.
(** The calls of the contract; an initializer list may name the first 64 enumerators only. *)
Definition allowed (o : bop) : Prop :=
  match o with Init _ es => Forall (fun e => enumerator N e /\ e < 64) es | RefSet _ e _ | Index _ e => enumerator N e | _ => True end.
Inductive sruns : sstate -> list bop -> list bobs -> Prop :=
| sruns_nil st : sruns st [] []
| sruns_cons st o os st' v vs : sstep st o st' v -> sruns st' os vs -> sruns st (o :: os) (v :: vs).
Definition sinit : sstate := fun _ _ => False.
End Spec.

(** ** Proof: a bit list stands for the set of the positions that are true *)
Section Proof.
Context (N : nat).
Definition members (bits : list bool) : eset := fun e => 0 <= e /\ nth (Z.to_nat e) bits false = true.
Definition sets (st : bstate) : nat -> eset := fun v => members (st v).
Definition sized (st : bstate) : Prop := forall v, length (st v) = N.

Lemma in_bits_spec e : in_bits N e = true <-> enumerator N e.
Proof. unfold in_bits, enumerator. lia. Qed.
Lemma nth_set_nth (l : list bool) i j b : (i < length l)%nat -> nth j (set_nth l i b) false = if Nat.eqb j i then b else nth j l false.
Proof.
  intros L. destruct (Nat.eqb_spec j i) as [-> |D].
  - apply nth_error_nth. now apply nth_error_set_nth_eq.
  - destruct (nth_error l j) eqn:E.
    + rewrite (nth_error_nth l j false E). apply nth_error_nth. rewrite nth_error_set_nth_neq; auto.
    + rewrite !nth_overflow; auto; [|rewrite set_nth_length]; now apply nth_error_None.
Qed.
Lemma nth_zip f a b i : f false false = false -> length a = length b -> nth i (bs_zip f a b) false = f (nth i a false) (nth i b false).
Proof.
  intros F L. unfold bs_zip. rewrite <- F at 1. change (f false false) with ((fun p : bool * bool => f (fst p) (snd p)) (false, false)).
  rewrite map_nth, combine_nth by auto. reflexivity.
Qed.
Lemma zip_length f a b : length a = N -> length b = N -> length (bs_zip f a b) = N.
Proof. intros A B. unfold bs_zip. rewrite map_length, combine_length. lia. Qed.
Lemma bool_op_false o : bool_op o false false = false. Proof. now destruct o. Qed.
Lemma zip_members o a b : length a = N -> length b = N -> same N (members (bs_zip (bool_op o) a b)) (sop o (members a) (members b)).
Proof.
  intros A B e [H1 H2]. unfold members, sop. rewrite nth_zip by (auto using bool_op_false; congruence).
  destruct o; cbn [bool_op]; destruct (nth _ a false), (nth _ b false); cbn; intuition (auto; try discriminate).
Qed.
Lemma set_members bits e b : length bits = N -> enumerator N e -> same N (members (set_nth bits (Z.to_nat e) b)) (fun x => x = e /\ b = true \/ x <> e /\ members bits x).
Proof.
  intros L He x Hx. unfold members, enumerator in *. rewrite nth_set_nth by lia. destruct (Nat.eqb_spec (Z.to_nat x) (Z.to_nat e)) as [Q|Q].
  - assert (x = e) as -> by lia. intuition.
  - assert (x <> e) by (intros ->; auto). intuition.
Qed.
Lemma enum2bits_ok e : enumerator N e -> exists x, enum2bits N e = Ok x /\ length x = N /\ same N (members x) (fun y => y = e).
Proof.
  intros He. unfold enum2bits, bs_set. rewrite repeat_length, (proj2 (in_bits_spec e) He). eexists; split; [reflexivity|]. split; [now rewrite set_nth_length, repeat_length|].
  intros x Hx. rewrite (set_members (repeat false N) e true (repeat_length _ _) He x Hx). unfold members. rewrite nth_repeat. intuition discriminate.
Qed.
Lemma make_long_ok es : forall v, Forall (fun e => enumerator N e /\ e < 64) es -> 0 <= v ->
  exists w, make_long es v = Ok w /\ forall i, 0 <= i -> (Z.testbit w i = true <-> In i es \/ Z.testbit v i = true).
Proof.
  induction es as [|e es IH]; intros v F V; cbn [make_long].
  - exists v. split; auto. intros; cbn; intuition.
  - inversion F as [|? ? [[He _] Hl] F']; subst. replace ((0 <=? e) && (e <? 64)) with true by lia.
    destruct (IH (Z.lor v (Z.shiftl 1 e)) F') as (w & E & W); [apply Z.lor_nonneg; split; auto; apply Z.shiftl_nonneg; lia|].
    exists w. split; auto. intros i Hi. rewrite (W i Hi), Z.lor_spec, orb_true_iff. cbn [In].
    rewrite Z.shiftl_1_l, Z.pow2_bits_eqb by auto. rewrite Z.eqb_eq. intuition.
Qed.
Lemma of_long_members v : forall e, enumerator N e -> (members (of_long N v) e <-> e < 64 /\ Z.testbit v e = true).
Proof.
  intros e [H1 H2]. unfold members, of_long.
  rewrite (nth_indep _ false ((fun i => (i <? 64)%nat && Z.testbit v (Z.of_nat i)) 0%nat)) by (rewrite map_length, seq_length; lia).
  rewrite (map_nth (fun i => (i <? 64)%nat && Z.testbit v (Z.of_nat i))), seq_nth by lia. rewrite Nat.add_0_l, Z2Nat.id by lia. rewrite andb_true_iff. lia.
Qed.
Lemma exists_member bits : length bits = N -> truth (existsb (fun b => b) bits) (exists e, enumerator N e /\ members bits e).
Proof.
  intros L. destruct (existsb _ bits) eqn:E; cbn.
  - apply existsb_exists in E as (b & I & ->). apply (In_nth _ _ false) in I as (i & Hi & Hb). exists (Z.of_nat i). unfold enumerator, members. rewrite Nat2Z.id. repeat split; auto; lia.
  - intros (e & [H1 H2] & H3 & H4). enough (existsb (fun b => b) bits = true) by congruence. apply existsb_exists. exists true. split; auto. rewrite <- H4. apply nth_In. lia.
Qed.
Lemma all_members bits : length bits = N -> truth (forallb (fun b => b) bits) (forall e, enumerator N e -> members bits e).
Proof.
  intros L. destruct (forallb _ bits) eqn:E; cbn.
  - rewrite forallb_forall in E. intros e [H1 H2]. split; auto. apply E, nth_In. lia.
  - intros A. enough (forallb (fun b => b) bits = true) by congruence. apply forallb_forall. intros b I. apply (In_nth _ _ false) in I as (i & Hi & <-).
    destruct (A (Z.of_nat i)) as [_ X]; [unfold enumerator; lia|]. now rewrite Nat2Z.id in X.
Qed.
Lemma count_members bits : length bits = N -> cardinal N (members bits) (count_occ Bool.bool_dec bits true).
Proof.
  intros <-. exists (map Z.of_nat (filter (fun i => nth i bits false) (seq 0 (length bits)))). split; [|split].
  - apply Injective_map_NoDup; [intros a b; apply Nat2Z.inj|]. apply NoDup_filter, seq_NoDup.
  - rewrite map_length. clear. induction bits as [|b bits IH]; [reflexivity|]. cbn [length seq filter]. change (nth 0 (b :: bits) false) with b. rewrite <- seq_shift.
    assert (Q : length (filter (fun i => nth i (b :: bits) false) (map S (seq 0 (length bits)))) = length (filter (fun i => nth i bits false) (seq 0 (length bits)))).
    { generalize (seq 0 (length bits)). induction l as [|i l IHl]; [reflexivity|]. cbn [map filter]. change (nth (S i) (b :: bits) false) with (nth i bits false). destruct (nth i bits false); cbn [length]; now rewrite IHl. }
    destruct b; cbn [length]; rewrite Q, IH; [rewrite count_occ_cons_eq by auto|rewrite count_occ_cons_neq by discriminate]; reflexivity.
  - intros e. rewrite in_map_iff. unfold enumerator, members. split.
    + intros (i & <- & I). apply filter_In in I as [I1 I2]. apply in_seq in I1. rewrite Nat2Z.id. repeat split; auto; lia.
    + intros ([H1 H2] & _ & H3). exists (Z.to_nat e). split; [lia|]. apply filter_In. split; auto. apply in_seq. lia.
Qed.
Lemma members_inj a b : length a = N -> length b = N -> same N (members a) (members b) -> a = b.
Proof.
  intros A B Q. apply (nth_ext _ _ false false); [congruence|]. intros i Hi. destruct (Q (Z.of_nat i)) as [Q1 Q2]; [unfold enumerator; lia|]. unfold members in *. rewrite Nat2Z.id in *.
  destruct (nth i a false), (nth i b false); auto; [symmetry; apply Q1|apply Q2]; split; auto; lia.
Qed.
Lemma keep_refl st : keep N st st. Proof. intros v e _. reflexivity. Qed.
Lemma put_upd st d bits a : sized st -> length bits = N -> same N (members bits) a -> sized (upd st d bits) /\ put N (sets st) (sets (upd st d bits)) d a.
Proof.
  intros Z L Q. split; [|split].
  - intros v. destruct (Nat.eq_dec v d) as [-> |D]; [now rewrite upd_eq|rewrite upd_neq by auto; apply Z].
  - unfold sets. rewrite upd_eq. exact Q.
  - intros v D. unfold sets. rewrite upd_neq by auto. intros e _. reflexivity.
Qed.
Lemma bstep_ok st o : sized st -> allowed N o -> exists st' v, bstep N st o = Ok (st', v) /\ sized st' /\ sstep N (sets st) o (sets st') v.
Proof.
  intros Z A. destruct o as [d es|d s o e|d a b o|d s|d e b|d e b|s e|s e|s|s|s|s|s|a b]; cbn [bstep sstep allowed] in *.
  - destruct (make_long_ok es 0 A ltac:(lia)) as (w & -> & W). cbn [rbind assign]. eexists _, _; split; [reflexivity|].
    destruct (put_upd st d (of_long N w) (fun e => In e es) Z) as [P1 P2]; [unfold of_long; now rewrite map_length, seq_length| |auto].
    intros e He. rewrite of_long_members by auto. rewrite (W e ltac:(destruct He; lia)), Z.testbit_0_l. rewrite Forall_forall in A. split; [intuition discriminate|]. intros I. split; auto. now apply A.
  - destruct (in_bits N e) eqn:B.
    + apply in_bits_spec in B. destruct (enum2bits_ok e B) as (x & -> & L & M). cbn [rbind assign]. eexists _, _; split; [reflexivity|].
      destruct (put_upd st d (bs_zip (bool_op o) (st s) x) (sop o (sets st s) (fun y => y = e)) Z) as [P1 P2]; [apply zip_length; auto| |auto].
      intros y Hy. rewrite (zip_members o _ _ (Z s) L y Hy). specialize (M y Hy). unfold sop, sets. destruct o; tauto.
    + unfold enum2bits, bs_set. rewrite repeat_length, B. cbn [rbind assign]. eexists _, _; split; [reflexivity|]. split; auto. right. rewrite <- in_bits_spec, B. auto using keep_refl.
  - eexists _, _; split; [reflexivity|]. destruct (put_upd st d (bs_zip (bool_op o) (st a) (st b)) (sop o (sets st a) (sets st b)) Z) as [P1 P2]; [apply zip_length; auto|apply zip_members; auto|auto].
  - eexists _, _; split; [reflexivity|]. destruct (put_upd st d (map negb (st s)) (fun e => ~ sets st s e) Z) as [P1 P2]; [now rewrite map_length| |auto].
    intros e [H1 H2]. unfold sets, members. rewrite (nth_indep _ false (negb true)) by (rewrite map_length, Z; lia). rewrite map_nth. rewrite (nth_indep _ true false) by (rewrite Z; lia).
    destruct (nth _ _ false); cbn; intuition discriminate.
  - unfold bs_set. rewrite Z. destruct (in_bits N e) eqn:B; cbn [assign]; eexists _, _; (split; [reflexivity|]).
    + apply in_bits_spec in B. destruct (put_upd st d (set_nth (st d) (Z.to_nat e) b) _ Z ltac:(now rewrite set_nth_length) (set_members _ e b (Z d) B)) as [P1 P2]. auto.
    + split; auto. right. rewrite <- in_bits_spec, B. auto using keep_refl.
  - unfold unchecked, bs_set. rewrite Z, (proj2 (in_bits_spec e) A). cbn [assign]. eexists _, _; (split; [reflexivity|]).
    destruct (put_upd st d (set_nth (st d) (Z.to_nat e) b) _ Z ltac:(now rewrite set_nth_length) (set_members _ e b (Z d) A)) as [P1 P2]. auto.
  - unfold bs_test. rewrite Z. destruct (in_bits N e) eqn:B; cbn [answer]; eexists _, _; (split; [reflexivity|]); (split; [auto|]); (split; [|apply keep_refl]).
    + left. apply in_bits_spec in B. split; auto. eexists; split; [reflexivity|]. unfold truth, sets, members. destruct B. destruct (nth _ _ false); [auto|]. intros [_ ?]; discriminate.
    + right. rewrite <- in_bits_spec, B. auto.
  - unfold unchecked, bs_test. rewrite Z, (proj2 (in_bits_spec e) A). cbn [answer]. eexists _, _; (split; [reflexivity|]); (split; [auto|]); (split; [|apply keep_refl]).
    eexists; split; [reflexivity|]. unfold truth, sets, members. destruct A. destruct (nth _ _ false); [auto|]. intros [_ ?]; discriminate.
  - eexists _, _; (split; [reflexivity|]); (split; [auto|]); (split; [|apply keep_refl]). eexists; split; [reflexivity|]. now apply exists_member.
  - eexists _, _; (split; [reflexivity|]); (split; [auto|]); (split; [|apply keep_refl]). eexists; split; [reflexivity|]. now apply all_members.
  - eexists _, _; (split; [reflexivity|]); (split; [auto|]); (split; [|apply keep_refl]). eexists; split; [reflexivity|]. pose proof (exists_member (st s) (Z s)) as X.
    unfold sets. destruct (existsb _ (st s)); cbn in *; [intros Y; destruct X as (e & X1 & X2); now apply (Y e)|intros e H1 H2; apply X; eauto].
  - eexists _, _; (split; [reflexivity|]); (split; [auto|]); (split; [|apply keep_refl]). eexists; split; [reflexivity|]. now apply count_members.
  - eexists _, _; (split; [reflexivity|]); (split; [auto|]); (split; [|apply keep_refl]). now rewrite Z.
  - eexists _, _; (split; [reflexivity|]); (split; [auto|]); (split; [|apply keep_refl]). eexists; split; [reflexivity|].
    destruct (list_eq_dec _ _ _) as [Q|Q]; cbn; unfold sets; [rewrite Q; intros e _; reflexivity|]. intros X. apply Q, members_inj; auto.
Qed.
Lemma brun_ok os : forall st, sized st -> Forall (allowed N) os -> exists vs, brun N st os = Ok vs /\ sruns N (sets st) os vs.
Proof.
  induction os as [|o os IH]; intros st Z F; [exists []; split; [reflexivity|constructor]|]. inversion F; subst. destruct (bstep_ok st o Z) as (st' & v & E & Z' & S); auto.
  destruct (IH st' Z') as (vs & E' & S'); auto. exists (v :: vs). cbn [brun]. rewrite E. cbn [rbind]. rewrite E'. split; [reflexivity|]. econstructor; eauto.
Qed.
End Proof.

(** C39, for initializer lists that name the first 64 enumerators only *)
Theorem bitmap_is_set_partial N os : Forall (allowed N) os -> exists vs st, brun N (binit N) os = Ok vs /\ (forall v, same N (st v) (sinit v)) /\ sruns N st os vs.
Proof.
  intros F. destruct (brun_ok N os (binit N)) as (vs & E & S); auto; [intros v; apply repeat_length|]. exists vs, (sets (binit N)). split; auto. split; auto.
  intros v e _. unfold sets, members, binit, sinit. rewrite nth_repeat. intuition discriminate.
Qed.
Print Assumptions bitmap_is_set_partial.
(** Violated: an initializer list with an enumerator beyond the 64th shifts too far. *)
Theorem bitmap_initializer_refuted : exists N e, enumerator N e /\ forall d, brun N (binit N) [Init d [e]] = UB.
Proof. exists 65%nat, 64. split; [unfold enumerator; lia|reflexivity]. Qed.
(** The same set built by operator| is fine. *)
Example bitmap_beyond_64 : brun 70 (binit 70) [OpEnum 0 0 BOr 64; OpEnum 0 0 BOr 69; Test 0 64; Test 0 0; Count 0; Test 0 70] = Ok [ODone; ODone; OBool true; OBool false; ONum 2; OThrow].
Proof. reflexivity. Qed.
Example bitmap_demo : brun 5 (binit 5) [Init 0 [1; 3; 3]; Count 0; Flip 1 0; OpMap 2 0 1 BOr; All 2; OpMap 3 0 1 BAnd; None_ 3; SetBit 0 1 false; Equal 0 1; OpEnum 0 0 BXor 3; Any 0; Size 0; SetBit 0 (-1) true]
  = Ok [ODone; ONum 2; ODone; ODone; OBool true; ODone; OBool true; ODone; OBool false; ODone; OBool false; ONum 5; OThrow].
Proof. reflexivity. Qed.
