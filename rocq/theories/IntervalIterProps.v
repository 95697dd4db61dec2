(** C90: iteration over interval_map *)
From Coq Require Import ZifyBool ZifyNat Sorted.
From Verif Require Import Common IntervalModel IntervalProofs IntervalProps.
Local Open Scope Z_scope.

Section Iter.
Context {V : Type} (veq : V -> V -> bool) (veq_ok : forall x y, veq x y = true <-> x = y) (hi : Z) (overflow : res Z).
Notation entry := (Z * (Z * V))%type.
Notation imap := (list entry).
Notation good := (@good V hi).
Notation assigns := (assigns veq hi overflow).
Notation visit := (@visit V hi overflow).

(** ** Specification *)
(** The assigned keys are not further apart than the largest key.  This holds for any keys of an
    unsigned type, and for keys of one sign. *)
Definition spans (os : list (Z * Z * V)) : Prop := exists base, forall a b v, In (a, b, v) os -> a <= b -> base <= a /\ b <= base + hi.
Definition ascending (l : list (Z * V)) : Prop := StronglySorted (fun x y => fst x < fst y) l.

(** ** Proofs *)
Fixpoint run (l : Z) (v : V) (n : nat) : list (Z * V) := match n with 0%nat => [] | Datatypes.S n' => (l, v) :: run (l + 1) v n' end.
Definition expand (m : imap) : list (Z * V) := flat_map (fun e => run (fst (snd e)) (snd (snd e)) (Z.to_nat (fst e - fst (snd e) + 1))) m.
Lemma run_in v n : forall l k w, In (k, w) (run l v n) <-> w = v /\ l <= k < l + Z.of_nat n.
Proof.
  induction n as [|n IH]; intros l k w; cbn [run In]; [split; [contradiction|lia]|]. rewrite IH. split.
  - intros [E|[-> H]]; [injection E as -> ->; split; [auto|lia]|split; [auto|lia]].
  - intros [-> H]. destruct (Z.eq_dec k l) as [-> |D]; [now left|right; split; auto; lia].
Qed.
Lemma run_len v n : forall l, length (run l v n) = n.
Proof. induction n as [|n IH]; intros l; cbn [run length]; [auto|now rewrite IH]. Qed.
Lemma run_asc v n : forall l, ascending (run l v n).
Proof.
  induction n as [|n IH]; intros l; cbn [run]; constructor; [apply IH|]. apply Forall_forall. intros [k w] I. apply run_in in I. cbn. lia.
Qed.
Lemma asc_app l1 l2 : ascending l1 -> ascending l2 -> (forall x y, In x l1 -> In y l2 -> fst x < fst y) -> ascending (l1 ++ l2).
Proof.
  intros A B C. induction A as [|x l1 A IH F]; [exact B|]. cbn [app]. constructor; [apply IH; intros; apply C; [now right|auto]|].
  apply Forall_app. split; auto. apply Forall_forall. intros y I. apply C; [now left|auto].
Qed.
Lemma expand_in m k w : (forall r l v, In (r, (l, v)) m -> l <= r) -> (In (k, w) (expand m) <-> holds m k w).
Proof.
  intros W. unfold expand, holds. rewrite in_flat_map. split.
  - intros ([r [l v]] & I & R). cbn [fst snd] in R. apply run_in in R as [-> R]. exists r, l. split; auto. specialize (W _ _ _ I). lia.
  - intros (r & l & I & L). exists (r, (l, w)). split; auto. cbn [fst snd]. apply run_in. split; auto. specialize (W _ _ _ I). lia.
Qed.
Lemma good_tail e m : good (e :: m) -> good m.
Proof.
  intros (S & W & A). split; [now apply ks_cons in S|]. split; intros; [eapply W; right; eauto|eapply A; [right; eauto|right; eauto|auto]].
Qed.
Lemma expand_asc m : good m -> ascending (expand m).
Proof.
  induction m as [|[r [l v]] m IH]; intros G; [constructor|]. pose proof G as (S & W & A). cbn [expand flat_map fst snd]. apply asc_app; [apply run_asc|apply IH; eapply good_tail; eauto|].
  intros [k w] [k' w'] I J. apply run_in in I as [_ I]. apply ks_cons in S as [_ S].
  apply (expand_in m k' w') in J; [|intros r' l' v' I'; specialize (W r' l' v' (or_intror I')); lia]. destruct J as (r' & l' & J & L).
  specialize (A r l v r' l' w' (or_introl eq_refl) (or_intror J)). specialize (S _ J). cbn [fst] in *. specialize (W r l v (or_introl eq_refl)). lia.
Qed.
Lemma visit_step (m : imap) n i : visit m (Datatypes.S n) i = if iter_eqb i end_ then Ok (Some []) else let* x := deref m i in let* j := move_next hi overflow m i in let* l := visit m n j in Ok (option_map (cons x) l).
Proof. reflexivity. Qed.
(** From an element to the next one *)
Lemma visit_entry m r l v n t : ks m -> In (r, (l, v)) m -> l <= r -> r - l <= hi -> visit m n (next_of m r, 0) = Ok (Some t) -> forall d, Z.of_nat d <= r - l ->
  visit m (Datatypes.S d + n)%nat (Some r, r - l - Z.of_nat d) = Ok (Some (run (r - Z.of_nat d) v (Datatypes.S d) ++ t)).
Proof.
  intros S I L B H. pose proof (proj2 (lookup_ok m r (l, v) S) I) as E. induction d as [|d IH]; intros D.
  - cbn [Nat.add]. rewrite visit_step. cbn [iter_eqb fst snd andb end_]. unfold deref, move_next. cbn [fst snd]. rewrite E.
    replace (r - l <=? hi) with true by lia. cbn [rbind]. replace (r - l - Z.of_nat 0) with (r - l) by lia. rewrite Z.leb_refl, Z.eqb_refl. cbn [rbind]. rewrite H. cbn [rbind option_map run app].
    do 3 f_equal. f_equal. lia.
  - cbn [Nat.add]. rewrite visit_step. cbn [iter_eqb fst snd andb end_]. unfold deref, move_next. cbn [fst snd]. rewrite E. replace (r - l <=? hi) with true by lia. cbn [rbind].
    replace (r - l - Z.of_nat (Datatypes.S d) <=? r - l) with true by lia. replace (r - l - Z.of_nat (Datatypes.S d) =? r - l) with false by lia.
    unfold next_key. replace (r - l - Z.of_nat (Datatypes.S d) =? hi) with false by lia. cbn [rbind].
    replace (r - l - Z.of_nat (Datatypes.S d) + 1) with (r - l - Z.of_nat d) by lia. specialize (IH ltac:(lia)). cbn [Nat.add] in IH. rewrite IH. cbn [rbind option_map].
    f_equal. f_equal. change (run (r - Z.of_nat (Datatypes.S d)) v (Datatypes.S (Datatypes.S d))) with ((r - Z.of_nat (Datatypes.S d), v) :: run (r - Z.of_nat (Datatypes.S d) + 1) v (Datatypes.S d)).
    replace (r - Z.of_nat (Datatypes.S d) + 1) with (r - Z.of_nat d) by lia. cbn [app]. do 2 f_equal. lia.
Qed.
Lemma lower_bound_skip (m1 m2 : imap) k : (forall r x, In (r, x) m1 -> r < k) -> lower_bound (m1 ++ m2) k = lower_bound m2 k.
Proof.
  induction m1 as [|[r x] m1 IH]; intros H; cbn [app lower_bound]; auto. specialize (H r x (or_introl eq_refl)) as L. replace (r <? k) with true by lia. apply IH. intros; eapply H; right; eauto.
Qed.
Lemma visit_suffix m : good m -> (forall r l v, In (r, (l, v)) m -> r - l <= hi) -> forall m2 m1, m = m1 ++ m2 -> visit m (length (expand m2)) (begin_ m2) = Ok (Some (expand m2)).
Proof.
  intros G B. pose proof G as (S & W & A). induction m2 as [|[r [l v]] m2 IH]; intros m1 Em; [reflexivity|]. specialize (IH (m1 ++ [(r, (l, v))])). rewrite <- app_assoc in IH. specialize (IH Em).
  assert (I : In (r, (l, v)) m) by (rewrite Em; apply in_or_app; right; now left). specialize (B _ _ _ I). specialize (W _ _ _ I).
  assert (N : next_of m r = fst (begin_ m2)).
  { assert (S' : ks (m1 ++ (r, (l, v)) :: m2)) by now rewrite <- Em. unfold next_of. rewrite Em.
    assert (M1 : forall r' x, In (r', x) m1 -> r' < r + 1).
    { intros r' x J. clear - S' J. induction m1 as [|e m1 IH]; [contradiction|]. cbn [app] in S'. apply ks_cons in S' as [S1 S2]. destruct J as [-> |J]; [|auto].
      specialize (S2 (r, (l, v)) ltac:(apply in_or_app; right; now left)). cbn in S2. lia. }
    rewrite lower_bound_skip by auto. cbn [lower_bound]. replace (r <? r + 1) with true by lia. clear IH. destruct m2 as [|[r2 x2] m2]; [reflexivity|]. cbn [lower_bound begin_ fst].
    assert (r < r2). { clear - S'. induction m1 as [|e m1 IH]; cbn [app] in S'; apply ks_cons in S' as [S1 S2]; [|auto]. specialize (S2 _ (or_introl eq_refl)). exact S2. }
    now replace (r2 <? r + 1) with false by lia. }
  cbn [expand flat_map fst snd]. fold (expand m2). rewrite app_length, run_len.
  assert (K : exists d, Z.to_nat (r - l + 1) = Datatypes.S d /\ Z.of_nat d = r - l) by (exists (Z.to_nat (r - l)); lia). destruct K as (d & -> & Kd).
  pose proof (visit_entry m r l v (length (expand m2)) (expand m2) S I ltac:(lia) B) as H. rewrite N in H. change (fst (begin_ m2), 0) with (fst (begin_ m2), snd (begin_ m2)) in H. rewrite <- surjective_pairing in H.
  specialize (H IH d ltac:(lia)). replace (r - l - Z.of_nat d) with 0 in H by lia. replace (r - Z.of_nat d) with l in H by lia. exact H.
Qed.
Lemma latest_origin (os : list (Z * Z * V)) k : latest os k <> None -> exists a b v, In (a, b, v) os /\ a <= k <= b.
Proof.
  induction os as [|[[a b] v] os IH]; cbn [latest]; [contradiction|]. destruct (latest os k).
  - intros _. destruct IH as (a' & b' & v' & I & L); [discriminate|]. exists a', b', v'. split; [now right|auto].
  - cbn [covers]. destruct ((a <=? k) && (k <=? b)) eqn:C; [|contradiction]. intros _. exists a, b, v. split; [now left|lia].
Qed.

(** C90: a loop over the map visits the keys that are in it, each once, from the smallest to the
    largest, with their values. *)
Theorem interval_iteration_partial os : fits hi os -> spans os -> exists m l, assigns [] os = Ok m /\ visit m (length l) (begin_ m) = Ok (Some l) /\
  ascending l /\ forall k v, In (k, v) l <-> at_ m k = Ok v.
Proof.
  intros F (base & SP). destruct (history veq veq_ok hi overflow os F) as (m & E & G & _ & B & _). exists m, (expand m). split; auto. pose proof G as (S & W & A).
  assert (R : forall k w, holds m k w -> base <= k <= base + hi).
  { intros k w H. destruct (B _ _ H) as (p & n & L & P & N). apply latest_origin in P as (a & b & v & I & Lp). apply latest_origin in N as (a' & b' & v' & I' & Ln).
    specialize (SP _ _ _ I ltac:(lia)) as SP1. specialize (SP _ _ _ I' ltac:(lia)) as SP2. lia. }
  split.
  - apply (visit_suffix m G) with (m1 := []); [|reflexivity]. intros r l v I. specialize (W _ _ _ I). pose proof (R r v ltac:(exists r, l; split; auto; lia)). pose proof (R l v ltac:(exists r, l; split; auto; lia)). lia.
  - split; [now apply expand_asc|]. intros k v. rewrite expand_in by (intros r l w I; specialize (W _ _ _ I); lia).
    destruct (at_ok veq veq_ok hi m k G) as [(w & H & Q & _)|(H & Q & _)]; rewrite Q; split; intros X.
    + f_equal. eapply holds_fun; eauto.
    + now injection X as <-.
    + now apply H in X.
    + discriminate.
Qed.
(** Without gaps that are filled, these are the assigned keys with the values of their last
    assignments. *)
Theorem interval_iteration_latest_partial os : fits hi os -> spans os -> no_gaps os -> exists m l, assigns [] os = Ok m /\ visit m (length l) (begin_ m) = Ok (Some l) /\
  ascending l /\ forall k v, In (k, v) l <-> latest os k = Some v.
Proof.
  intros F SP NG. destruct (interval_iteration_partial os F SP) as (m & l & E & Vl & A & H). exists m, l. split; auto. split; auto. split; auto. intros k v. rewrite H.
  destruct (interval_function_partial veq veq_ok hi overflow os F NG) as (m' & E' & H'). assert (m' = m) as -> by congruence. specialize (H' k).
  destruct (latest os k) as [w|]; destruct H' as [-> _]; split; congruence.
Qed.
End Iter.
Print Assumptions interval_iteration_partial.
Print Assumptions interval_iteration_latest_partial.

(** ** Violations *)
(** A map of int with an interval that is longer than the largest int, [-2, INT_MAX - 1]: the first
    step of a loop overflows. *)
Theorem interval_iteration_refuted : exists os m v, fits (2 ^ 31 - 1) os /\ no_gaps os /\ assigns Z.eqb (2 ^ 31 - 1) UB [] os = Ok m /\ at_ m (-2) = Ok v /\
  deref m (begin_ m) = Ok (-2, v) /\ move_next (2 ^ 31 - 1) UB m (begin_ m) = UB.
Proof.
  exists [(-2, 2 ^ 31 - 2, 7)], [(2 ^ 31 - 2, (-2, 7))], 7. split; [|split].
  - intros pre a b v post Q. destruct pre as [|? [|? pre]]; cbn in Q; injection Q as; subst; try discriminate; lia.
  - intros pre a b v post Q AB. destruct pre as [|? [|? pre]]; cbn in Q; injection Q as; subst; try discriminate. cbn. split; discriminate.
  - repeat split; vm_compute; reflexivity.
Qed.
(** The iterators have the bidirectional tag and the map has rbegin, but no element can be read
    from the end. *)
Theorem interval_reverse_refuted : exists os m, os <> [] /\ fits 100 os /\ assigns Z.eqb 100 UB [] os = Ok m /\ at_ m 2 = Ok 7 /\ reverse_deref m end_ <> Ok (2, 7).
Proof.
  exists [(1, 2, 7)], [(2, (1, 7))]. split; [discriminate|]. split; [|repeat split; try reflexivity; discriminate].
  intros pre a b v post Q. destruct pre as [|? [|? pre]]; cbn in Q; injection Q as; subst; try discriminate; lia.
Qed.
(** ** A concrete case: the one of the test, and one where an interval was split *)
Example interval_iteration_demo : exists m, assigns Z.eqb 100 UB [] [(1, 3, 1); (5, 6, 2)] = Ok m /\
  visit 100 UB m 5 (begin_ m) = Ok (Some [(1, 1); (2, 1); (3, 1); (5, 2); (6, 2)]).
Proof. eexists. split; vm_compute; reflexivity. Qed.
Example interval_iteration_split : exists m, assigns Z.eqb 100 UB [] [(1, 5, 1); (2, 3, 2)] = Ok m /\
  visit 100 UB m 5 (begin_ m) = Ok (Some [(1, 1); (2, 2); (3, 2); (4, 1); (5, 1)]).
Proof. eexists. split; vm_compute; reflexivity. Qed.
