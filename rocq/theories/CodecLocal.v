(** Readers depend only on the bytes they consume; what they accept is a value of the type. *)
From Coq Require Import ZifyBool ZifyNat.
From Verif Require Import Common Int2ArrayModel Int2ArrayProps CodecModel CodecSpec CodecProofs.
Local Open Scope Z_scope.
Local Notation get_int := (CodecModel.get_int get_raw). Local Notation get_size := (CodecModel.get_size get_raw). Local Notation get_bits := (CodecModel.get_bits get_raw).
Local Notation reader := (CodecModel.reader bytes).

Definition local {A} (r : bytes -> res (A * bytes)) : Prop := forall s,
  match r s with
  | Ok (v, s1) => exists c, s = c ++ s1 /\ forall x, r (c ++ x) = Ok (v, x)
  | Throw EndOfFile => True
  | o => forall x, r (s ++ x) = o
  end.
Lemma local_ret {A} (a : A) : local (fun s => Ok (a, s)).
Proof. intros s. exists []. split; auto. Qed.
Lemma local_throw {A} e : local (fun _ : bytes => @Throw (A * bytes) e).
Proof. intros s. destruct e; auto. Qed.
Lemma local_ub {A} : local (fun _ : bytes => @UB (A * bytes)).
Proof. intros s. auto. Qed.
Lemma local_bind {A B} (r : bytes -> res (A * bytes)) (k : A -> bytes -> res (B * bytes)) :
  local r -> (forall a, local (k a)) -> local (fun s => let* (a, s1) := r s in k a s1).
Proof.
  intros Hr Hk s. pose proof (Hr s) as R. destruct (r s) as [[a s1]|e|] eqn:Er; cbn [rbind].
  - destruct R as (c & -> & R). pose proof (Hk a s1) as K. destruct (k a s1) as [[b s2]|e|] eqn:Ek.
    + destruct K as (d & -> & K). exists (c ++ d). split; [now rewrite app_assoc|]. intros x. rewrite <- app_assoc, R. cbn [rbind]. apply K.
    + destruct e; auto; intros x; rewrite <- app_assoc, R; cbn [rbind]; apply K.
    + intros x; rewrite <- app_assoc, R; cbn [rbind]; apply K.
  - destruct e; auto; intros x; rewrite R; reflexivity.
  - intros x; rewrite R; reflexivity.
Qed.
Lemma local_ext {A} (r r' : bytes -> res (A * bytes)) : (forall s, r s = r' s) -> local r -> local r'.
Proof.
  intros E H s. specialize (H s). rewrite E in H. destruct (r' s) as [[a s1]|e|].
  - destruct H as (c & Hc & H). exists c. split; auto. intros x. now rewrite <- E.
  - destruct e; auto; intros x; now rewrite <- E.
  - intros x; now rewrite <- E.
Qed.

Lemma local_raw n : local (get_raw n).
Proof.
  intros s. unfold get_raw at 1. destruct (Nat.ltb_spec (length s) n); [exact I|]. exists (firstn n s). split; [now rewrite firstn_skipn|].
  intros x. rewrite get_raw_app; [reflexivity|]. rewrite firstn_length. lia.
Qed.
Lemma local_int sg w : local (get_int sg w).
Proof. unfold CodecModel.get_int. apply (local_bind (get_raw w) (fun b r => Ok (from_array sg w (rev b), r))); [apply local_raw|intros; apply local_ret]. Qed.
Lemma local_bits f : forall n, local (get_bits f n).
Proof.
  induction f as [|f IH]; intros [|n]; try (apply local_ret).
  apply (local_bind (get_int false 1) (fun a s1 => let* (l, s2) := get_bits f (S n - 8) s1 in
    Ok (map (fun i => Z.testbit a (Z.of_nat i)) (seq 0 (Nat.min 8 (S n))) ++ l, s2))); [apply local_int|]. intros a.
  apply (local_bind (get_bits f (S n - 8)) (fun l s2 => Ok (map (fun i => Z.testbit a (Z.of_nat i)) (seq 0 (Nat.min 8 (S n))) ++ l, s2))); [apply IH|]. intros l. apply local_ret.
Qed.
Lemma local_list (r : reader) : (forall o, local (r o)) -> forall olds, local (get_list r olds).
Proof.
  intros H. induction olds as [|o olds IH]; [apply local_ret|].
  apply (local_bind (r o) (fun v s1 => let* (l, s2) := get_list r olds s1 in Ok (v :: l, s2))); [apply H|]. intros v.
  apply (local_bind (get_list r olds) (fun l s2 => Ok (v :: l, s2))); [apply IH|]. intros l. apply local_ret.
Qed.
Lemma local_add r add : local r -> forall n acc, local (get_add r add n acc).
Proof.
  intros H. induction n as [|n IH]; intros acc; [apply local_ret|].
  apply (local_bind r (fun v s1 => get_add r add n (add acc v) s1)); [apply H|]. intros v. apply IH.
Qed.
Lemma local_each rds : Forall (fun r : reader => forall o, local (r o)) rds -> forall olds, local (get_each rds olds).
Proof.
  induction 1 as [|r rds Hr Hrds IH]; intros olds; [apply local_ret|].
  apply (local_bind (r (hd VNone olds)) (fun v s1 => let* (l, s2) := get_each rds (tl olds) s1 in Ok (v :: l, s2))); [apply Hr|]. intros v.
  apply (local_bind (get_each rds (tl olds)) (fun l s2 => Ok (v :: l, s2))); [apply IH|]. intros l. apply local_ret.
Qed.

Section Local.
Context (E : env) (rs : nat -> list reader -> list val -> bytes -> res (list val * bytes)).
Context (HL : forall sid rds olds, Forall (fun r : reader => forall o, local (r o)) rds -> local (rs sid rds olds)).
Notation read := (read E get_raw rs). Notation get_elems := (get_elems get_raw).
Lemma local_elems t olds : (forall o, local (read t o)) -> local (get_elems t (read t) olds).
Proof.
  intros H. destruct (match t with TBool => true | _ => false end) eqn:B.
  - destruct t; try discriminate. cbn [CodecModel.get_elems]. apply (local_bind (get_bits (length olds) (length olds)) (fun l s1 => Ok (map VBool l, s1))); [apply local_bits|].
    intros l. apply local_ret.
  - eapply local_ext; [|apply (local_list (read t) H olds)]. intros s. symmetry. apply get_elems_eq. intros ->. discriminate.
Qed.
Lemma map_forall (f : ty -> reader) ts : Forall (fun t => forall o, local (f t o)) ts -> Forall (fun r : reader => forall o, local (r o)) (map f ts).
Proof. induction 1; cbn; auto. Qed.
Theorem read_local t : forall old, local (read t old).
Proof.
  induction t using ty_ind'; intros old.
  - apply (local_bind (get_int sg w) (fun z r => Ok (VInt z, r))); [apply local_int|intros; apply local_ret].
  - apply (local_bind (get_int false 1) (fun z r => Ok (VBool (negb (z =? 0)), r))); [apply local_int|intros; apply local_ret].
  - apply (local_bind (get_int sg w) (fun z r => if bad_enum c z then Throw IoError else Ok (VInt z, r))); [apply local_int|]. intros z.
    destruct (bad_enum c z); [apply local_throw|apply local_ret].
  - cbn [CodecModel.read]. apply (local_bind get_size (fun n r => if over_limit E (n * Z.of_nat w) then Throw IoError
    else if negb (alloc_ok E n) then Throw LogicError
    else let* (l, r1) := get_list (fun _ s => let* (z, r) := get_int false w s in Ok (VInt z, r)) (repeat VNone (Z.to_nat n)) r in
         Ok (VStr (map (fun v => match v with VInt z => z | _ => 0 end) l), r1))); [apply local_int|]. intros n.
    destruct (over_limit E _); [apply local_throw|]. destruct (negb _); [apply local_throw|].
    apply (local_bind (get_list (fun _ s => let* (z, r) := get_int false w s in Ok (VInt z, r)) (repeat VNone (Z.to_nat n)))
      (fun l r1 => Ok (VStr (map (fun v => match v with VInt z => z | _ => 0 end) l), r1))); [|intros; apply local_ret].
    apply local_list. intros _. apply (local_bind (get_int false w) (fun z r => Ok (VInt z, r))); [apply local_int|intros; apply local_ret].
  - apply (local_bind (get_int true 8) (fun z r => Ok (VInt (Z.quot z k), r))); [apply local_int|intros; apply local_ret].
  - cbn [CodecModel.read]. apply (local_bind (get_int false 1) (fun z r => if z =? 0 then Ok (old, r) else let* (v, r1) := read t (default E t) r in Ok (VSome v, r1))); [apply local_int|].
    intros z. destruct (z =? 0); [apply local_ret|]. apply (local_bind (read t (default E t)) (fun v r1 => Ok (VSome v, r1))); [apply IHt|intros; apply local_ret].
  - cbn [CodecModel.read]. apply (local_bind (get_elems t (read t) (as_list old)) (fun l r => Ok (VList l, r))); [now apply local_elems|intros; apply local_ret].
  - cbn [CodecModel.read]. apply (local_bind get_size (fun n r => if negb (alloc_ok E n) then Throw LogicError
    else let* (l, r1) := get_elems t (read t) (resize (Z.to_nat n) (default E t) (as_list old)) r in Ok (VList l, r1))); [apply local_int|]. intros n.
    destruct (negb _); [apply local_throw|]. apply (local_bind (get_elems t (read t) (resize (Z.to_nat n) (default E t) (as_list old))) (fun l r => Ok (VList l, r)));
      [now apply local_elems|intros; apply local_ret].
  - cbn [CodecModel.read]. apply (local_bind get_size (fun n r => let* (l, r1) := get_add (read t (default E t)) (deque_push c) (Z.to_nat n) (as_list old) r in Ok (VList l, r1)));
      [apply local_int|]. intros n.
    apply (local_bind (get_add (read t (default E t)) (deque_push c) (Z.to_nat n) (as_list old)) (fun l r1 => Ok (VList l, r1))); [now apply local_add|intros; apply local_ret].
  - cbn [CodecModel.read]. apply (local_bind get_size (fun n r => let* (l, r1) := get_add (read t (default E t)) (set_insert (cmp E c) (fun v => v)) (Z.to_nat n) (as_list old) r in Ok (VList l, r1)));
      [apply local_int|]. intros n.
    apply (local_bind (get_add (read t (default E t)) (set_insert (cmp E c) (fun v => v)) (Z.to_nat n) (as_list old)) (fun l r1 => Ok (VList l, r1))); [now apply local_add|intros; apply local_ret].
  - cbn [CodecModel.read].
    set (rp := fun s => let* (x, s1) := read t1 (default E t1) s in let* (y, s2) := read t2 (default E t2) s1 in Ok (VPair x y, s2)).
    apply (local_bind get_size (fun n r => let* (l, r1) := get_add rp (set_insert (cmp E c) pair_key) (Z.to_nat n) (as_list old) r in Ok (VList l, r1))); [apply local_int|]. intros n.
    apply (local_bind (get_add rp (set_insert (cmp E c) pair_key) (Z.to_nat n) (as_list old)) (fun l r1 => Ok (VList l, r1))); [|intros; apply local_ret].
    apply local_add. apply (local_bind (read t1 (default E t1)) (fun x s1 => let* (y, s2) := read t2 (default E t2) s1 in Ok (VPair x y, s2))); [apply IHt1|]. intros x.
    apply (local_bind (read t2 (default E t2)) (fun y s2 => Ok (VPair x y, s2))); [apply IHt2|intros; apply local_ret].
  - cbn [CodecModel.read]. apply (local_bind get_size (fun n r => if Z.of_nat (length ts) <=? n then UB
    else match nth_error (map (fun t => read t (default E t)) ts) (Z.to_nat n) with
         | Some rd => let* (v, r1) := rd r in Ok (VVar (Z.to_nat n) v, r1)
         | None => UB
         end)); [apply local_int|]. intros n. destruct (Z.of_nat (length ts) <=? n); [apply local_ub|].
    rewrite nth_error_map. destruct (nth_error ts (Z.to_nat n)) as [t|] eqn:Et; cbn [option_map]; [|apply local_ub].
    apply (local_bind (read t (default E t)) (fun v r1 => Ok (VVar (Z.to_nat n) v, r1))); [|intros; apply local_ret].
    apply nth_error_In in Et. now apply (proj1 (Forall_forall _ _) H).
  - cbn [CodecModel.read]. apply (local_bind (get_each (map read ts) (as_list old)) (fun l r => Ok (VTup l, r))); [|intros; apply local_ret].
    apply local_each, map_forall. exact H.
  - cbn [CodecModel.read]. apply (local_bind (rs sid (map (fun f => read (snd f)) fs) (as_list old)) (fun l r => Ok (VTup l, r))); [|intros; apply local_ret].
    apply HL. rewrite map_snd. apply map_forall, Forall_snd. exact H.
Qed.
End Local.

(** A proper prefix of an accepted sequence is not enough. *)
Lemma local_prefix {A} (r : bytes -> res (A * bytes)) v a b : local r -> r (a ++ b) = Ok (v, []) -> b <> [] -> r a = Throw EndOfFile.
Proof.
  intros H R N. specialize (H a). destruct (r a) as [[w s1]|e|] eqn:Ra.
  - destruct H as (c & -> & H). rewrite <- app_assoc, H in R. injection R as _ R. apply app_eq_nil in R. tauto.
  - destruct e; auto; rewrite H in R; discriminate.
  - rewrite H in R; discriminate.
Qed.

(** ** What is accepted is a value of the type *)
Lemma wrap_in_range sg w v : (0 < w)%nat -> range sg w (wrap sg w v).
Proof.
  intros Hw. unfold range, wrap. assert (E : 2 ^ (8 * Z.of_nat w) = 2 * 2 ^ (8 * Z.of_nat w - 1)).
  { rewrite <- Z.pow_succ_r by lia. f_equal. lia. }
  assert (P : 0 < 2 ^ (8 * Z.of_nat w - 1)) by (apply Z.pow_pos_nonneg; lia). destruct sg.
  - rewrite E at 1 2 3 4. rewrite (Z.mul_comm 2), Z.div_mul by lia. pose proof (Z.mod_pos_bound (v + 2 ^ (8 * Z.of_nat w - 1)) (2 ^ (8 * Z.of_nat w - 1) * 2)). lia.
  - apply Z.mod_pos_bound. lia.
Qed.
Lemma get_int_range sg w s z r : (0 < w)%nat -> get_int sg w s = Ok (z, r) -> range sg w z.
Proof.
  intros Hw. unfold CodecModel.get_int. destruct (get_raw w s) as [[b r']| |]; cbn [rbind]; try discriminate. intros H. injection H as <- _.
  rewrite from_array_wrap by auto. now apply wrap_in_range.
Qed.
Lemma get_size_range s n r : get_size s = Ok (n, r) -> 0 <= n < 2 ^ 64.
Proof. intros H. apply get_int_range in H; [|lia]. exact H. Qed.
Lemma get_list_valid (P F : val -> Prop) (r : reader) : (forall o s v s1, F o -> r o s = Ok (v, s1) -> P v) ->
  forall olds s l s1, Forall F olds -> get_list r olds s = Ok (l, s1) -> Forall P l /\ length l = length olds.
Proof.
  intros H. induction olds as [|o olds IH]; intros s l s1 HF G; cbn [get_list] in G.
  - injection G as <- _. auto.
  - inversion HF; subst. destruct (r o s) as [[v s2]| |] eqn:Ev; cbn [rbind] in G; try discriminate.
    destruct (get_list r olds s2) as [[l' s3]| |] eqn:El; cbn [rbind] in G; try discriminate. injection G as <- _.
    destruct (IH _ _ _ ltac:(auto) El). split; [constructor; eauto|cbn [length]; lia].
Qed.
Lemma get_add_valid (P : val -> Prop) (Q : nat -> list val -> Prop) (r : bytes -> res (val * bytes)) add : (forall s v s1, r s = Ok (v, s1) -> P v) ->
  (forall n acc v, P v -> Q n acc -> Q (S n) (add acc v)) ->
  forall n m acc s l s1, Q m acc -> get_add r add n acc s = Ok (l, s1) -> Q (m + n)%nat l.
Proof.
  intros H HA. induction n as [|n IH]; intros m acc s l s1 HQ G; cbn [get_add] in G.
  - injection G as <- _. now rewrite Nat.add_0_r.
  - destruct (r s) as [[v s2]| |] eqn:Ev; cbn [rbind] in G; try discriminate. replace (m + S n)%nat with (S m + n)%nat by lia. eapply IH; [|eauto]. eauto.
Qed.
Lemma get_bits_length f : forall n s l s1, (n <= f)%nat -> get_bits f n s = Ok (l, s1) -> length l = n.
Proof.
  induction f as [|f IH]; intros [|n] s l s1 L G; try lia; try (injection G as <- _; reflexivity).
  change (get_bits (S f) (S n) s) with (let* (a, s1) := get_int false 1 s in let* (l, s2) := get_bits f (S n - 8) s1 in
    Ok (map (fun i => Z.testbit a (Z.of_nat i)) (seq 0 (Nat.min 8 (S n))) ++ l, s2)) in G.
  destruct (get_int false 1 s) as [[a s2]| |]; cbn [rbind] in G; try discriminate.
  destruct (get_bits f (S n - 8) s2) as [[l' s3]| |] eqn:El; cbn [rbind] in G; try discriminate. apply IH in El; [|lia].
  apply ok_inj, (f_equal fst) in G. cbn [fst] in G. subst l. rewrite app_length, map_length, seq_length. lia.
Qed.

Definition strict (lt : val -> val -> bool) : Prop :=
  (forall a b, lt a b = true -> lt b a = false) /\ (forall a b c, lt a b = true -> lt b c = true -> lt a c = true).
Lemma set_insert_in lt key l x y : In y (set_insert lt key l x) -> y = x \/ In y l.
Proof.
  induction l as [|z l IH]; cbn [set_insert]; [cbn; intuition|]. destruct (lt (key x) (key z)); [cbn; intuition|]. destruct (lt (key z) (key x)); [|cbn; intuition].
  intros [<-|H]; [right; now left|]. destruct (IH H); [auto|right; now right].
Qed.
Lemma set_insert_ordered lt key l x : strict lt -> ordered lt key l -> ordered lt key (set_insert lt key l x).
Proof.
  intros [HA HT]. induction l as [|y l IH]; cbn [set_insert ordered]; [intros _; split; [cbn; tauto|exact I]|]. intros [O1 O2].
  destruct (lt (key x) (key y)) eqn:E1.
  - cbn [ordered]. split; [|auto]. intros z [<-|Hz]; [auto|]. assert (lt (key x) (key z) = true) by (eapply HT; [exact E1|]; now apply O1). auto.
  - destruct (lt (key y) (key x)) eqn:E2; [|cbn [ordered]; auto]. cbn [ordered]. split; [|auto]. intros z Hz. apply set_insert_in in Hz.
    destruct Hz as [->|Hz]; auto.
Qed.
Lemma set_insert_length lt key l x : (length (set_insert lt key l x) <= S (length l))%nat.
Proof. induction l as [|y l IH]; cbn [set_insert]; [cbn; lia|]. destruct (lt _ _); [cbn [length]; lia|]. destruct (lt _ _); cbn [length]; lia. Qed.

Section Valid.
Context (E : env) (Hcmp : forall c, strict (cmp E c)).
Notation read := (read E get_raw plain_struct). Notation get_elems := (get_elems get_raw).
Definition VAL (t : ty) : Prop := wf_ty E t -> forall old s v s1, fresh t old -> read t old s = Ok (v, s1) -> has_ty E t v.
Lemma get_elems_valid t olds s l s1 : VAL t -> wf_ty E t -> Forall (fresh t) olds -> get_elems t (read t) olds s = Ok (l, s1) ->
  Forall (has_ty E t) l /\ length l = length olds.
Proof.
  intros H Hw HF G. destruct (match t with TBool => true | _ => false end) eqn:B.
  - destruct t; try discriminate. cbn [CodecModel.get_elems] in G. destruct (get_bits _ _ s) as [[bl s2]| |] eqn:Eb; cbn [rbind] in G; try discriminate. injection G as <- _.
    apply get_bits_length in Eb; [|lia]. rewrite map_length. split; [|auto]. apply Forall_forall. intros x Hx. apply in_map_iff in Hx. destruct Hx as (b & <- & _). exact I.
  - rewrite get_elems_eq in G by (intros ->; discriminate). eapply get_list_valid; eauto.
Qed.
Lemma get_each_valid ts : Forall VAL ts -> all (map (wf_ty E) ts) -> forall olds s l s1, each (map fresh ts) olds ->
  get_each (map read ts) olds s = Ok (l, s1) -> each (map (has_ty E) ts) l.
Proof.
  induction 1 as [|t ts Ht Hts IH]; intros Hw [|o olds] s l s1 F G; cbn [map each get_each all fold_right hd tl] in *; try contradiction.
  - injection G as <- _. exact I.
  - destruct F, Hw. destruct (read t o s) as [[v s2]| |] eqn:Ev; cbn [rbind] in G; try discriminate.
    destruct (get_each (map read ts) olds s2) as [[l' s3]| |] eqn:El; cbn [rbind] in G; try discriminate. injection G as <- _. split; eauto.
Qed.
Theorem read_valid t : VAL t.
Proof.
  induction t using ty_ind'; unfold VAL; intros Hw old s v s1 F G; cbn [wf_ty] in Hw; cbn [fresh] in F; cbn [CodecModel.read] in G.
  - destruct (get_int sg w s) as [[z r]| |] eqn:Ez; cbn [rbind] in G; try discriminate. injection G as <- _. eapply get_int_range; eauto.
  - destruct (get_int false 1 s) as [[z r]| |] eqn:Ez; cbn [rbind] in G; try discriminate. injection G as <- _. exact I.
  - destruct (get_int sg w s) as [[z r]| |] eqn:Ez; cbn [rbind] in G; try discriminate. destruct (bad_enum c z) eqn:B; try discriminate. injection G as <- _.
    split; [eapply get_int_range; eauto|]. destruct c; [|exact I]. cbn in B. lia.
  - destruct (get_size s) as [[n r]| |] eqn:En; cbn [rbind] in G; try discriminate. destruct (over_limit E _) eqn:O; try discriminate.
    destruct (alloc_ok E n) eqn:A; cbn [negb] in G; try discriminate. apply get_size_range in En.
    destruct (get_list _ _ r) as [[l r1]| |] eqn:El; cbn [rbind] in G; try discriminate. injection G as <- _.
    apply (get_list_valid (fun v => match v with VInt z => range false w z | _ => False end) (fun _ => True)) in El.
    + destruct El as [V L]. rewrite repeat_length in L. cbn [has_ty]. rewrite map_length. replace (Z.of_nat (length l)) with n by lia. split; [|split].
      * apply Forall_forall. intros x Hx. apply in_map_iff in Hx. destruct Hx as (y & <- & Hy). eapply Forall_forall in V; [|eauto]. destruct y; tauto.
      * split; [unfold small; lia|]. replace (Z.of_nat (length l)) with n by lia. exact A.
      * unfold over_limit in O. destruct (limit E); [lia|exact I].
    + intros _ s0 v0 s2 _ G0. destruct (get_int false w s0) as [[z r0]| |] eqn:Ez; cbn [rbind] in G0; try discriminate. injection G0 as <- _. eapply get_int_range; eauto.
    + apply Forall_forall. auto.
  - destruct (get_int true 8 s) as [[z r]| |] eqn:Ez; cbn [rbind] in G; try discriminate. injection G as <- _. apply get_int_range in Ez; [|lia].
    unfold range in Ez. change (8 * Z.of_nat 8 - 1) with 63 in Ez. cbn [has_ty].
    destruct (Z.le_gt_cases 0 z); [pose proof (Z.mul_quot_le z k)|pose proof (Z.mul_quot_ge z k)]; lia.
  - destruct (get_int false 1 s) as [[z r]| |] eqn:Ez; cbn [rbind] in G; try discriminate. destruct (z =? 0).
    + injection G as <- _. subst. exact I.
    + destruct (read t (default E t) r) as [[w r1]| |] eqn:Er; cbn [rbind] in G; try discriminate. injection G as <- _. cbn [has_ty]. eapply IHt; eauto. now apply fresh_default.
  - destruct (get_elems t (read t) (as_list old) s) as [[l r]| |] eqn:El; cbn [rbind] in G; try discriminate. injection G as <- _. destruct F as [L F].
    eapply get_elems_valid in El; eauto. destruct El. cbn [has_ty]. split; [congruence|auto].
  - destruct (get_size s) as [[n r]| |] eqn:En; cbn [rbind] in G; try discriminate. destruct (alloc_ok E n) eqn:A; cbn [negb] in G; try discriminate. apply get_size_range in En.
    destruct (get_elems t (read t) _ r) as [[l r1]| |] eqn:El; cbn [rbind] in G; try discriminate. injection G as <- _.
    destruct (resize_fresh E t (Z.to_nat n) (as_list old) Hw F) as [F1 F2]. eapply get_elems_valid in El; eauto. destruct El as [V L]. cbn [has_ty]. split; [auto|].
    unfold fits, small. replace (Z.of_nat (length l)) with n by lia. split; [lia|auto].
  - destruct Hw as [Hw Hc]. destruct (get_size s) as [[n r]| |] eqn:En; cbn [rbind] in G; try discriminate. apply get_size_range in En. rewrite F in G.
    destruct (get_add _ _ _ _ r) as [[l r1]| |] eqn:El; cbn [rbind] in G; try discriminate. injection G as <- _.
    apply (get_add_valid (has_ty E t) (fun m l => Forall (has_ty E t) l /\ (length l <= m)%nat /\ match c with Some c => (length l <= c)%nat | None => True end)) with (m := O) in El.
    + cbn [has_ty]. destruct El as (V & L & C). unfold small. split; [auto|split; [lia|auto]].
    + intros s0 v0 s2 G0. eapply IHt; eauto. now apply fresh_default.
    + intros m acc v0 Hv (V & L & C). unfold deque_push. destruct c as [c|].
      * destruct (Nat.ltb_spec (length acc) c); rewrite app_length; cbn [length].
        -- split; [apply Forall_app; auto|lia].
        -- destruct acc as [|a acc]; cbn [tl length] in *; [lia|]. inversion V; subst. split; [apply Forall_app; auto|lia].
      * rewrite app_length. cbn [length]. split; [apply Forall_app; auto|]. split; [lia|exact I].
    + split; [constructor|split; [cbn; lia|destruct c; [cbn; lia|exact I]]].
  - destruct (get_size s) as [[n r]| |] eqn:En; cbn [rbind] in G; try discriminate. apply get_size_range in En. rewrite F in G.
    destruct (get_add _ _ _ _ r) as [[l r1]| |] eqn:El; cbn [rbind] in G; try discriminate. injection G as <- _.
    apply (get_add_valid (has_ty E t) (fun m l => Forall (has_ty E t) l /\ (length l <= m)%nat /\ ordered (cmp E c) (fun v => v) l)) with (m := O) in El.
    + cbn [has_ty]. destruct El as (V & L & C). unfold small. split; [auto|split; [lia|auto]].
    + intros s0 v0 s2 G0. eapply IHt; eauto. now apply fresh_default.
    + intros m acc v0 Hv (V & L & C). split; [|split].
      * apply Forall_forall. intros y Hy. apply set_insert_in in Hy. destruct Hy as [->|Hy]; [auto|]. now apply (proj1 (Forall_forall _ _) V).
      * pose proof (set_insert_length (cmp E c) (fun v => v) acc v0). lia.
      * now apply set_insert_ordered.
    + split; [constructor|split; [cbn; lia|exact I]].
  - destruct Hw as [Hw1 Hw2]. destruct (get_size s) as [[n r]| |] eqn:En; cbn [rbind] in G; try discriminate. apply get_size_range in En. rewrite F in G.
    destruct (get_add _ _ _ _ r) as [[l r1]| |] eqn:El; cbn [rbind] in G; try discriminate. injection G as <- _.
    set (P := fun p => match p with VPair x y => has_ty E t1 x /\ has_ty E t2 y | _ => False end).
    apply (get_add_valid P (fun m l => Forall P l /\ (length l <= m)%nat /\ ordered (cmp E c) pair_key l)) with (m := O) in El.
    + cbn [has_ty]. destruct El as (V & L & C). unfold small. split; [auto|split; [lia|auto]].
    + intros s0 v0 s2 G0. destruct (read t1 (default E t1) s0) as [[x r2]| |] eqn:E1; cbn [rbind] in G0; try discriminate.
      destruct (read t2 (default E t2) r2) as [[y r3]| |] eqn:E2; cbn [rbind] in G0; try discriminate. injection G0 as <- _. split; [eapply IHt1|eapply IHt2]; eauto; now apply fresh_default.
    + intros m acc v0 Hv (V & L & C). split; [|split].
      * apply Forall_forall. intros y Hy. apply set_insert_in in Hy. destruct Hy as [->|Hy]; [auto|]. now apply (proj1 (Forall_forall _ _) V).
      * pose proof (set_insert_length (cmp E c) pair_key acc v0). lia.
      * now apply set_insert_ordered.
    + split; [constructor|split; [cbn; lia|exact I]].
  - destruct Hw as [Hw Hn]. destruct (get_size s) as [[n r]| |] eqn:En; cbn [rbind] in G; try discriminate. destruct (Z.of_nat (length ts) <=? n) eqn:B; try discriminate.
    rewrite nth_error_map in G. destruct (nth_error ts (Z.to_nat n)) as [t|] eqn:Et; cbn [option_map] in G; try discriminate.
    destruct (read t (default E t) r) as [[w r1]| |] eqn:Er; cbn [rbind] in G; try discriminate. injection G as <- _. cbn [has_ty]. rewrite nth_error_map, Et. cbn [option_map].
    apply nth_error_In in Et. pose proof (in_all _ ts t Hw Et) as Hwt. eapply Forall_forall in H; [|eauto]. eapply H; eauto. now apply fresh_default.
  - destruct (get_each _ _ s) as [[l r]| |] eqn:El; cbn [rbind] in G; try discriminate. injection G as <- _. cbn [has_ty]. eapply get_each_valid; eauto.
  - destruct Hw as [Hw _]. unfold plain_struct in G at 1. destruct (get_each _ _ s) as [[l r]| |] eqn:El; cbn [rbind] in G; try discriminate. injection G as <- _. cbn [has_ty].
    rewrite (map_snd (wf_ty E)) in Hw. rewrite (map_snd fresh) in F. rewrite (map_snd read) in El. rewrite map_snd. eapply get_each_valid; eauto using Forall_snd.
Qed.
End Valid.

(** ** Values of the type can be written *)
Section Total.
Context (E : env) (pre : nat -> bytes) (Hpre : forall sid, Forall is_byte (pre sid)).
Notation write := (write E pre).
Definition TOT (t : ty) : Prop := forall v, has_ty E t v -> exists bs, write t v = Ok bs /\ Forall is_byte bs.
Lemma put_list_total (P : val -> Prop) (w : writer) : (forall v, P v -> exists bs, w v = Ok bs /\ Forall is_byte bs) ->
  forall l, Forall P l -> exists bs, put_list w l = Ok bs /\ Forall is_byte bs.
Proof.
  intros H. induction 1 as [|v l Hv Hl IH]; [exists []; auto|]. cbn [put_list]. destruct (H v Hv) as (a & -> & Ha). destruct IH as (b & -> & Hb). cbn [rbind].
  exists (a ++ b). split; [auto|]. apply Forall_app. auto.
Qed.
Lemma put_bits_bytes f : forall l, Forall is_byte (put_bits f l).
Proof.
  induction f as [|f IH]; intros [|b l]; try constructor; try apply IH. pose proof (pack_range (firstn 8 (b :: l))) as P. unfold is_byte. split; [apply P|].
  eapply Z.lt_le_trans; [apply P|]. change 256 with (2 ^ 8). apply Z.pow_le_mono_r; [lia|]. pose proof (firstn_le_length 8 (b :: l)). lia.
Qed.
Lemma put_elems_total t l : TOT t -> Forall (has_ty E t) l -> exists bs, put_elems t (write t) l = Ok bs /\ Forall is_byte bs.
Proof.
  intros H HT. destruct (match t with TBool => true | _ => false end) eqn:B.
  - destruct t; try discriminate. eexists. split; [reflexivity|]. apply put_bits_bytes.
  - rewrite put_elems_eq by (intros ->; discriminate). eapply put_list_total; eauto.
Qed.
Lemma put_each_total ts : Forall TOT ts -> forall l, each (map (has_ty E) ts) l -> exists bs, put_each (map write ts) l = Ok bs /\ Forall is_byte bs.
Proof.
  induction 1 as [|t ts Ht Hts IH]; intros [|v l] P; cbn [map each put_each all fold_right] in *; try contradiction; [exists []; auto|].
  destruct P. destruct (Ht v) as (a & -> & Ha); auto. destruct (IH l) as (b & -> & Hb); auto. cbn [rbind].
  exists (a ++ b). split; [auto|]. apply Forall_app. auto.
Qed.
Lemma sized_total (x : res bytes) n : (exists bs, x = Ok bs /\ Forall is_byte bs) -> exists bs, (let* b := x in Ok (put_size n ++ b)) = Ok bs /\ Forall is_byte bs.
Proof. intros (b & -> & Hb). cbn [rbind]. eexists. split; [reflexivity|]. apply Forall_app. split; [apply put_int_bytes|auto]. Qed.
Theorem write_total t : TOT t.
Proof.
  induction t using ty_ind'; unfold TOT; intros v HT; destruct v; cbn [has_ty] in HT; try contradiction; cbn [CodecModel.write].
  - eexists. split; [reflexivity|apply put_int_bytes].
  - eexists. split; [reflexivity|]. constructor; [|constructor]. unfold is_byte. destruct b; cbn; lia.
  - destruct HT as [R C]. replace (bad_enum c z) with false by (unfold bad_enum; destruct c; lia). eexists. split; [reflexivity|apply put_int_bytes].
  - destruct HT as (R & F & L). replace (over_limit E _) with false by (unfold over_limit; destruct (limit E); lia). eexists. split; [reflexivity|].
    apply Forall_app. split; [apply put_int_bytes|]. clear. induction l as [|z l IH]; cbn; [constructor|]. apply Forall_app. split; [apply put_int_bytes|auto].
  - replace ((- 2 ^ 63 <=? z * k) && (z * k <? 2 ^ 63)) with true by lia. eexists. split; [reflexivity|apply put_int_bytes].
  - eexists. split; [reflexivity|]. constructor; [|constructor]. unfold is_byte. lia.
  - destruct (IHt v HT) as (b & -> & Hb). eexists. split; [reflexivity|]. constructor; [unfold is_byte; lia|auto].
  - apply put_elems_total; tauto.
  - apply sized_total, put_elems_total; tauto.
  - apply sized_total. apply (put_list_total (has_ty E t)); tauto || (intros; apply IHt; tauto).
  - apply sized_total. apply (put_list_total (has_ty E t)); tauto || (intros; apply IHt; tauto).
  - apply sized_total. eapply put_list_total; [|apply HT]. intros p Hp. destruct p; try contradiction. destruct Hp as [H1 H2].
    destruct (IHt1 _ H1) as (a & -> & Ha). destruct (IHt2 _ H2) as (b & -> & Hb). cbn [rbind]. eexists. split; [reflexivity|]. apply Forall_app. auto.
  - rewrite nth_error_map in *. destruct (nth_error ts i) as [t|] eqn:Et; cbn [option_map] in *; [|contradiction].
    apply nth_error_In in Et. eapply Forall_forall in H; [|eauto]. apply sized_total. apply H; auto.
  - now apply put_each_total.
  - rewrite (map_snd (has_ty E)) in HT. rewrite (map_snd write). destruct (put_each_total (map snd fs) (Forall_snd _ _ H) l HT) as (b & -> & Hb). cbn [rbind].
    eexists. split; [reflexivity|]. apply Forall_app. auto.
Qed.
End Total.
