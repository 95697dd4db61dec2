(** Serialization: properties C31-C34. *)
From Coq Require Import ZifyBool ZifyNat.
From Verif Require Import Common Int2ArrayModel Int2ArrayProps CodecModel CodecSpec CodecProofs CodecLocal.
From Verif Require AStoreModel AStoreSpec AStoreProps.
Local Open Scope Z_scope.
Local Notation get_int := (CodecModel.get_int get_raw). Local Notation get_size := (CodecModel.get_size get_raw). Local Notation get_bits := (CodecModel.get_bits get_raw).
Local Notation reader := (CodecModel.reader bytes). Local Notation get_elems := (CodecModel.get_elems get_raw).

Lemma sids_true t : sids (fun _ => True) t.
Proof.
  induction t using ty_ind'; cbn [sids]; auto.
  - induction H; cbn; auto.
  - induction H; cbn; auto.
  - split; [exact I|]. induction H; cbn; auto.
Qed.

(** Equality of values *)
Fixpoint val_eqb (a b : val) {struct a} : bool :=
  let fix list_eqb l m := match l, m with [], [] => true | x :: l, y :: m => val_eqb x y && list_eqb l m | _, _ => false end in
  match a, b with
  | VInt x, VInt y => x =? y
  | VBool x, VBool y => Bool.eqb x y
  | VStr l, VStr m => if list_eq_dec Z.eq_dec l m then true else false
  | VNone, VNone => true
  | VSome x, VSome y => val_eqb x y
  | VList l, VList m | VTup l, VTup m => list_eqb l m
  | VPair x y, VPair x' y' => val_eqb x x' && val_eqb y y'
  | VVar i x, VVar j y => Nat.eqb i j && val_eqb x y
  | _, _ => false
  end.
Fixpoint val_size (v : val) : nat :=
  match v with
  | VSome v | VVar _ v => S (val_size v)
  | VPair x y => S (val_size x + val_size y)
  | VList l | VTup l => S (fold_right (fun v n => val_size v + n)%nat O l)
  | _ => O
  end.
Lemma val_eqb_eq a b : val_eqb a b = true <-> a = b.
Proof.
  remember (val_size a) as n eqn:En. assert (Hn : (val_size a <= n)%nat) by lia. clear En. revert a b Hn. induction n as [n IH] using (well_founded_induction lt_wf). intros a b Hn.
  set (list_eqb := fix list_eqb (l m : list val) := match l, m with [], [] => true | x :: l, y :: m => val_eqb x y && list_eqb l m | _, _ => false end).
  assert (HL : forall l m, (fold_right (fun v n => val_size v + n)%nat O l < n)%nat -> list_eqb l m = true <-> l = m).
  { induction l as [|x l IHl]; intros [|y m] L; cbn [list_eqb fold_right] in *; try (split; congruence).
    rewrite andb_true_iff, (IH (val_size x)) by lia. rewrite IHl by lia. split; [intros [-> ->]; auto|intros H; injection H; auto]. }
  destruct a, b; try (cbn; split; discriminate); cbn [val_size] in Hn; cbn [val_eqb].
  - rewrite Z.eqb_eq. split; congruence.
  - rewrite Bool.eqb_true_iff. split; congruence.
  - destruct (list_eq_dec _ _ _); split; congruence.
  - split; auto.
  - rewrite (IH (val_size a)) by lia. split; congruence.
  - fold list_eqb. rewrite HL by lia. split; congruence.
  - rewrite andb_true_iff, (IH (val_size a1)) by lia. rewrite (IH (val_size a2)) by lia. split; [intros [-> ->]; auto|intros H; injection H; auto].
  - rewrite andb_true_iff, Nat.eqb_eq, (IH (val_size a)) by lia. split; [intros [-> ->]; auto|intros H; injection H; auto].
  - fold list_eqb. rewrite HL by lia. split; congruence.
Qed.

Section Props.
Context (E : env).

(** C31: whatever follows, the written bytes are read back as the value, and only they
    are consumed; into a default-constructed object or any other with empty optionals and
    containers. *)
Theorem codec_round_trip t v old bs rest : wf_ty E t -> has_ty E t v -> fresh t old -> pwrite E t v = Ok bs -> pread E t old (bs ++ rest) = Ok (v, rest).
Proof. intros Hw HT HF W. apply (read_write E (fun _ => []) plain_struct (fun _ => True)); auto. apply sids_true. Qed.
Corollary codec_round_trip_default t v bs rest : wf_ty E t -> has_ty E t v -> pwrite E t v = Ok bs -> pread E t (default E t) (bs ++ rest) = Ok (v, rest).
Proof. intros Hw HT W. apply codec_round_trip; auto. now apply fresh_default. Qed.
(** Every value can be written, and gives bytes. *)
Theorem codec_write_total t v : has_ty E t v -> exists bs, pwrite E t v = Ok bs /\ Forall is_byte bs.
Proof. intros HT. apply write_total; auto. Qed.
(** Different values have different bytes, and neither sequence begins the other. *)
Theorem codec_prefix_free t v1 v2 b1 b2 x : wf_ty E t -> has_ty E t v1 -> has_ty E t v2 -> pwrite E t v1 = Ok b1 -> pwrite E t v2 = Ok b2 -> b2 = b1 ++ x -> v1 = v2 /\ x = [].
Proof.
  intros Hw H1 H2 W1 W2 ->. pose proof (codec_round_trip_default t v1 b1 x Hw H1 W1) as R1. pose proof (codec_round_trip_default t v2 _ [] Hw H2 W2) as R2.
  rewrite app_nil_r in R2. rewrite R1 in R2. injection R2 as -> ->. auto.
Qed.

(** C32 *)
Lemma pread_local t old : local (pread E t old).
Proof. apply read_local. intros sid rds olds H. now apply local_each. Qed.
Theorem codec_truncated t v old a b : wf_ty E t -> has_ty E t v -> fresh t old -> pwrite E t v = Ok (a ++ b) -> b <> [] -> pread E t old a = Throw EndOfFile.
Proof.
  intros Hw HT HF W N. apply (local_prefix _ v a b); auto; [apply pread_local|]. rewrite <- (app_nil_r (a ++ b)). now apply codec_round_trip.
Qed.
(** The bytes after those that were read have no influence. *)
Theorem codec_local t old s v s1 : pread E t old s = Ok (v, s1) -> exists c, s = c ++ s1 /\ forall x, pread E t old (c ++ x) = Ok (v, x).
Proof. intros R. pose proof (pread_local t old s) as L. rewrite R in L. exact L. Qed.

(** ** C33: reading into an object that holds data *)
Lemma replaced_fresh t : replaced t -> forall v, has_ty E t v -> fresh t v.
Proof.
  induction t using ty_ind'; cbn [replaced fresh]; auto; try contradiction; intros R v HT; destruct v; cbn [has_ty] in HT; try contradiction; cbn [as_list].
  - destruct HT as [L HT]. split; [auto|]. eapply Forall_impl; [|eauto]. auto.
  - destruct HT as [HT _]. eapply Forall_impl; [|eauto]. auto.
  - revert l HT. induction H as [|t ts Ht Hts IH]; intros [|v l] HT; cbn in *; try contradiction; auto. destruct HT, R. auto.
  - revert l HT. induction H as [|t ts Ht Hts IH]; intros [|v l] HT; cbn in *; try contradiction; auto. destruct HT, R. auto.
Qed.
Lemma each_nth_fresh (ts : list ty) : forall o1 o2 s, Forall (fun t => forall a b s, fresh t a -> fresh t b -> pread E t a s = pread E t b s) ts ->
  each (map fresh ts) o1 -> each (map fresh ts) o2 -> get_each (map (pread E) ts) o1 s = get_each (map (pread E) ts) o2 s.
Proof.
  induction ts as [|t ts IH]; intros [|a o1] [|b o2] s H F1 F2; cbn [map each] in *; try contradiction; [reflexivity|].
  inversion H; subst. destruct F1, F2. cbn [get_each hd tl]. rewrite (H2 a b s) by auto. destruct (pread E t b s) as [[v s1]| |]; cbn [rbind]; auto.
  now rewrite (IH o1 o2 s1).
Qed.
Lemma elems_fresh t : (forall a b s, fresh t a -> fresh t b -> pread E t a s = pread E t b s) -> forall o1 o2 s, Forall (fresh t) o1 -> Forall (fresh t) o2 -> length o1 = length o2 ->
  get_elems t (pread E t) o1 s = get_elems t (pread E t) o2 s.
Proof.
  intros H o1 o2 s F1 F2 L. destruct (match t with TBool => true | _ => false end) eqn:B.
  - destruct t; try discriminate. cbn [CodecModel.get_elems]. now rewrite L.
  - rewrite !get_elems_eq by (intros ->; discriminate). revert o2 s F2 L. induction F1 as [|a o1 Fa F1 IH]; intros [|b o2] s F2 L; try discriminate; [reflexivity|].
    inversion F2; subst. cbn [get_list]. rewrite (H a b s) by auto. destruct (pread E t b s) as [[v s1]| |]; cbn [rbind]; auto. now rewrite (IH o2 s1) by auto.
Qed.
Lemma fresh_indep t : wf_ty E t -> replaced t -> forall o1 o2 s, fresh t o1 -> fresh t o2 -> pread E t o1 s = pread E t o2 s.
Proof.
  induction t using ty_ind'; cbn [replaced wf_ty fresh]; try contradiction; intros Hw R o1 o2 s F1 F2; try reflexivity; unfold pread; cbn [CodecModel.read].
  - destruct F1 as [L1 F1], F2 as [L2 F2]. fold (pread E t). erewrite elems_fresh; eauto. congruence.
  - destruct (get_size s) as [[n r]| |]; cbn [rbind]; auto. destruct (negb _); auto. fold (pread E t).
    destruct (resize_fresh E t (Z.to_nat n) (as_list o1) Hw F1). destruct (resize_fresh E t (Z.to_nat n) (as_list o2) Hw F2). erewrite elems_fresh; eauto. congruence.
  - change (map (CodecModel.read E get_raw plain_struct) ts) with (map (pread E) ts). erewrite each_nth_fresh; eauto.
    apply Forall_forall. intros t Ht a b s0 Fa Fb. apply (proj1 (Forall_forall _ _) H); auto; eapply in_all; eauto.
  - destruct Hw as [Hw _]. unfold plain_struct. rewrite (map_snd (wf_ty E)) in Hw. rewrite (map_snd replaced) in R. rewrite (map_snd fresh) in F1, F2.
    change (fun f : fname * ty => CodecModel.read E get_raw (fun _ rds olds s => get_each rds olds s) (snd f)) with (fun f : fname * ty => pread E (snd f)).
    rewrite (map_snd (pread E)). erewrite each_nth_fresh; eauto.
    apply Forall_forall. intros t Ht a b s0 Fa Fb. pose proof Ht as Ht'. apply in_map_iff in Ht'. destruct Ht' as (f & <- & Hf).
    apply (proj1 (Forall_forall _ _) H f Hf); auto; eapply in_all; eauto.
Qed.
(** C33 for types without optionals, deques, sets and maps, for all bytes, written or not. *)
Theorem codec_replaces_partial t old s : wf_ty E t -> replaced t -> has_ty E t old -> pread E t old s = pread E t (default E t) s.
Proof. intros Hw R HT. apply fresh_indep; auto; [now apply replaced_fresh|now apply fresh_default]. Qed.
(** C33 for the others: what is read is added to what is there. *)
Theorem codec_optional_keeps_refuted t old bs rest : pwrite E (TOpt t) VNone = Ok bs -> pread E (TOpt t) old (bs ++ rest) = Ok (old, rest).
Proof. intros W. injection W as <-. reflexivity. Qed.
Lemma add_all_rt (P : val -> Prop) (w : writer) (r : bytes -> res (val * bytes)) add : (forall v bs rest, P v -> w v = Ok bs -> r (bs ++ rest) = Ok (v, rest)) ->
  forall l acc bs rest, Forall P l -> put_list w l = Ok bs -> get_add r add (length l) acc (bs ++ rest) = Ok (fold_left add l acc, rest).
Proof.
  intros H. induction l as [|v l IH]; intros acc bs rest HP W; cbn [put_list get_add length fold_left] in *.
  - apply ok_inj in W; subst bs. reflexivity.
  - inversion HP; subst. destruct (w v) as [a| |] eqn:Ea; cbn [rbind] in W; try discriminate.
    destruct (put_list w l) as [b| |] eqn:Eb; cbn [rbind] in W; try discriminate. apply ok_inj in W; subst bs.
    rewrite <- app_assoc. erewrite H by eauto. cbn [rbind]. apply IH; auto.
Qed.
Lemma set_insert_keeps lt key l x y : In y l -> In y (set_insert lt key l x).
Proof. induction l as [|z l IH]; cbn [set_insert]; [intros []|]. intros H. destruct (lt _ _); [now right|]. destruct (lt _ _); [|auto]. destruct H; [now left|right; auto]. Qed.
Lemma fold_insert_keeps lt key l : forall acc y, In y acc -> In y (fold_left (set_insert lt key) l acc).
Proof. induction l as [|x l IH]; intros acc y H; [auto|]. cbn [fold_left]. now apply IH, set_insert_keeps. Qed.
Theorem codec_deque_appends_refuted t l old bs rest : wf_ty E t -> Forall (has_ty E t) l -> small (length l) -> pwrite E (TDeque None t) (VList l) = Ok bs ->
  pread E (TDeque None t) (VList old) (bs ++ rest) = Ok (VList (old ++ l), rest).
Proof.
  intros Hw HT Hn W. unfold pwrite in W. cbn [write] in W. destruct (put_list _ l) as [b| |] eqn:Eb; cbn [rbind] in W; try discriminate. apply ok_inj in W; subst bs.
  unfold pread. cbn [read]. rewrite <- app_assoc, get_put_size by auto. cbn [rbind as_list]. rewrite Nat2Z.id.
  assert (HR : forall v bs rest, has_ty E t v -> pwrite E t v = Ok bs -> pread E t (default E t) (bs ++ rest) = Ok (v, rest)) by (intros; now apply codec_round_trip_default).
  rewrite (add_all_rt _ _ _ _ HR l old b rest HT Eb). cbn [rbind]. do 3 f_equal. clear. revert old. induction l as [|x l IH]; intros old; cbn [fold_left]; [now rewrite app_nil_r|].
  rewrite IH. cbn [deque_push]. now rewrite <- app_assoc.
Qed.
Theorem codec_set_merges_refuted c t l old bs rest : wf_ty E t -> Forall (has_ty E t) l -> small (length l) -> pwrite E (TSet c t) (VList l) = Ok bs ->
  exists r, pread E (TSet c t) (VList old) (bs ++ rest) = Ok (VList r, rest) /\ (forall x, In x old -> In x r).
Proof.
  intros Hw HT Hn W. unfold pwrite in W. cbn [write] in W. destruct (put_list _ l) as [b| |] eqn:Eb; cbn [rbind] in W; try discriminate. apply ok_inj in W; subst bs.
  unfold pread. cbn [read]. rewrite <- app_assoc, get_put_size by auto. cbn [rbind as_list]. rewrite Nat2Z.id.
  assert (HR : forall v bs rest, has_ty E t v -> pwrite E t v = Ok bs -> pread E t (default E t) (bs ++ rest) = Ok (v, rest)) by (intros; now apply codec_round_trip_default).
  rewrite (add_all_rt _ _ _ _ HR l old b rest HT Eb). eexists. split; [reflexivity|]. apply fold_insert_keeps.
Qed.

(** ** C34: arbitrary bytes *)
(** What is accepted is a value of the type: integers and enums are in range, sets and
    maps are sorted without duplicates, rings do not exceed their capacity, and so on. *)
Theorem codec_any_bytes t s v s1 : (forall c, strict (cmp E c)) -> wf_ty E t -> pread E t (default E t) s = Ok (v, s1) -> has_ty E t v.
Proof. intros Hc Hw R. eapply read_valid; eauto. now apply fresh_default. Qed.

Lemma bind_no_ub {A B} (x : res A) (f : A -> res B) : x <> UB -> (forall a, f a <> UB) -> rbind x f <> UB.
Proof. destruct x; cbn; auto; discriminate. Qed.
Ltac noub := apply bind_no_ub; [|intros [? ?]].
Lemma raw_no_ub n s : get_raw n s <> UB.
Proof. unfold get_raw. destruct (_ <? _)%nat; discriminate. Qed.
Lemma int_no_ub sg w s : get_int sg w s <> UB.
Proof. unfold CodecModel.get_int. noub; [apply raw_no_ub|discriminate]. Qed.
Lemma bits_no_ub f : forall n s, get_bits f n s <> UB.
Proof. induction f as [|f IH]; intros [|n] s; try discriminate. cbn [CodecModel.get_bits]. noub; [apply int_no_ub|]. noub; [apply IH|discriminate]. Qed.
Lemma list_no_ub (r : reader) : (forall o s, r o s <> UB) -> forall olds s, get_list r olds s <> UB.
Proof. intros H. induction olds as [|o olds IH]; intros s; [discriminate|]. cbn [get_list]. noub; [apply H|]. noub; [apply IH|discriminate]. Qed.
Lemma add_no_ub (r : bytes -> res (val * bytes)) add : (forall s, r s <> UB) -> forall n acc s, get_add r add n acc s <> UB.
Proof. intros H. induction n as [|n IH]; intros acc s; [discriminate|]. cbn [get_add]. noub; [apply H|apply IH]. Qed.
Lemma each_no_ub rds : Forall (fun r : reader => forall o s, r o s <> UB) rds -> forall olds s, get_each rds olds s <> UB.
Proof. induction 1 as [|r rds Hr Hrds IH]; intros olds s; [discriminate|]. cbn [get_each]. noub; [apply Hr|]. noub; [apply IH|discriminate]. Qed.
Lemma read_no_ub (rs : nat -> list reader -> list val -> bytes -> res (list val * bytes)) :
  (forall sid rds, Forall (fun r : reader => forall o s, r o s <> UB) rds -> forall olds s, rs sid rds olds s <> UB) ->
  forall t, no_variant t -> forall old s, CodecModel.read E get_raw rs t old s <> UB.
Proof.
  intros HR t. induction t using ty_ind'; cbn [no_variant]; intros NV old s; cbn [CodecModel.read]; try contradiction.
  - noub; [apply int_no_ub|discriminate].
  - noub; [apply int_no_ub|discriminate].
  - noub; [apply int_no_ub|destruct (bad_enum _ _); discriminate].
  - noub; [apply int_no_ub|]. destruct (over_limit _ _); [discriminate|]. destruct (negb _); [discriminate|]. noub; [|discriminate].
    apply list_no_ub. intros _ s0. noub; [apply int_no_ub|discriminate].
  - noub; [apply int_no_ub|discriminate].
  - noub; [apply int_no_ub|]. destruct (_ =? 0); [discriminate|]. noub; [auto|discriminate].
  - noub; [|discriminate]. destruct t; cbn [CodecModel.get_elems]; try (apply list_no_ub; auto). noub; [apply bits_no_ub|discriminate].
  - noub; [apply int_no_ub|]. destruct (negb _); [discriminate|]. noub; [|discriminate]. destruct t; cbn [CodecModel.get_elems]; try (apply list_no_ub; auto). noub; [apply bits_no_ub|discriminate].
  - noub; [apply int_no_ub|]. noub; [|discriminate]. apply add_no_ub. auto.
  - noub; [apply int_no_ub|]. noub; [|discriminate]. apply add_no_ub. auto.
  - destruct NV. noub; [apply int_no_ub|]. noub; [|discriminate]. apply add_no_ub. intros s0. noub; [auto|]. noub; [auto|discriminate].
  - noub; [|discriminate]. apply each_no_ub. apply Forall_forall. intros r Hr o s0. apply in_map_iff in Hr. destruct Hr as (t & <- & Ht).
    apply (proj1 (Forall_forall _ _) H); auto. eapply in_all; eauto.
  - noub; [|discriminate]. apply HR. apply Forall_forall. intros r Hr o s0. apply in_map_iff in Hr. destruct Hr as (f & <- & Hf).
    apply (proj1 (Forall_forall _ _) H f Hf). rewrite map_snd in NV. eapply in_all; eauto. now apply in_map.
Qed.
Theorem codec_no_ub_partial t : no_variant t -> forall old s, pread E t old s <> UB.
Proof. apply read_no_ub. intros sid rds. apply each_no_ub. Qed.
(** The index of a variant is only asserted. *)
Theorem codec_variant_refuted ts n old s : (length ts <= n)%nat -> small n -> pread E (TVar ts) old (put_size n ++ s) = UB.
Proof. intros L Hn. unfold pread. cbn [read]. rewrite get_put_size by auto. cbn [rbind]. now replace (Z.of_nat (length ts) <=? Z.of_nat n) with true by lia. Qed.

(** ** The atomic storage of a serializable value (PlainSerializable.h:19-40 with atomic = true) *)
Section Storage.
Context (t : ty) (Hw : wf_ty E t) (v0 : val) (Hv0 : has_ty E t v0) (Hne : pwrite E t v0 <> Ok []).
Definition senc (v : val) : bytes := match pwrite E t v with Ok b => b | _ => [] end.
Definition srd (c : bytes) : res (val * nat) := let* (v, r) := pread E t (default E t) c in Ok (v, (length c - length r)%nat).
(** Whatever the type, a file that a dying process left behind is refused unless it is complete. *)
Theorem codec_storage_format : AStoreSpec.format_ok senc srd (has_ty E t) (AStoreSpec.any_file srd (has_ty E t)) AStoreModel.process_torn.
Proof.
  assert (T : forall v a b, has_ty E t v -> pwrite E t v = Ok (a ++ b) -> b <> [] -> srd a = Throw EndOfFile).
  { intros v a b HT W N. pose proof (codec_round_trip_default t v _ [] Hw HT W) as R. rewrite app_nil_r in R.
    unfold srd. now rewrite (local_prefix _ v a b (pread_local t (default E t)) R N). }
  apply AStoreProps.process_crash_format.
  - intros v HT. unfold senc. destruct (codec_write_total t v HT) as (bs & W & _). rewrite W. pose proof (codec_round_trip_default t v bs [] Hw HT W) as R. rewrite app_nil_r in R.
    unfold AStoreSpec.accepts, srd. rewrite R. cbn [rbind length]. now rewrite Nat.sub_0_r.
  - destruct (codec_write_total t v0 Hv0) as (bs & W & _). left. exists EndOfFile. split; [|auto]. apply (T v0 [] bs); auto. intros ->. auto.
  - intros v k HT L. unfold senc in *. destruct (codec_write_total t v HT) as (bs & W & _). rewrite W in *. left. exists EndOfFile. split; [|auto].
    apply (T v _ (skipn k bs)); auto; [now rewrite firstn_skipn|]. intros N. apply (f_equal (@length _)) in N. rewrite skipn_length in N. cbn in N. lia.
Qed.
End Storage.
End Props.

(** Any history of saves, loads and process crashes shows one atomic value: C25 for the
    real format. *)
Theorem codec_storage_history E t v0 st o tr st' b' :
  wf_ty E t -> has_ty E t v0 -> pwrite E t v0 <> Ok [] -> let reads := AStoreSpec.any_file (srd E t) (has_ty E t) in
  AStoreSpec.stored reads st o -> AStoreSpec.exec (senc E t) (srd E t) (has_ty E t) AStoreModel.process_torn st true tr st' b' ->
  exists o' st'', AStoreSpec.allowed o tr o' /\ AStoreModel.load (senc E t) (srd E t) st' = Ok (o', st'') /\ AStoreSpec.stored reads st'' o'.
Proof. intros Hw Hv0 Hne. cbv zeta. apply AStoreProps.atomic_storage_history. eapply codec_storage_format; eauto. Qed.

(** ** Concrete cases *)
Definition int_lt (a b : val) : bool := match a, b with VInt x, VInt y => x <? y | _, _ => false end.
Definition demo_env : env := {| cmp := fun _ => int_lt; init := fun sid => match sid with O => [VInt 5; VNone] | _ => [VList [VInt 9]] end;
  alloc_ok := fun n => n <? 1000000; limit := Some 100 |}.
Definition i32 : ty := TInt true 4.
Definition demo_ty : ty :=
  TStruct 0 [([97], TMap 0 i32 (TVec TBool)); ([98], TOpt (TVar [TBool; TStr 2; TTuple [TDeque (Some 3%nat) (TInt false 1); TTime 1000; TArr 2 i32; TEnum false 1 (Some 3)]]))].
Definition demo_val : val :=
  VTup [VList [VPair (VInt (-2)) (VList (map VBool [true; false; true; true; false; false; false; false; true])); VPair (VInt 7) (VList [])];
        VSome (VVar 2 (VTup [VList [VInt 255; VInt 0]; VInt (-3); VList [VInt 1; VInt (-1)]; VInt 2]))].
Definition demo_env_ok : env := {| cmp := fun _ => int_lt; init := fun _ => [VList []; VNone]; alloc_ok := fun n => n <? 1000000; limit := Some 100 |}.
Example codec_demo_wf : wf_ty demo_env_ok demo_ty /\ has_ty demo_env_ok demo_ty demo_val.
Proof.
  split.
  - cbn. repeat split; lia.
  - cbn. unfold range, fits, small. cbn. repeat match goal with
    | |- _ /\ _ => split | |- True => exact I | |- Forall _ _ => constructor | |- forall y, _ -> _ => intros y Hy
    | H : _ \/ _ |- _ => destruct H | H : False |- _ => destruct H end; subst; try exact I; try reflexivity; try (cbn; lia).
Qed.
Example codec_demo : match pwrite demo_env_ok demo_ty demo_val with
  | Ok bs => length bs = 70%nat /\ pread demo_env_ok demo_ty (default demo_env_ok demo_ty) (bs ++ [1; 2; 3]) = Ok (demo_val, [1; 2; 3]) /\
             pread demo_env_ok demo_ty (default demo_env_ok demo_ty) (firstn 50 bs) = Throw EndOfFile
  | _ => False end.
Proof. vm_compute. auto. Qed.
(** C33: an optional that holds 5, into which an empty one is read; a set and a ring *)
Example codec_old_content_demo :
  pread demo_env (TOpt i32) (VSome (VInt 5)) [0] = Ok (VSome (VInt 5), []) /\
  (match pwrite demo_env (TSet 0 i32) (VList [VInt 1; VInt 3]) with Ok bs => pread demo_env (TSet 0 i32) (VList [VInt 2; VInt 3]) bs | _ => UB end) =
    Ok (VList [VInt 1; VInt 2; VInt 3], []) /\
  (match pwrite demo_env (TDeque (Some 2%nat) i32) (VList [VInt 1]) with Ok bs => pread demo_env (TDeque (Some 2%nat) i32) (VList [VInt 2; VInt 3]) bs | _ => UB end) =
    Ok (VList [VInt 3; VInt 1], []) /\
  (match pwrite demo_env (TVec i32) (VList [VInt 1]) with Ok bs => pread demo_env (TVec i32) (VList [VInt 2; VInt 3]) bs | _ => UB end) = Ok (VList [VInt 1], []).
Proof. vm_compute. auto. Qed.
(** C31 without [wf_ty]: a structure whose member has the initializer {9} is not read back
    if the member was written empty. *)
Theorem codec_initializer_refuted : exists v bs, pwrite demo_env (TStruct 1 [([97], TSet 0 i32)]) v = Ok bs /\
  has_ty demo_env (TStruct 1 [([97], TSet 0 i32)]) v /\
  pread demo_env (TStruct 1 [([97], TSet 0 i32)]) (default demo_env (TStruct 1 [([97], TSet 0 i32)])) bs = Ok (VTup [VList [VInt 9]], []) /\ v <> VTup [VList [VInt 9]].
Proof. exists (VTup [VList []]). eexists. split; [vm_compute; reflexivity|]. split; [cbn; unfold small; cbn; split; [split; [constructor|split; [lia|exact I]]|exact I]|]. split; [vm_compute; reflexivity|discriminate]. Qed.
(** C34: index 2 of a variant of two alternatives; a bad enum, a length beyond the limit and one
    that cannot be allocated are reported. *)
Example codec_malformed_demo :
  pread demo_env (TVar [i32; TBool]) VNone [2; 0; 0; 0; 0; 0; 0; 0; 1; 1; 1; 1] = UB /\
  pread demo_env (TEnum false 1 (Some 3)) VNone [3] = Throw IoError /\
  pread demo_env (TStr 1) VNone [200; 0; 0; 0; 0; 0; 0; 0] = Throw IoError /\
  pread demo_env (TVec i32) VNone [0; 0; 0; 0; 0; 0; 0; 1] = Throw LogicError /\
  pread demo_env (TSet 0 i32) (VList []) [2; 0; 0; 0; 0; 0; 0; 0; 7; 0; 0; 0; 7; 0; 0; 0] = Ok (VList [VInt 7], []).
Proof. vm_compute. auto 6. Qed.
