(** Proofs about the serialization functions. *)
From Coq Require Import ZifyBool ZifyNat.
From Verif Require Import Common Int2ArrayModel Int2ArrayProps CodecModel CodecSpec.
Local Open Scope Z_scope.
Local Notation get_int := (CodecModel.get_int get_raw). Local Notation get_size := (CodecModel.get_size get_raw). Local Notation get_bits := (CodecModel.get_bits get_raw).
Local Notation reader := (CodecModel.reader bytes).

Lemma ok_inj {A} (a b : A) : Ok a = Ok b -> a = b.
Proof. congruence. Qed.

(** ** Integers *)
Lemma put_int_length w z : length (put_int w z) = w.
Proof. unfold put_int. now rewrite rev_length, to_array_length. Qed.
Lemma put_int_bytes w z : Forall is_byte (put_int w z).
Proof. unfold put_int. apply Forall_rev, to_array_bytes. Qed.
Lemma get_raw_app n b r : length b = n -> get_raw n (b ++ r) = Ok (b, r).
Proof.
  intros L. unfold get_raw. replace (length (b ++ r) <? n)%nat with false by (rewrite app_length; lia).
  rewrite <- L, firstn_app, firstn_all, skipn_app, skipn_all, Nat.sub_diag. cbn [firstn skipn]. now rewrite app_nil_r.
Qed.
Lemma get_put_int sg w z r : (0 < w)%nat -> range sg w z -> get_int sg w (put_int w z ++ r) = Ok (z, r).
Proof.
  intros Hw R. unfold CodecModel.get_int. rewrite get_raw_app by apply put_int_length. cbn [rbind]. unfold put_int. rewrite rev_involutive.
  now rewrite int_array_round_trip.
Qed.
Lemma get_put_size n r : small n -> get_size (put_size n ++ r) = Ok (Z.of_nat n, r).
Proof. intros H. apply get_put_int; [lia|]. unfold range. change (8 * Z.of_nat 8) with 64. unfold small in H. lia. Qed.
Lemma get_byte b r : 0 <= b < 256 -> get_int false 1 (b :: r) = Ok (b, r).
Proof.
  intros H. unfold CodecModel.get_int. change (b :: r) with ([b] ++ r). rewrite get_raw_app by reflexivity. cbn [rbind rev app].
  f_equal. f_equal. unfold from_array, wrap. cbn [fold_left]. rewrite Z.shiftl_0_l. change (2 ^ (8 * Z.of_nat 1)) with 256. apply Z.mod_small. lia.
Qed.

(** ** Bits *)
Lemma pack_range l : 0 <= pack l < 2 ^ Z.of_nat (length l).
Proof.
  induction l as [|b l IH]; cbn [pack length]; [cbn; lia|]. replace (Z.of_nat (S (length l))) with (1 + Z.of_nat (length l)) by lia.
  rewrite Z.pow_add_r by lia. change (2 ^ 1) with 2. destruct b; cbn [Z.b2z]; lia.
Qed.
Lemma pack_bits l : map (fun i => Z.testbit (pack l) (Z.of_nat i)) (seq 0 (length l)) = l.
Proof.
  induction l as [|b l IH]; [reflexivity|]. cbn [pack length seq map]. f_equal.
  - change (Z.of_nat 0) with 0. rewrite Z.add_comm. now rewrite Z.testbit_0_r.
  - rewrite <- seq_shift, map_map. rewrite <- IH at 2. apply map_ext. intros i.
    replace (Z.of_nat (S i)) with (Z.succ (Z.of_nat i)) by lia. rewrite Z.add_comm, Z.testbit_succ_r by lia. reflexivity.
Qed.
Lemma get_put_bits f : forall l r, (length l <= f)%nat -> get_bits f (length l) (put_bits f l ++ r) = Ok (l, r).
Proof.
  induction f as [|f IH]; intros [|b l] r L; cbn [length] in L; try lia; try reflexivity.
  set (k := b :: l) in *.
  change (get_bits (S f) (length k) (put_bits (S f) k ++ r)) with
    (let* (a, s1) := get_int false 1 (pack (firstn 8 k) :: put_bits f (skipn 8 k) ++ r) in
     let* (l, s2) := get_bits f (length k - 8) s1 in
     Ok (map (fun i => Z.testbit a (Z.of_nat i)) (seq 0 (Nat.min 8 (length k))) ++ l, s2)).
  assert (L8 : length (firstn 8 k) = Nat.min 8 (length k)) by apply firstn_length.
  rewrite get_byte.
  2:{ pose proof (pack_range (firstn 8 k)) as P. split; [lia|]. eapply Z.lt_le_trans; [apply P|]. change 256 with (2 ^ 8). apply Z.pow_le_mono_r; lia. }
  cbn [rbind]. rewrite <- (skipn_length 8 k). rewrite IH by (rewrite skipn_length; subst k; cbn [length]; lia). cbn [rbind].
  rewrite <- L8, pack_bits, firstn_skipn. reflexivity.
Qed.

(** ** Loops *)
Lemma get_list_rt (P F : val -> Prop) (w : writer) (r : reader) :
  (forall v old bs rest, P v -> F old -> w v = Ok bs -> r old (bs ++ rest) = Ok (v, rest)) ->
  forall l olds bs rest, Forall P l -> Forall F olds -> length olds = length l -> put_list w l = Ok bs -> get_list r olds (bs ++ rest) = Ok (l, rest).
Proof.
  intros H l. induction l as [|v l IH]; intros [|o olds] bs rest HP HF L W; try discriminate; cbn [put_list get_list] in *.
  - apply ok_inj in W; subst bs. reflexivity.
  - inversion HP; inversion HF; subst. destruct (w v) as [a| |] eqn:Ea; cbn [rbind] in W; try discriminate.
    destruct (put_list w l) as [b| |] eqn:Eb; cbn [rbind] in W; try discriminate. apply ok_inj in W; subst bs.
    rewrite <- app_assoc. erewrite H by eauto. cbn [rbind]. erewrite IH by eauto. reflexivity.
Qed.
Lemma get_add_rt (P : val -> Prop) (w : writer) (r : bytes -> res (val * bytes)) add (Q : list val -> Prop) :
  (forall v bs rest, P v -> w v = Ok bs -> r (bs ++ rest) = Ok (v, rest)) ->
  (forall acc v l, Q (acc ++ v :: l) -> add acc v = acc ++ [v]) ->
  forall l acc bs rest, Forall P l -> Q (acc ++ l) -> put_list w l = Ok bs -> get_add r add (length l) acc (bs ++ rest) = Ok (acc ++ l, rest).
Proof.
  intros H HA l. induction l as [|v l IH]; intros acc bs rest HP HQ W; cbn [put_list get_add length] in *.
  - apply ok_inj in W; subst bs. now rewrite app_nil_r.
  - inversion HP; subst. destruct (w v) as [a| |] eqn:Ea; cbn [rbind] in W; try discriminate.
    destruct (put_list w l) as [b| |] eqn:Eb; cbn [rbind] in W; try discriminate. apply ok_inj in W; subst bs.
    rewrite <- app_assoc. erewrite H by eauto. cbn [rbind]. rewrite (HA acc v l HQ).
    rewrite (IH (acc ++ [v])); auto; [now rewrite <- app_assoc|now rewrite <- app_assoc].
Qed.
Lemma ordered_mid lt key acc x l : ordered lt key (acc ++ x :: l) -> forall y, In y acc -> lt (key y) (key x) = true /\ lt (key x) (key y) = false.
Proof.
  induction acc as [|a acc IH]; intros O y Hy; [destruct Hy|]. cbn in O. destruct O as [O1 O2]. destruct Hy as [<-|Hy]; [|now apply IH].
  apply O1, in_or_app. right. now left.
Qed.
Lemma set_insert_end lt key acc x : (forall y, In y acc -> lt (key y) (key x) = true /\ lt (key x) (key y) = false) -> set_insert lt key acc x = acc ++ [x].
Proof.
  induction acc as [|y acc IH]; intros H; [reflexivity|]. cbn [set_insert app]. destruct (H y (or_introl eq_refl)) as [H1 H2]. rewrite H2, H1.
  f_equal. apply IH. intros z Hz. apply H. now right.
Qed.

Section Proofs.
Context (E : env).
Notation write := (write E). Notation read := (read E get_raw). Notation get_elems := (get_elems get_raw).

(** ** The type of the result, without induction *)
Lemma each_length ps l : each ps l -> length l = length ps.
Proof. revert l. induction ps as [|p ps IH]; intros [|v l] H; cbn in *; try tauto. f_equal. now apply IH. Qed.
Lemma fresh_default t : wf_ty E t -> fresh t (default E t).
Proof.
  induction t using ty_ind'; cbn [fresh default wf_ty as_list]; auto.
  - intros W. rewrite repeat_length. split; [reflexivity|]. apply Forall_forall. intros x Hx. apply repeat_spec in Hx. subst. auto.
  - intros W. induction H as [|t ts Ht Hts IH]; cbn in *; [exact I|]. destruct W. split; auto.
  - tauto.
Qed.
Lemma resize_fresh t n l : wf_ty E t -> Forall (fresh t) l -> Forall (fresh t) (resize n (default E t) l) /\ length (resize n (default E t) l) = n.
Proof.
  intros W H. unfold resize. rewrite app_length, repeat_length, firstn_length. split; [|lia]. apply Forall_app. split.
  - apply Forall_forall. intros x Hx. eapply Forall_forall; [exact H|]. rewrite <- (firstn_skipn n l). apply in_or_app. now left.
  - apply Forall_forall. intros x Hx. apply repeat_spec in Hx. subst. now apply fresh_default.
Qed.
Lemma as_bool_list l : Forall (has_ty E TBool) l -> map VBool (map as_bool l) = l.
Proof. induction 1 as [|v l Hv Hl IH]; [reflexivity|]. cbn [map]. rewrite IH. destruct v; cbn in Hv; tauto. Qed.

(** ** Round trip, for every structure header *)
Section RoundTrip.
Context (pre : nat -> bytes) (rs : nat -> list reader -> list val -> bytes -> res (list val * bytes)) (good : nat -> Prop).
Context (HRS : forall sid rds olds b rest l, good sid -> length l = length rds ->
  get_each rds olds (b ++ rest) = Ok (l, rest) -> rs sid rds olds (pre sid ++ b ++ rest) = Ok (l, rest)).
Fixpoint sids (t : ty) : Prop :=
  match t with
  | TInt _ _ | TBool | TEnum _ _ _ | TStr _ | TTime _ => True
  | TOpt t | TArr _ t | TVec t | TDeque _ t | TSet _ t => sids t
  | TMap _ k t => sids k /\ sids t
  | TVar ts | TTuple ts => all (map sids ts)
  | TStruct sid fs => good sid /\ all (map (fun f => sids (snd f)) fs)
  end.
Definition RT (t : ty) : Prop := wf_ty E t -> sids t -> forall v old bs rest, has_ty E t v -> fresh t old -> write pre t v = Ok bs -> read rs t old (bs ++ rest) = Ok (v, rest).

Lemma put_elems_eq t w l : t <> TBool -> put_elems t w l = put_list w l.
Proof. destruct t; try reflexivity. congruence. Qed.
Lemma get_elems_eq t r olds s : t <> TBool -> get_elems t r olds s = get_list r olds s.
Proof. destruct t; try reflexivity. congruence. Qed.
Lemma get_elems_rt t l olds bs rest : RT t -> wf_ty E t -> sids t -> Forall (has_ty E t) l -> Forall (fresh t) olds -> length olds = length l ->
  put_elems t (write pre t) l = Ok bs -> get_elems t (read rs t) olds (bs ++ rest) = Ok (l, rest).
Proof.
  intros H Hw Hs HP HF L W. destruct (match t with TBool => true | _ => false end) eqn:B.
  - destruct t; try discriminate. cbn [put_elems] in W. apply ok_inj in W; subst bs. cbn [CodecModel.get_elems].
    rewrite L. rewrite <- (map_length as_bool l). rewrite get_put_bits by (rewrite !map_length; lia). cbn [rbind]. now rewrite as_bool_list.
  - assert (N : t <> TBool) by (intros ->; discriminate). rewrite put_elems_eq in W by auto. rewrite get_elems_eq by auto.
    eapply get_list_rt; eauto.
Qed.
Lemma get_each_rt ts : Forall RT ts -> all (map (wf_ty E) ts) -> all (map sids ts) -> forall l olds bs rest,
  each (map (has_ty E) ts) l -> each (map fresh ts) olds -> put_each (map (write pre) ts) l = Ok bs ->
  get_each (map (read rs) ts) olds (bs ++ rest) = Ok (l, rest).
Proof.
  induction 1 as [|t ts Ht Hts IH]; intros Hw Hs [|v l] [|o olds] bs rest P F W; cbn [map each put_each get_each all fold_right] in *; try contradiction.
  - apply ok_inj in W; subst bs. reflexivity.
  - destruct P, F, Hw, Hs. destruct (write pre t v) as [a| |] eqn:Ea; cbn [rbind] in W; try discriminate.
    destruct (put_each (map (write pre) ts) l) as [b| |] eqn:Eb; cbn [rbind] in W; try discriminate. apply ok_inj in W; subst bs.
    rewrite <- app_assoc. cbn [hd tl]. erewrite Ht by eauto. cbn [rbind]. erewrite IH by eauto. reflexivity.
Qed.
Lemma map_snd {A} (f : ty -> A) (fs : list (fname * ty)) : map (fun x => f (snd x)) fs = map f (map snd fs).
Proof. now rewrite map_map. Qed.
Lemma Forall_snd (P : ty -> Prop) (fs : list (fname * ty)) : Forall (fun f => P (snd f)) fs -> Forall P (map snd fs).
Proof. induction 1; cbn; auto. Qed.

Lemma get_chars_rt cw l rest : (0 < cw)%nat -> Forall (range false cw) l ->
  get_list (fun _ s => let* (z, r) := get_int false cw s in Ok (VInt z, r)) (repeat VNone (length l)) (concat (map (put_int cw) l) ++ rest) = Ok (map VInt l, rest).
Proof.
  intros Hw. induction 1 as [|z l Hz Hl IH]; [reflexivity|]. cbn [length repeat map concat get_list]. rewrite <- app_assoc.
  rewrite get_put_int by auto. cbn [rbind]. rewrite IH. reflexivity.
Qed.
Lemma unVInt l : map (fun v => match v with VInt z => z | _ => 0 end) (map VInt l) = l.
Proof. rewrite map_map. apply map_id. Qed.

Lemma in_all (P : ty -> Prop) ts t : all (map P ts) -> In t ts -> P t.
Proof. induction ts as [|x ts IH]; cbn; [tauto|]. intros [H1 H2] [->|H]; auto. Qed.

Theorem read_write t : RT t.
Proof.
  induction t using ty_ind'; unfold RT; intros Hwf Hs v old bs rest HT HF W; destruct v; cbn [has_ty] in HT; try tauto;
    cbn [wf_ty] in Hwf; cbn [sids] in Hs; cbn [CodecModel.write] in W; cbn [CodecModel.read].
  - (* int *) apply ok_inj in W; subst bs. now rewrite get_put_int.
  - (* bool *) apply ok_inj in W; subst bs. cbn [app]. rewrite get_byte by (destruct b; cbn; lia). cbn [rbind]. destruct b; reflexivity.
  - (* enum *) destruct HT as [R C]. destruct (bad_enum c z) eqn:B; [discriminate|]. apply ok_inj in W; subst bs. rewrite get_put_int by auto. cbn [rbind]. now rewrite B.
  - (* string *) destruct HT as (R & [F A] & _). destruct (over_limit E _) eqn:O; [discriminate|]. apply ok_inj in W; subst bs.  rewrite <- app_assoc, get_put_size by auto. cbn [rbind].
    rewrite O, A. cbn [negb]. rewrite Nat2Z.id, get_chars_rt by auto. cbn [rbind]. now rewrite unVInt.
  - (* time *) replace ((- 2 ^ 63 <=? z * k) && (z * k <? 2 ^ 63)) with true in W by lia. cbn [guard] in W. apply ok_inj in W; subst bs.
    rewrite get_put_int; [|lia|unfold range; change (8 * Z.of_nat 8 - 1) with 63; lia]. cbn [rbind]. now rewrite Z.quot_mul by lia.
  - (* none *) apply ok_inj in W; subst bs. cbn [app]. rewrite get_byte by lia. cbn [rbind]. cbn in HF. now subst.
  - (* some *) destruct (write pre t v) as [b| |] eqn:Eb; cbn [rbind] in W; try discriminate. apply ok_inj in W; subst bs. cbn [app]. rewrite get_byte by lia. cbn [rbind Z.eqb].
    rewrite (IHt Hwf Hs v (default E t) b rest HT (fresh_default t Hwf) Eb). reflexivity.
  - (* array *) cbn [fresh] in HF. destruct HF as [L F]. destruct HT as [L' HT]. erewrite get_elems_rt by (eauto; congruence). reflexivity.
  - (* vector *) destruct HT as [HT [Hn A]]. destruct (put_elems t (write pre t) l) as [b| |] eqn:Eb; cbn [rbind] in W; try discriminate. apply ok_inj in W; subst bs.
    rewrite <- app_assoc, get_put_size by auto. cbn [rbind]. rewrite A. cbn [negb]. rewrite Nat2Z.id. cbn [fresh] in HF.
    destruct (resize_fresh t (length l) (as_list old) Hwf HF) as [HF1 HF2]. erewrite get_elems_rt by eauto. reflexivity.
  - (* deque *) destruct HT as (HT & Hn & Hc). destruct Hwf as [Hwf Hc0]. destruct (put_list (write pre t) l) as [b| |] eqn:Eb; cbn [rbind] in W; try discriminate. apply ok_inj in W; subst bs.
    rewrite <- app_assoc, get_put_size by auto. cbn [rbind]. rewrite Nat2Z.id. cbn [fresh] in HF. rewrite HF.
    assert (HR : forall v bs rest, has_ty E t v -> write pre t v = Ok bs -> read rs t (default E t) (bs ++ rest) = Ok (v, rest)).
    { intros v bs rest' Hv Wv. apply IHt; auto. now apply fresh_default. }
    assert (HA : forall acc v l', match c with Some c => (length (acc ++ v :: l') <= c)%nat | None => True end -> deque_push c acc v = acc ++ [v]).
    { intros acc v l' Q. unfold deque_push. destruct c as [c|]; [|reflexivity]. rewrite app_length in Q. cbn [length] in Q.
      now replace (length acc <? c)%nat with true by lia. }
    rewrite (get_add_rt _ _ _ _ (fun l => match c with Some c => (length l <= c)%nat | None => True end) HR HA l [] b rest HT Hc Eb). reflexivity.
  - (* set *) destruct HT as (HT & Hn & Ho). destruct (put_list (write pre t) l) as [b| |] eqn:Eb; cbn [rbind] in W; try discriminate. apply ok_inj in W; subst bs.
    rewrite <- app_assoc, get_put_size by auto. cbn [rbind]. rewrite Nat2Z.id. cbn [fresh] in HF. rewrite HF.
    assert (HR : forall v bs rest, has_ty E t v -> write pre t v = Ok bs -> read rs t (default E t) (bs ++ rest) = Ok (v, rest)).
    { intros v bs rest' Hv Wv. apply IHt; auto. now apply fresh_default. }
    assert (HA : forall acc v l', ordered (cmp E c) (fun v => v) (acc ++ v :: l') -> set_insert (cmp E c) (fun v => v) acc v = acc ++ [v]).
    { intros acc v l' Q. apply set_insert_end. intros y Hy. eapply (ordered_mid _ (fun v => v)); eauto. }
    rewrite (get_add_rt _ _ _ _ _ HR HA l [] b rest HT Ho Eb). reflexivity.
  - (* map *) destruct HT as (HT & Hn & Ho). destruct Hwf as [Hw1 Hw2]. destruct Hs as [Hs1 Hs2].
    destruct (put_list _ l) as [b| |] eqn:Eb; cbn [rbind] in W; try discriminate. apply ok_inj in W; subst bs.
    rewrite <- app_assoc, get_put_size by auto. cbn [rbind]. rewrite Nat2Z.id. cbn [fresh] in HF. rewrite HF.
    assert (HR : forall v bs rest, match v with VPair x y => has_ty E t1 x /\ has_ty E t2 y | _ => False end ->
      match v with VPair x y => let* a := write pre t1 x in let* c := write pre t2 y in Ok (a ++ c) | _ => UB end = Ok bs ->
      (let* (x, s1) := read rs t1 (default E t1) (bs ++ rest) in let* (y, s2) := read rs t2 (default E t2) s1 in Ok (VPair x y, s2)) = Ok (v, rest)).
    { intros v bs rest' Hv Wv. destruct v; try tauto. destruct Hv as [Hk Hv]. destruct (write pre t1 v1) as [a| |] eqn:Ea; cbn [rbind] in Wv; try discriminate.
      destruct (write pre t2 v2) as [d| |] eqn:Ed; cbn [rbind] in Wv; try discriminate. apply ok_inj in Wv; subst bs. rewrite <- app_assoc.
      rewrite (IHt1 Hw1 Hs1 v1 _ a _ Hk (fresh_default _ Hw1) Ea). cbn [rbind]. rewrite (IHt2 Hw2 Hs2 v2 _ d _ Hv (fresh_default _ Hw2) Ed). reflexivity. }
    assert (HA : forall acc v l', ordered (cmp E c) pair_key (acc ++ v :: l') -> set_insert (cmp E c) pair_key acc v = acc ++ [v]).
    { intros acc v l' Q. apply set_insert_end. intros y Hy. eapply ordered_mid; eauto. }
    rewrite (get_add_rt _ _ (fun s => let* (x, s1) := read rs t1 (default E t1) s in let* (y, s2) := read rs t2 (default E t2) s1 in Ok (VPair x y, s2))
      _ _ HR HA l [] b rest HT Ho Eb). reflexivity.
  - (* variant *) destruct Hwf as [Hw Hn]. rewrite nth_error_map in HT, W. destruct (nth_error ts i) as [t|] eqn:Et; [|destruct HT]. cbn [option_map] in HT, W.
    destruct (write pre t v) as [b| |] eqn:Eb; cbn [rbind] in W; try discriminate. apply ok_inj in W; subst bs.
    assert (Hi : (i < length ts)%nat) by (apply nth_error_Some; congruence). assert (In t ts) by (eapply nth_error_In; eauto).
    rewrite <- app_assoc, get_put_size by (unfold small in *; lia). cbn [rbind]. replace (Z.of_nat (length ts) <=? Z.of_nat i) with false by lia.
    rewrite Nat2Z.id, nth_error_map, Et. cbn [option_map]. eapply Forall_forall in H; [|eauto]. pose proof (in_all _ ts t Hw ltac:(auto)) as Hwt.
    rewrite (H Hwt (in_all _ ts t Hs ltac:(auto)) v _ b rest HT (fresh_default _ Hwt) Eb). reflexivity.
  - (* tuple *) erewrite get_each_rt; eauto. reflexivity.
  - (* struct *) destruct Hwf as [Hw _]. destruct Hs as [Hg Hs]. cbn [fresh] in HF. rewrite !map_snd in *.
    destruct (put_each _ l) as [b| |] eqn:Eb; cbn [rbind] in W; try discriminate. apply ok_inj in W; subst bs. rewrite <- app_assoc.
    rewrite (HRS sid _ _ b rest l); auto.
    + apply each_length in HT. now rewrite !map_length in *.
    + eapply get_each_rt; eauto using Forall_snd.
Qed.
End RoundTrip.
End Proofs.
