(** Reading the same bytes from two streams: the reader of any type does the same with
    both of them, whatever the streams are. *)
From Coq Require Import ZifyBool ZifyNat.
From Verif Require Import Common Int2ArrayModel CodecModel CodecSpec VtsModel.
Local Open Scope Z_scope.

(** How an execution ended. *)
Inductive outcome := Done | Failed (e : exn) | Undefined.
Definition ended {A} (x : res A) : outcome := match x with Ok _ => Done | Throw e => Failed e | UB => Undefined end.

Section Rel.
Context {S1 S2 : Type} (raw1 : nat -> S1 -> res (bytes * S1)) (raw2 : nat -> S2 -> res (bytes * S2)).
(** [RS k s1 s2]: the streams give the same bytes, at most [k] of them.  When the first
    one throws [e], [J e] says how reading the second one may go on. *)
Context (RS : nat -> S1 -> S2 -> Prop) (J : exn -> outcome -> Prop).
Context (RS_le : forall k k' s1 s2, RS k s1 s2 -> (k <= k')%nat -> RS k' s1 s2).
Context (J_done : forall e o, J e Done -> J e o).

Definition sres {A} (rs : nat -> S1 -> S2 -> Prop) (k : nat) (x1 : res (A * S1)) (x2 : res (A * S2)) : Prop :=
  match x1 with
  | Ok (a, s1) => exists s2, x2 = Ok (a, s2) /\ rs k s1 s2
  | Throw e => J e (ended x2)
  | UB => x2 = UB
  end.
End Rel.

Section Gen.
(** Generic part: streams of any type, possibly with a cache. *)
Context {S1 S2 : Type} (raw1 : nat -> S1 -> res (bytes * S1)) (raw2 : nat -> S2 -> res (bytes * S2)).
Context (RS : nat -> S1 -> S2 -> Prop) (J : exn -> outcome -> Prop).
Context (RS_le : forall k k' s1 s2, RS k s1 s2 -> (k <= k')%nat -> RS k' s1 s2).
Context (J_done : forall e o, J e Done -> J e o) (J_refl : forall e, J e (Failed e)).
Context (raw_ok : forall n k s1 s2, RS k s1 s2 -> sres J RS (k - n) (raw1 n s1) (raw2 n s2)).

(** Computations that do the same up to streams with [K] bytes. *)
Definition comp {A} (K : nat) (f1 : S1 -> res (A * S1)) (f2 : S2 -> res (A * S2)) : Prop :=
  forall k s1 s2, (k <= K)%nat -> RS k s1 s2 -> sres J RS k (f1 s1) (f2 s2).

Lemma sres_le {A} k k' (x1 : res (A * S1)) x2 : sres J RS k x1 x2 -> (k <= k')%nat -> sres J RS k' x1 x2.
Proof. destruct x1 as [[a s1]|e|]; cbn; auto. intros (s2 & E & R) L. exists s2. eauto. Qed.
Lemma sres_bind {A B} k k' (x1 : res (A * S1)) x2 (f1 : A * S1 -> res (B * S1)) (f2 : A * S2 -> res (B * S2)) :
  sres J RS k x1 x2 -> (forall a s1 s2, RS k s1 s2 -> sres J RS k' (f1 (a, s1)) (f2 (a, s2))) ->
  sres J RS k' (rbind x1 f1) (rbind x2 f2).
Proof.
  destruct x1 as [[a s1]|e|]; cbn [sres rbind].
  - intros (s2 & -> & R) H. cbn [rbind]. auto.
  - intros Hj _. destruct x2 as [[a s2]|e2|]; cbn [rbind ended] in *; auto.
  - intros -> _. reflexivity.
Qed.
Lemma sres_ok {A} k (a : A) s1 s2 : RS k s1 s2 -> sres J RS k (Ok (a, s1)) (Ok (a, s2)).
Proof. intros R. exists s2. auto. Qed.
Lemma sres_throw {A} k e : sres J RS k (@Throw (A * S1) e) (@Throw (A * S2) e).
Proof. apply J_refl. Qed.
Lemma sres_ub {A} k : sres J RS k (@UB (A * S1)) (@UB (A * S2)).
Proof. reflexivity. Qed.

Lemma int_ok sg w k s1 s2 : RS k s1 s2 -> sres J RS (k - w) (get_int raw1 sg w s1) (get_int raw2 sg w s2).
Proof. intros R. unfold get_int. eapply sres_bind; [eapply raw_ok; eassumption|]. intros a t1 t2 H. now apply sres_ok. Qed.
Lemma int_comp K sg w : comp K (get_int raw1 sg w) (get_int raw2 sg w).
Proof. intros k s1 s2 _ R. eapply sres_le; [eapply int_ok; eassumption|lia]. Qed.
Lemma bits_comp K f : forall n, comp K (get_bits raw1 f n) (get_bits raw2 f n).
Proof.
  induction f as [|f IH]; intros [|n] k s1 s2 L R; try (cbn; now apply sres_ok).
  change (sres J RS k (let* (a, t1) := get_int raw1 false 1 s1 in let* (l, t2) := get_bits raw1 f (S n - 8) t1 in Ok (map (fun i => Z.testbit a (Z.of_nat i)) (seq 0 (Nat.min 8 (S n))) ++ l, t2))
    (let* (a, t1) := get_int raw2 false 1 s2 in let* (l, t2) := get_bits raw2 f (S n - 8) t1 in Ok (map (fun i => Z.testbit a (Z.of_nat i)) (seq 0 (Nat.min 8 (S n))) ++ l, t2))).
  eapply sres_bind; [apply (int_comp K); eauto|]. intros a t1 t2 R1. eapply sres_bind; [apply IH; eauto|]. intros l u1 u2 R2. now apply sres_ok.
Qed.
Lemma list_comp K (r1 : reader S1) (r2 : reader S2) : (forall o, comp K (r1 o) (r2 o)) -> forall l, comp K (get_list r1 l) (get_list r2 l).
Proof.
  intros H l. induction l as [|o l IH]; intros k s1 s2 L R; cbn [get_list]; [now apply sres_ok|].
  eapply sres_bind; [apply H; eauto|]. intros v t1 t2 R1. eapply sres_bind; [apply IH; eauto|]. intros w u1 u2 R2. now apply sres_ok.
Qed.
Lemma add_comp K r1 r2 add : comp K r1 r2 -> forall n acc, comp K (get_add r1 add n acc) (get_add r2 add n acc).
Proof.
  intros H n. induction n as [|n IH]; intros acc k s1 s2 L R; cbn [get_add]; [now apply sres_ok|].
  eapply sres_bind; [apply H; eauto|]. intros v t1 t2 R1. apply IH; auto.
Qed.
Lemma each_comp K (rs1 : list (reader S1)) (rs2 : list (reader S2)) : Forall2 (fun r1 r2 => forall o, comp K (r1 o) (r2 o)) rs1 rs2 ->
  forall l, comp K (get_each rs1 l) (get_each rs2 l).
Proof.
  induction 1 as [|r1 r2 rs1 rs2 H HF IH]; intros l k s1 s2 L R; cbn [get_each]; [now apply sres_ok|].
  eapply sres_bind; [apply H; eauto|]. intros v t1 t2 R1. eapply sres_bind; [apply IH; eauto|]. intros w u1 u2 R2. now apply sres_ok.
Qed.

(** The way a structure is read keeps the relation. *)
Definition struct_comp (K : nat) (h1 : nat -> list (reader S1) -> list val -> S1 -> res (list val * S1)) (h2 : nat -> list (reader S2) -> list val -> S2 -> res (list val * S2)) : Prop :=
  forall sid rs1 rs2 olds, Forall2 (fun r1 r2 => forall o, comp K (r1 o) (r2 o)) rs1 rs2 -> comp K (h1 sid rs1 olds) (h2 sid rs2 olds).
Lemma plain_comp K : struct_comp K plain_struct plain_struct.
Proof. intros sid rs1 rs2 olds H. now apply each_comp. Qed.

Lemma forall2_map {A B C} (P : B -> C -> Prop) (f : A -> B) (g : A -> C) l : Forall (fun x => P (f x) (g x)) l -> Forall2 P (map f l) (map g l).
Proof. induction 1; cbn; constructor; auto. Qed.

Theorem read_comp E K h1 h2 : struct_comp K h1 h2 -> forall t old, comp K (read E raw1 h1 t old) (read E raw2 h2 t old).
Proof.
  intros HS. assert (EL : forall t, (forall old, comp K (read E raw1 h1 t old) (read E raw2 h2 t old)) -> forall l, comp K (get_elems raw1 t (read E raw1 h1 t) l) (get_elems raw2 t (read E raw2 h2 t) l)).
  { intros t H l. destruct t; try (apply list_comp; exact H). intros k s1 s2 L R. cbn [get_elems]. eapply sres_bind; [eapply bits_comp; eauto|]. intros v t1 t2 R1. now apply sres_ok. }
  assert (SZ : comp K (get_size raw1) (get_size raw2)) by (apply int_comp).
  induction t using ty_ind'; intros old kk s1 s2 L R; cbn [read].
  - eapply sres_bind; [eapply int_comp; eauto|]. intros z t1 t2 R1. now apply sres_ok.
  - eapply sres_bind; [eapply int_comp; eauto|]. intros z t1 t2 R1. now apply sres_ok.
  - eapply sres_bind; [eapply int_comp; eauto|]. intros z t1 t2 R1. destruct (bad_enum c z); [apply sres_throw|now apply sres_ok].
  - eapply sres_bind; [eapply SZ; eauto|]. intros n t1 t2 R1. destruct (over_limit _ _); [apply sres_throw|]. destruct (negb _); [apply sres_throw|].
    eapply sres_bind; [eapply list_comp; eauto|]. { intros o k' u1 u2 L' R'. eapply sres_bind; [eapply int_comp; eauto|]. intros z v1 v2 R2. now apply sres_ok. }
    intros l u1 u2 R2. now apply sres_ok.
  - eapply sres_bind; [eapply int_comp; eauto|]. intros z t1 t2 R1. now apply sres_ok.
  - eapply sres_bind; [eapply int_comp; eauto|]. intros z t1 t2 R1. destruct (z =? 0); [now apply sres_ok|].
    eapply sres_bind; [eapply IHt; eauto|]. intros v u1 u2 R2. now apply sres_ok.
  - eapply sres_bind; [eapply EL; eauto|]. intros l t1 t2 R1. now apply sres_ok.
  - eapply sres_bind; [eapply SZ; eauto|]. intros n t1 t2 R1. destruct (negb _); [apply sres_throw|].
    eapply sres_bind; [eapply EL; eauto|]. intros l u1 u2 R2. now apply sres_ok.
  - eapply sres_bind; [eapply SZ; eauto|]. intros n t1 t2 R1. eapply sres_bind; [eapply add_comp; eauto|]. intros l u1 u2 R2. now apply sres_ok.
  - eapply sres_bind; [eapply SZ; eauto|]. intros n t1 t2 R1. eapply sres_bind; [eapply add_comp; eauto|]. intros l u1 u2 R2. now apply sres_ok.
  - eapply sres_bind; [eapply SZ; eauto|]. intros n q1 q2 R1. eapply sres_bind; [eapply add_comp; eauto|].
    { intros k' u1 u2 L' R'. eapply sres_bind; [eapply IHt1; eauto|]. intros x v1 v2 R2. eapply sres_bind; [eapply IHt2; eauto|]. intros y w1 w2 R3. now apply sres_ok. }
    intros l u1 u2 R2. now apply sres_ok.
  - eapply sres_bind; [eapply SZ; eauto|]. intros n t1 t2 R1. destruct (Z.of_nat (length ts) <=? n); [apply sres_ub|].
    rewrite !nth_error_map. destruct (nth_error ts (Z.to_nat n)) as [t|] eqn:Et; cbn [option_map]; [|apply sres_ub].
    eapply sres_bind; [eapply (proj1 (Forall_forall _ _) H t); eauto; eapply nth_error_In; eauto|]. intros v u1 u2 R2. now apply sres_ok.
  - eapply sres_bind; [eapply each_comp; eauto|]. { apply forall2_map. exact H. } intros l t1 t2 R1. now apply sres_ok.
  - eapply sres_bind; [eapply HS; eauto|]. { apply forall2_map. exact H. } intros l t1 t2 R1. now apply sres_ok.
Qed.
End Gen.

(** ** The version tolerant reader *)
Section Vts.
Context {S1 S2 : Type} (raw1 : nat -> S1 -> res (bytes * S1)) (raw2 : nat -> S2 -> res (bytes * S2)).
Context (RS : nat -> S1 -> S2 -> Prop) (J : exn -> outcome -> Prop).
Context (RS_le : forall k k' s1 s2, RS k s1 s2 -> (k <= k')%nat -> RS k' s1 s2).
Context (J_done : forall e o, J e Done -> J e o) (J_refl : forall e, J e (Failed e)).
Context (raw_ok : forall n k s1 s2, RS k s1 s2 -> sres J RS (k - n) (raw1 n s1) (raw2 n s2)).
Context (raw_len : forall n k s1 s2 x, RS k s1 s2 -> raw1 n s1 = Ok x -> (n <= k)%nat).
Context (E : env) (sch : schema) (rename : nat -> fname -> fname) (allow_delete : bool) (olds : list proto).

Notation cache := (nat -> option (nat * list (option nat))).
Definition CS (k : nat) (s1 : S1 * cache) (s2 : S2 * cache) : Prop := RS k (fst s1) (fst s2) /\ snd s1 = snd s2.
Notation sres := (sres J). Notation comp := (comp CS J).
Lemma CS_le k k' s1 s2 : CS k s1 s2 -> (k <= k')%nat -> CS k' s1 s2.
Proof. intros [R EQ] L. split; eauto. Qed.
Lemma vraw_ok n k s1 s2 : CS k s1 s2 -> sres CS (k - n) (vraw raw1 n s1) (vraw raw2 n s2).
Proof.
  intros [R EQ]. unfold vraw. pose proof (raw_ok n _ _ _ R) as H. destruct (raw1 n (fst s1)) as [[b r]|e|]; cbn [StreamRel.sres rbind] in *.
  - destruct H as (r2 & -> & R2). cbn [rbind]. rewrite EQ. eexists. split; [reflexivity|]. split; auto.
  - destruct (raw2 n (fst s2)) as [[b r]|e2|]; cbn [rbind ended] in *; auto.
  - now rewrite H.
Qed.
Lemma index_ok k s1 s2 : CS k s1 s2 ->
  match read_index raw1 olds s1 with
  | Ok (i, t1) => exists t2 k', read_index raw2 olds s2 = Ok (i, t2) /\ (k' + 2 <= k)%nat /\ CS k' t1 t2
  | Throw e => J e (ended (read_index raw2 olds s2))
  | UB => read_index raw2 olds s2 = UB
  end.
Proof.
  intros R. assert (L : forall z t1, get_int (vraw raw1) false 2 s1 = Ok (z, t1) -> (2 <= k)%nat).
  { intros z t1 H. unfold get_int, vraw in H. destruct (raw1 2%nat (fst s1)) as [x| |] eqn:Ex; try discriminate. destruct R as [R _]. eapply raw_len; eauto. }
  unfold read_index. pose proof (int_ok (vraw raw1) (vraw raw2) CS J J_done vraw_ok false 2 _ _ _ R) as H.
  destruct (get_int (vraw raw1) false 2 s1) as [[z t1]|e|]; cbn [StreamRel.sres rbind] in *.
  - destruct H as (t2 & -> & R2). cbn [rbind]. destruct (Z.of_nat (length olds) <=? z); [reflexivity|].
    exists t2, (k - 2)%nat. split; [reflexivity|]. split; auto. specialize (L _ _ eq_refl). lia.
  - destruct (get_int (vraw raw2) false 2 s2) as [[z t2]|e2|]; cbn [rbind ended] in *; auto.
  - now rewrite H.
Qed.

(** Skipping: only the stream is left. *)
Definition skres (k : nat) (x1 : res (S1 * cache)) (x2 : res (S2 * cache)) : Prop :=
  match x1 with Ok t1 => exists t2, x2 = Ok t2 /\ CS k t1 t2 | Throw e => J e (ended x2) | UB => x2 = UB end.
Definition skips (K : nat) (k1 : option nat -> S1 * cache -> res (S1 * cache)) (k2 : option nat -> S2 * cache -> res (S2 * cache)) : Prop :=
  forall o k s1 s2, (k < K)%nat -> CS k s1 s2 -> skres k (k1 o s1) (k2 o s2).
Lemma skres_bind {B} k (x1 : res (S1 * cache)) x2 (f1 : S1 * cache -> res (B * (S1 * cache))) f2 :
  skres k x1 x2 -> (forall t1 t2, CS k t1 t2 -> sres CS k (f1 t1) (f2 t2)) -> sres CS k (rbind x1 f1) (rbind x2 f2).
Proof.
  destruct x1 as [t1|e|]; cbn [skres rbind].
  - intros (t2 & -> & R) H. cbn [rbind]. auto.
  - intros Hj _. destruct x2; cbn [rbind ended] in *; cbn [StreamRel.sres]; auto.
  - intros -> _. reflexivity.
Qed.
Lemma skip_all_ok K k1 k2 : skips K k1 k2 -> forall p k s1 s2, (k < K)%nat -> CS k s1 s2 -> skres k (skip_all k1 p s1) (skip_all k2 p s2).
Proof.
  intros H p. induction p as [|f p IH]; intros k s1 s2 L R; cbn [skip_all]; [exists s2; auto|].
  pose proof (H (snd f) k s1 s2 L R) as Hs. destruct (k1 (snd f) s1) as [t1|e|]; cbn [skres rbind] in *.
  - destruct Hs as (t2 & -> & R2). cbn [rbind]. now apply IH.
  - destruct (k2 (snd f) s2); cbn [rbind ended] in *; auto.
  - now rewrite Hs.
Qed.
Lemma nth_comp {A B} (P : A -> B -> Prop) l1 l2 j : Forall2 P l1 l2 ->
  match nth_error l1 j with Some a => exists b, nth_error l2 j = Some b /\ P a b | None => nth_error l2 j = None end.
Proof. intros H. revert j. induction H; intros [|j]; cbn; eauto. apply IHForall2. Qed.
Lemma mapped_ok K k1 k2 : skips K k1 k2 -> forall sid rs1 rs2, Forall2 (fun r1 r2 => forall o, comp K (r1 o) (r2 o)) rs1 rs2 ->
  forall fs cur k s1 s2, (k < K)%nat -> CS k s1 s2 ->
  sres CS k (read_mapped sch allow_delete k1 sid rs1 fs cur s1) (read_mapped sch allow_delete k2 sid rs2 fs cur s2).
Proof.
  intros HK sid rs1 rs2 HF fs. induction fs as [|[[n ot] [j|]] fs IH]; intros cur k s1 s2 L R; cbn [read_mapped].
  - now apply sres_ok.
  - match goal with |- sres CS k (rbind ?a _) _ => destruct a as [[|]|e|] end; cbn [rbind negb].
    + pose proof (nth_comp _ _ _ j HF) as Hn. unfold reader in *. destruct (nth_error rs1 j) as [r1|].
      * destruct Hn as (r2 & -> & Hr). eapply sres_bind; [exact J_done|apply Hr; [apply Nat.lt_le_incl; exact L|exact R]|]. intros v t1 t2 R1. now apply IH.
      * rewrite Hn. reflexivity.
    + apply sres_throw; auto.
    + apply sres_throw; auto.
    + reflexivity.
  - destruct allow_delete; [|apply sres_throw; auto]. eapply skres_bind; [apply HK; eauto|]. intros t1 t2 R1. now apply IH.
Qed.
Lemma hook_ok K k1 k2 : skips K k1 k2 -> struct_comp CS J K (hook raw1 sch rename allow_delete olds k1) (hook raw2 sch rename allow_delete olds k2).
Proof.
  intros HK sid rs1 rs2 cur HF k s1 s2 L R. unfold hook. pose proof (index_ok k s1 s2 R) as Hi.
  destruct (read_index raw1 olds s1) as [[i t1]|e|]; cbn [rbind].
  - destruct Hi as (t2 & k' & -> & Lk & [R1 Ec]). cbn [rbind]. rewrite <- Ec. destruct (find_map sch rename olds sid i (snd t1)) as [[m c]|e|]; cbn [rbind].
    + assert (R2 : CS k' (fst t1, c) (fst t2, c)) by (split; auto). apply (sres_le CS J CS_le k'); [|lia].
      destruct m; [eapply each_comp; eauto; lia|eapply mapped_ok; eauto; lia].
    + apply sres_throw; auto.
    + reflexivity.
  - destruct (read_index raw2 olds s2) as [[i t2]|e2|]; cbn [rbind ended] in *; cbn [StreamRel.sres]; auto.
  - rewrite Hi. reflexivity.
Qed.
Lemma skip_ok f1 : forall f2 K, (K <= f1)%nat -> (K <= f2)%nat -> skips K (skip raw1 E sch rename allow_delete olds f1) (skip raw2 E sch rename allow_delete olds f2).
Proof.
  induction f1 as [|f1 IH]; intros f2 K L1 L2 o k s1 s2 L R; [lia|]. destruct f2 as [|f2]; [lia|]. cbn [skip]. destruct o as [i|].
  - destruct (nth_error (ftypes sch) i) as [t|]; [|reflexivity].
    assert (HC : comp k (read E (vraw raw1) (hook raw1 sch rename allow_delete olds (skip raw1 E sch rename allow_delete olds f1)) t (default E t))
      (read E (vraw raw2) (hook raw2 sch rename allow_delete olds (skip raw2 E sch rename allow_delete olds f2)) t (default E t))).
    { apply read_comp; auto; [exact CS_le|exact vraw_ok|]. apply hook_ok. apply IH; lia. }
    specialize (HC k s1 s2 (Nat.le_refl _) R). unfold StreamRel.sres, skres in *.
    destruct (read E (vraw raw1) _ t (default E t) s1) as [[v t1]|e|]; cbn [rbind].
    + destruct HC as (t2 & -> & R2). cbn [rbind]. eauto.
    + match goal with |- J e (ended (rbind ?x _)) => destruct x as [[]| |] end; cbn [rbind ended] in *; auto.
    + rewrite HC. reflexivity.
  - pose proof (index_ok k s1 s2 R) as Hi. destruct (read_index raw1 olds s1) as [[i t1]|e|]; cbn [rbind].
    + destruct Hi as (t2 & k' & -> & Lk & R1). cbn [rbind].
      pose proof (skip_all_ok _ _ _ (IH f2 k ltac:(lia) ltac:(lia)) (nth i olds []) k' t1 t2 ltac:(lia) R1) as Hs. unfold skres in *.
      destruct (skip_all (skip raw1 E sch rename allow_delete olds f1) (nth i olds []) t1) as [u1|e|]; auto. destruct Hs as (u2 & -> & R2). exists u2. split; auto. eapply CS_le; eauto. lia.
    + cbn [skres]. destruct (read_index raw2 olds s2) as [[i t2]|e2|]; cbn [rbind ended] in *; auto.
    + rewrite Hi. reflexivity.
Qed.
Theorem vreadv_comp f1 f2 K t old : (K <= f1)%nat -> (K <= f2)%nat ->
  comp K (vreadv raw1 E sch rename allow_delete olds f1 t old) (vreadv raw2 E sch rename allow_delete olds f2 t old).
Proof. intros L1 L2. unfold vreadv. apply read_comp; auto; [exact CS_le|exact vraw_ok|]. apply hook_ok. now apply skip_ok. Qed.
End Vts.

Section Whole.
Context {S1 S2 : Type} (raw1 : nat -> S1 -> res (bytes * S1)) (raw2 : nat -> S2 -> res (bytes * S2)) (size1 : S1 -> nat) (size2 : S2 -> nat).
Context (RS : nat -> S1 -> S2 -> Prop) (J : exn -> outcome -> Prop).
Context (RS_le : forall k k' s1 s2, RS k s1 s2 -> (k <= k')%nat -> RS k' s1 s2).
Context (J_done : forall e o, J e Done -> J e o) (J_refl : forall e, J e (Failed e)).
Context (raw_ok : forall n k s1 s2, RS k s1 s2 -> sres J RS (k - n) (raw1 n s1) (raw2 n s2)).
Context (raw_len : forall n k s1 s2 x, RS k s1 s2 -> raw1 n s1 = Ok x -> (n <= k)%nat).
(** Both sizes are large enough. *)
Context (size_ok : forall k s1 s2, RS k s1 s2 -> exists k', (k' <= k)%nat /\ RS k' s1 s2 /\ (k' <= size1 s1)%nat /\ (k' <= size2 s2)%nat).

Theorem vread_from_comp E sch rename type_map allow_delete t old K :
  comp RS J K (vread_from raw1 size1 E sch rename type_map allow_delete t old) (vread_from raw2 size2 E sch rename type_map allow_delete t old).
Proof.
  intros k s1 s2 L R. unfold vread_from.
  assert (P : sres J RS k (read_protos raw1 E sch type_map s1) (read_protos raw2 E sch type_map s2)).
  { unfold read_protos. eapply sres_bind; [exact J_done| |]. { eapply (read_comp raw1 raw2 RS J RS_le J_done J_refl raw_ok E k); eauto. apply plain_comp; auto. }
    intros m t1 t2 R1. destruct (attach _ _ _) as [ps|e|]; cbn [rbind]; [now apply sres_ok|apply sres_throw; auto|reflexivity]. }
  eapply sres_bind; [exact J_done|exact P|]. intros ps t1 t2 R1. destruct (size_ok _ _ _ R1) as (k' & Lk & R2 & L1 & L2).
  pose proof (vreadv_comp raw1 raw2 RS J RS_le J_done J_refl raw_ok raw_len E sch rename allow_delete ps (size1 t1) (size2 t2) k' t old L1 L2 k' (t1, fun _ => None) (t2, fun _ => None) (Nat.le_refl _) (conj R2 eq_refl)) as H.
  unfold sres in H at 1. destruct (vreadv raw1 E sch rename allow_delete ps (size1 t1) t old (t1, fun _ => None)) as [[v u1]|e|]; cbn [rbind].
  - destruct H as (u2 & -> & [R3 _]). cbn [rbind]. apply sres_ok. eapply RS_le; eauto.
  - cbn [sres]. destruct (vreadv raw2 E sch rename allow_delete ps (size2 t2) t old (t2, fun _ => None)) as [[v u2]|e2|]; cbn [rbind ended] in *; auto.
  - rewrite H. reflexivity.
Qed.
End Whole.
