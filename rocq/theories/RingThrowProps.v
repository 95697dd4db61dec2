(** C80: what a ring is after the constructor of an element has thrown. *)
From Verif Require Import Common RingModel RingSpec RingProofs RingThrowModel.
From Coq Require Import Lia ZifyBool ZifyNat.

Section RingThrow.
Context {T : Type}.
Implicit Types (m : memory T) (r : rv) (l : list T).

(** A ring with a raw slot among its elements *)
Definition raw m r (n : nat) : Prop := exists k s, buf r = Some k /\ blocks m k = Some s /\ length s = cap r /\ n < size r /\ size r <= cap r /\ data r < cap r /\ nth_error s (address r n) = Some None.
Lemma next_address r : data r < cap r -> next r (data r) = if S (data r) =? cap r then 0 else S (data r). Proof. reflexivity. Qed.
Lemma clear_raw n : forall f m r, raw m r n -> clear_loop f m r = UB.
Proof.
  induction n as [|n IH]; intros f m r (k & s & B & K & L & N & C & D & R).
  - destruct f; cbn [clear_loop]; unfold empty; destruct (Nat.eqb_spec (size r) 0) as [Z|Z]; try lia; [reflexivity|].
    unfold pop_front, empty. destruct (Nat.eqb_spec (size r) 0); [lia|]. cbn [negb guard]. unfold destroy. rewrite B, K, (data_address r D), R. reflexivity.
  - destruct f; cbn [clear_loop]; unfold empty; destruct (Nat.eqb_spec (size r) 0) as [Z|Z]; try lia; [reflexivity|].
    unfold pop_front, empty. destruct (Nat.eqb_spec (size r) 0); [lia|]. cbn [negb guard]. unfold destroy. rewrite B, K.
    destruct (nth_error s (data r)) as [[v|]|]; [|reflexivity|reflexivity]. cbn [rbind]. apply IH.
    exists k, (set_nth s (data r) None). cbn [buf cap data size with_data with_size blocks]. rewrite upd_eq, set_nth_length.
    split; [exact B|]. split; [reflexivity|]. split; [exact L|]. split; [lia|]. split; [lia|]. split; [unfold next; destruct (Nat.eqb_spec (S (data r)) (cap r)); lia|].
    assert (A : address (with_size (with_data r (next r (data r))) (size r - 1)) n = address r (S n)).
    { unfold address. cbn [cap data with_data with_size]. unfold next. destruct (Nat.eqb_spec (S (data r)) (cap r)).
      - destruct (Nat.leb_spec (cap r) (0 + n)), (Nat.leb_spec (cap r) (data r + S n)); lia.
      - destruct (Nat.leb_spec (cap r) (S (data r) + n)), (Nat.leb_spec (cap r) (data r + S n)); lia. }
    rewrite A, nth_error_set_nth_neq; [exact R|]. intros E. rewrite (data_address r D) in E. apply address_inj in E; lia.
Qed.
Lemma free_raw n m r : raw m r n -> free m r = UB.
Proof. intros R. pose proof R as (k & s & B & _). unfold free, clear. rewrite B, (clear_raw n) by exact R. reflexivity. Qed.
Lemma index_raw n m r : raw m r n -> index m r n = UB.
Proof. intros (k & s & B & K & _ & _ & _ & _ & R). unfold index, load. rewrite B, K, R. reflexivity. Qed.

Lemma push_back_throws_raw m r l : owns m r l -> exists m' r', push_back_throws m r = Ok (m', r') /\ raw m' r' (size r' - 1) /\ buf r' = buf r /\ cap r' = cap r /\ frame m r m'.
Proof.
  intros Ho. pose proof Ho as (k & s & B & K & F & L & Z & D & Le & N). unfold push_back_throws, allocate_next.
  destruct (full r) eqn:Fu.
  - unfold full in Fu. apply Nat.eqb_eq in Fu. unfold destroy. rewrite B, K. pose proof (N 0 ltac:(lia)) as N0. rewrite <- (data_address r D) in N0. rewrite N0. destruct l as [|x l]; [cbn in *; lia|]. cbn [nth_error rbind].
    eexists _, _. split; [reflexivity|]. split; [|split; [cbn; congruence|split; [reflexivity|split; [reflexivity|]]]].
    + exists k, (set_nth s (data r) None). cbn [buf cap data size with_data blocks]. rewrite upd_eq, set_nth_length. split; [exact B|]. split; [reflexivity|]. split; [exact L|]. split; [lia|]. split; [lia|].
      split; [unfold next; destruct (Nat.eqb_spec (S (data r)) (cap r)); lia|].
      assert (A : address (with_data r (next r (data r))) (size r - 1) = data r).
      { unfold address. cbn [cap data with_data]. unfold next. destruct (Nat.eqb_spec (S (data r)) (cap r)).
        - destruct (Nat.leb_spec (cap r) (0 + (size r - 1))); lia.
        - destruct (Nat.leb_spec (cap r) (S (data r) + (size r - 1))); lia. }
      rewrite A. apply nth_error_set_nth_eq. lia.
    + intros k' Hk. cbn [blocks]. apply upd_neq. intros ->. rewrite B in Hk. congruence.
  - unfold full in Fu. apply Nat.eqb_neq in Fu. cbn [rbind]. eexists _, _. split; [reflexivity|]. split; [|split; [reflexivity|split; [reflexivity|apply frame_refl]]].
    exists k, s. cbn [buf cap data size with_size]. split; [exact B|]. split; [exact K|]. split; [exact L|]. split; [lia|]. split; [lia|]. split; [exact D|].
    replace (S (size r) - 1) with (size r) by lia. change (address (with_size r (S (size r))) (size r)) with (address r (size r)). rewrite N by lia. f_equal. apply nth_error_None. lia.
Qed.
(** After a constructor has thrown in push_back or push_front, for every ring and every content, the
    destructor of the ring is undefined behaviour: it destroys an element that was not constructed.
    So is reading that element, which is counted. *)
Theorem ring_push_back_throws_refuted m r l : owns m r l -> exists m' r', push_back_throws m r = Ok (m', r') /\ free m' r' = UB /\ back m' r' = UB.
Proof.
  intros Ho. destruct (push_back_throws_raw m r l Ho) as (m' & r' & E & R & _). exists m', r'. split; [exact E|]. split; [now apply free_raw with (size r' - 1)|].
  unfold back, empty. pose proof R as (k & s & _ & _ & _ & N & _). destruct (Nat.eqb_spec (size r') 0); [lia|]. cbn. apply (index_raw _ _ _ R).
Qed.
Theorem ring_push_front_throws_refuted m r l : owns m r l -> exists m' r', push_front_throws m r = Ok (m', r') /\ free m' r' = UB /\ front m' r' = UB.
Proof.
  intros Ho. pose proof Ho as (k & s & B & K & F & L & Z & D & Le & N).
  enough (exists m' r', push_front_throws m r = Ok (m', r') /\ raw m' r' 0) as (m' & r' & E & R).
  { exists m', r'. split; [exact E|]. split; [now apply free_raw with 0|]. pose proof R as (k' & s' & B' & K' & _ & N' & _ & D' & _). unfold front, empty. destruct (Nat.eqb_spec (size r') 0); [lia|]. cbn [negb guard]. rewrite (data_address r' D'). apply (index_raw _ _ _ R). }
  assert (P1 : prev r (data r) < cap r) by (unfold prev; destruct (Nat.eqb_spec (data r) 0); lia).
  assert (P2 : prev r (data r) = address r (cap r - 1)). { unfold prev, address. destruct (Nat.eqb_spec (data r) 0); destruct (Nat.leb_spec (cap r) (data r + (cap r - 1))); lia. }
  unfold push_front_throws, allocate_prev. destruct (full r) eqn:Fu.
  - unfold full in Fu. apply Nat.eqb_eq in Fu. unfold destroy. cbn [buf data with_data]. rewrite B, K, P2, N by lia. destruct (nth_error l (cap r - 1)) as [x|] eqn:X; [|apply nth_error_None in X; lia]. cbn [rbind].
    eexists _, _. split; [reflexivity|]. rewrite <- P2. exists k, (set_nth s (prev r (data r)) None). cbn [buf cap data size with_data blocks]. rewrite upd_eq, set_nth_length. split; [exact B|]. split; [reflexivity|]. split; [exact L|]. split; [lia|]. split; [lia|]. split; [exact P1|].
    assert (A : address (with_data r (prev r (data r))) 0 = prev r (data r)) by (unfold address; cbn [cap data with_data]; destruct (Nat.leb_spec (cap r) (prev r (data r) + 0)); lia). rewrite A. apply nth_error_set_nth_eq. lia.
  - unfold full in Fu. apply Nat.eqb_neq in Fu. cbn [rbind]. eexists _, _. split; [reflexivity|]. exists k, s. cbn [buf cap data size with_data with_size]. split; [exact B|]. split; [exact K|]. split; [exact L|]. split; [lia|]. split; [lia|]. split; [exact P1|].
    assert (A : address (with_size (with_data r (prev r (data r))) (S (size r))) 0 = prev r (data r)) by (unfold address; cbn [cap data with_data with_size]; destruct (Nat.leb_spec (cap r) (prev r (data r) + 0)); lia). rewrite A, P2, N by lia. f_equal. apply nth_error_None. lia.
Qed.

Lemma copy_throws_raw m src l n : owns m src l -> n < length l -> exists m' r', copy_throws m src n = Ok (m', r') /\ raw m' r' n /\ size r' = S n /\ buf r' = Some (fresh m) /\ fresh m' = S (fresh m) /\ (forall k, k <> fresh m -> blocks m' k = blocks m k).
Proof.
  intros Ho Hn. pose proof (owns_facts _ _ _ Ho) as (Hz & Hd & Hle). pose proof Ho as (k & s & Hb & Hs & Hk & R).
  destruct (allocate_facts m (cap src)) as (Ab & Ak & Af & Ao). unfold copy_throws. destruct (allocate m (cap src)) as [m1 nb]. cbn [fst snd] in *. subst nb.
  destruct (copy_loop_ok (seq 0 n) m1 {| buf := Some (fresh m); cap := cap src; data := 0; size := 0 |} [] src l) as (vs & m' & r' & Hvs & E & Hb' & Hc' & Ho' & F).
  - eapply owns_frame; eauto; try lia. intros k' Hk'. apply Ao. assert (k' = k) by congruence. lia.
  - exists (fresh m), (repeat None (cap src)). repeat split; auto; try (apply rep_fresh; lia); simpl; lia.
  - simpl. rewrite Hb. intros HH. injection HH as HH. lia.
  - intros p Hp. apply in_seq in Hp. lia.
  - simpl. rewrite seq_length. lia.
  - cbn [buf cap] in *. rewrite E. cbn [rbind app] in *. assert (Lv : length vs = n) by (rewrite <- (seq_length n 0), <- (map_length (nth_error l)), <- Hvs, map_length; reflexivity).
    pose proof (owns_facts _ _ _ Ho') as (Z' & _ & Le').
    destruct (push_back_throws_raw m' r' vs Ho') as (m2 & r2 & E2 & R2 & B2 & C2 & [F2a F2b]). exists m2, r2. split; [exact E2|].
    assert (Sz : size r2 = S n). { revert E2. unfold push_back_throws, allocate_next. unfold full. destruct (Nat.eqb_spec (size r') (cap r')) as [Q|Q]; [lia|]. cbn [rbind]. intros X. injection X as <- <-. cbn. lia. }
    rewrite Sz in R2. replace (S n - 1) with n in R2 by lia. split; [exact R2|]. split; [exact Sz|]. split; [congruence|]. destruct F as [Fa Fb]. cbn [buf] in Fb.
    split; [congruence|]. intros k' Hk'. rewrite F2b by congruence. rewrite Fb by congruence. apply Ao; auto.
Qed.
(** The copy constructor leaks the buffer and the elements copied so far: no ring owns the new block,
    and it stays allocated. *)
Theorem ring_copy_throws_refuted m src l n : owns m src l -> n < length l ->
  exists m' s, copy_ctor_throws m src n = Ok m' /\ owns m' src l /\ blocks m' (fresh m) = Some s /\ length s = cap src /\ (forall r' l', owns m r' l' -> buf r' <> Some (fresh m)).
Proof.
  intros Ho Hn. destruct (copy_throws_raw m src l n Ho Hn) as (m' & r' & E & (k & s & B & K & L & _) & _ & B' & F & O). unfold copy_ctor_throws. rewrite E. cbn [rbind].
  assert (Ek : k = fresh m) by congruence. subst k.
  assert (C : cap r' = cap src). { revert E. unfold copy_throws, push_back_throws, allocate_next. destruct (allocate m (cap src)) as [m1 nb]. destruct (copy_loop _ _ _ _) as [[m2 r2]| |] eqn:CL; cbn [rbind]; try discriminate.
    assert (Cc : forall ps m r m2 r2, copy_loop m r src ps = Ok (m2, r2) -> cap r2 = cap r).
    { clear. induction ps as [|p ps IH]; intros m r m2 r2; cbn [copy_loop]; [intros E; injection E as <- <-; reflexivity|].
      destruct (load m (buf src) (address src p)) as [v| |]; cbn [rbind]; try discriminate. unfold push_back, allocate_next. destruct (full r).
      - destruct (destroy m (buf r) (data r)) as [m1| |]; cbn [rbind]; try discriminate. destruct (construct _ _ _ _) as [m3| |]; cbn [rbind]; try discriminate. intros E. apply IH in E. exact E.
      - cbn [rbind]. destruct (construct _ _ _ _) as [m3| |]; cbn [rbind]; try discriminate. intros E. apply IH in E. exact E. }
    apply Cc in CL. cbn in CL. destruct (full r2); [destruct (destroy m2 (buf r2) (data r2)); cbn [rbind]; try discriminate|cbn [rbind]]; intros X; injection X as <- <-; cbn; exact CL. }
  exists m', s. split; [reflexivity|]. split; [|split; [exact K|split; [congruence|]]].
  - pose proof Ho as (k & s0 & Hb & Hs & Hk & R). eapply owns_frame; [exact Ho|lia|]. intros k' Hk'. apply O. assert (k' = k) by congruence. lia.
  - intros r0 l0 (k & s0 & Hb & Hs & Hk & _) Q. assert (k = fresh m) by congruence. lia.
Qed.
(** After an assignment that throws the old elements of the left operand are gone, and its destructor
    is undefined behaviour. *)
Theorem ring_assign_throws_refuted m dst ld src ls n : owns m dst ld -> owns m src ls -> buf dst <> buf src -> n < length ls ->
  exists m' d, assign_throws m (Robj dst) (Robj src) n = Ok (m', d) /\ ofree m' d = UB.
Proof.
  intros Hd Hs Ne Hn. unfold assign_throws, ofree. destruct (free_ok m dst ld Hd) as (m1 & r1 & E & _ & (Ff & Fb) & _). rewrite E. cbn [rbind].
  assert (Hs1 : owns m1 src ls). { eapply owns_frame; [exact Hs|lia|]. intros k Hk. apply Fb. congruence. }
  destruct (copy_throws_raw m1 src ls n Hs1 Hn) as (m' & r' & E' & R & _). rewrite E'. cbn [rbind]. eexists _, _. split; [reflexivity|]. cbn. rewrite (free_raw n m' r' R). reflexivity.
Qed.
(** reserve leaves the ring as it was (with elements moved from), but leaks the new buffer. *)
Theorem ring_reserve_throws_partial m r l c n : owns m r l -> c <> 0 -> n < Nat.min c (length l) ->
  exists m' s, reserve_throws m r c n = Ok m' /\ owns m' r l /\ blocks m' (fresh m) = Some s /\ fresh m' = S (fresh m).
Proof.
  intros Ho Hc0 Hn. pose proof (owns_facts _ _ _ Ho) as (Hz & Hd & Hle). pose proof Ho as (k & s & Hb & Hs & Hk & R).
  destruct (allocate_facts m c) as (Ab & Ak & Af & Ao). unfold reserve_throws. destruct (Nat.eqb_spec c 0); [lia|]. cbn [negb guard]. unfold allocate in *. cbn [fst snd blocks fresh] in *.
  set (m1 := {| blocks := upd (blocks m) (fresh m) (Some (repeat None c)); fresh := S (fresh m) |}) in *.
  assert (Ho1 : owns m1 r l) by (eapply owns_frame; [exact Ho|simpl; lia|]; intros k' Hk'; apply Ao; assert (k' = k) by congruence; lia).
  set (off := size r - Nat.min c (size r)).
  (* the loop up to element n is that of a list cut after it *)
  assert (Gen : forall is j m0 dn, is = seq j (length is) -> j + length is <= Nat.min c (length l) -> owns m0 r l -> fresh m0 = S (fresh m) -> length dn = j ->
     owns m0 {| buf := Some (fresh m); cap := c; data := 0; size := j |} dn ->
     exists m', reserve_loop m0 r (fresh m) off is = Ok m' /\ owns m' r l /\ fresh m' = S (fresh m) /\ exists s, blocks m' (fresh m) = Some s).
  { induction is as [|i is IH]; intros j m0 dn Eis Lis Or Fr Ld Od.
    - exists m0. split; [reflexivity|]. split; [exact Or|]. split; [exact Fr|]. destruct Od as (k0 & s0 & B0 & K0 & _). cbn in B0. injection B0 as <-. eauto.
    - cbn [length seq] in Eis. injection Eis as Ei Eis. subst i. cbn [reserve_loop].
      destruct (nth_error l (off + j)) as [v|] eqn:Ev. 2:{ apply nth_error_None in Ev. unfold off in Ev. cbn [length] in Lis. lia. }
      unfold index. rewrite (load_ok _ _ _ _ _ Or Ev). cbn [rbind]. destruct Od as (k0 & s0 & B0 & K0 & Lk & L0 & Z0 & D0 & Le0 & N0). cbn [buf cap data size] in *. injection B0 as <-.
      unfold construct. rewrite K0. assert (Hj : j < c) by (cbn [length] in Lis; lia). pose proof (N0 j Hj) as Nj. unfold address in Nj. cbn [cap data] in Nj. destruct (Nat.leb_spec c (0 + j)); [lia|]. cbn [Nat.add] in Nj. rewrite Nj.
      destruct (nth_error dn j) eqn:Q; [assert (j < length dn) by (apply nth_error_Some; congruence); lia|]. cbn [rbind].
      apply (IH (S j) _ (dn ++ [v])); auto.
      + cbn [length] in Lis. lia.
      + eapply owns_frame; [exact Or|cbn; lia|]. cbn [blocks]. intros k' Hk'. apply upd_neq. assert (k' = k) by congruence. lia.
      + rewrite app_length. cbn. lia.
      + exists (fresh m), (set_nth s0 j (Some v)). cbn [buf cap data size blocks fresh]. split; [reflexivity|]. split; [apply upd_eq|]. split; [lia|]. split; [rewrite set_nth_length; exact L0|]. split; [cbn; rewrite app_length; cbn; lia|]. split; [exact D0|]. split; [cbn in *; rewrite app_length; cbn; cbn [length] in Lis; lia|].
        intros i Hi. cbn [cap] in Hi. specialize (N0 i Hi). unfold address in *. cbn [cap data] in *. destruct (Nat.leb_spec c (0 + i)); [lia|]. cbn [Nat.add] in *.
        destruct (Nat.eq_dec i j) as [->|Nij]; [rewrite nth_error_set_nth_eq by lia; rewrite nth_error_app2 by lia; replace (j - length dn) with 0 by lia; reflexivity|].
        rewrite nth_error_set_nth_neq by lia. rewrite N0. f_equal. rewrite nth_error_snoc. destruct (Nat.eqb_spec i (length dn)); [lia|reflexivity]. }
  destruct (Gen (seq 0 n) 0 m1 []) as (m' & E & O' & F' & s' & S'); auto.
  - now rewrite seq_length.
  - rewrite seq_length. lia.
  - exists (fresh m), (repeat None c). split; [reflexivity|]. split; [exact Ab|]. split; [cbn; lia|]. apply (rep_fresh c (Some (fresh m)) Hc0).
  - exists m', s'. auto.
Qed.
End RingThrow.

(** ** Examples: a ring of two elements, and the constructors of the third *)
Definition demo : res (memory nat * rv) :=
  let* (m, r) := new_ring {| blocks := fun _ => None; fresh := 0 |} 3 in let* (m, r) := push_back m r 7 in push_back m r 8.
Example ring_throw_example : exists m r, demo = Ok (m, r) /\ owns m r [7; 8] /\
  (let* (m1, r1) := push_back_throws m r in free m1 r1) = UB /\ (let* (m1, r1) := push_front_throws m r in free m1 r1) = UB /\
  (exists m1 r1, free m r = Ok (m1, r1)).
Proof.
  eexists _, _. split; [reflexivity|]. split; [|split; [reflexivity|split; [reflexivity|eexists _, _; reflexivity]]].
  eexists 0, _. split; [reflexivity|]. split; [reflexivity|]. split; [cbn; lia|]. split; [reflexivity|]. split; [reflexivity|]. split; [cbn; lia|]. split; [cbn; lia|].
  intros i H. cbn in H. do 3 (destruct i as [|i]; [reflexivity|]). lia.
Qed.
Example ring_reserve_throw_example : exists m r m1, demo = Ok (m, r) /\ reserve_throws m r 5 1 = Ok m1 /\ blocks m1 1 = Some [Some 7; None; None; None; None] /\ to_list m1 r = Ok [7; 8].
Proof. eexists _, _, _. repeat split. Qed.
Example ring_copy_throw_example : exists m r m1, demo = Ok (m, r) /\ copy_ctor_throws m r 1 = Ok m1 /\ blocks m1 1 = Some [Some 7; None; None].
Proof. eexists _, _, _. repeat split. Qed.
