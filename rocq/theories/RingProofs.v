(** Proofs about the ring model. *)
From Verif Require Import Common RingModel RingSpec.
From Coq Require Import ZifyBool ZifyNat.
Local Arguments Nat.eqb : simpl nomatch.
Local Arguments Nat.leb : simpl nomatch.
Local Arguments Nat.sub : simpl nomatch.

Section Proofs.
Context {T : Type}.
Implicit Types (m : memory T) (r : rv) (l : list T).

Ltac inv H := inversion H; subst; clear H.

(** The physical slots, read from [data] on and wrapping around, are the logical
    contents followed by raw slots. *)
Definition rep (s : slots) r l : Prop :=
  length s = cap r /\ size r = length l /\ data r < cap r /\ length l <= cap r /\
  forall i, i < cap r -> nth_error s (address r i) = Some (nth_error l i).

Definition owns m r l : Prop :=
  exists k s, buf r = Some k /\ blocks m k = Some s /\ k < fresh m /\ rep s r l.

(** Nothing changes outside the ring's own block. *)
Definition frame m r m' : Prop :=
  fresh m' = fresh m /\ forall k, buf r <> Some k -> blocks m' k = blocks m k.

Lemma frame_refl m r : frame m r m.
Proof. split; auto. Qed.

Lemma frame_trans m r m1 r1 m2 :
  buf r1 = buf r -> frame m r m1 -> frame m1 r1 m2 -> frame m r m2.
Proof. intros Hb [F1 G1] [F2 G2]; split; [congruence|]. intros k Hk. rewrite G2; [apply G1; auto|congruence]. Qed.

Lemma address_lt r i : data r < cap r -> i < cap r -> address r i < cap r.
Proof. unfold address; intros; destruct (cap r <=? data r + i) eqn:E; lia. Qed.

Lemma address_inj r i j :
  data r < cap r -> i < cap r -> j < cap r -> address r i = address r j -> i = j.
Proof. unfold address; intros; destruct (cap r <=? data r + i) eqn:E1; destruct (cap r <=? data r + j) eqn:E2; lia. Qed.

Lemma load_ok m r l i v : owns m r l -> nth_error l i = Some v -> load m (buf r) (address r i) = Ok v.
Proof.
  intros (k & s & Hb & Hs & _ & Hl & Hz & Hd & Hle & Hn) Hv. unfold load. rewrite Hb, Hs.
  assert (i < length l) by (apply nth_error_Some; congruence).
  rewrite Hn by lia. rewrite Hv. reflexivity.
Qed.

Lemma data_address r : data r < cap r -> data r = address r 0.
Proof. unfold address; intros; destruct (cap r <=? data r + 0) eqn:E; lia. Qed.

(** Destroying logical element [i]. *)
Lemma destroy_ok m r l i v p :
  owns m r l -> nth_error l i = Some v -> p = address r i ->
  exists k s, buf r = Some k /\ blocks m k = Some s /\ rep s r l /\ k < fresh m /\
    destroy m (buf r) p =
      Ok {| blocks := upd (blocks m) k (Some (set_nth s p None)); fresh := fresh m |}.
Proof.
  intros (k & s & Hb & Hs & Hk & R) Hv ->. exists k, s. repeat split; auto; try apply R.
  destruct R as (Hl & Hz & Hd & Hle & Hn).
  assert (i < length l) by (apply nth_error_Some; congruence).
  unfold destroy. rewrite Hb, Hs, Hn, Hv by lia. reflexivity.
Qed.

Lemma nth_error_snoc (l : list T) x i :
  nth_error (l ++ [x]) i = if i =? length l then Some x else nth_error l i.
Proof.
  destruct (Nat.eqb_spec i (length l)) as [->|H].
  - rewrite nth_error_app2 by lia. rewrite Nat.sub_diag. reflexivity.
  - destruct (Nat.lt_ge_cases i (length l)).
    + now rewrite nth_error_app1.
    + rewrite nth_error_app2 by lia. assert (nth_error l i = None) as -> by (apply nth_error_None; lia).
      destruct (i - length l) as [|n] eqn:E; [lia|]. simpl. now destruct n.
Qed.

Lemma nth_error_tl (l : list T) i : nth_error (tl l) i = nth_error l (S i).
Proof. destruct l; simpl; [now destruct i|reflexivity]. Qed.

Lemma removelast_length (l : list T) : length (removelast l) = length l - 1.
Proof.
  induction l as [|x l IH]; [reflexivity|]. simpl. destruct l as [|y l]; [reflexivity|].
  simpl in *. rewrite IH. lia.
Qed.

Lemma nth_error_removelast (l : list T) i :
  nth_error (removelast l) i = if S i =? length l then None else nth_error l i.
Proof.
  revert i; induction l as [|x l IH]; intros i; [destruct i; reflexivity|].
  simpl. destruct l as [|y l].
  - simpl. destruct i as [|i]; simpl; [reflexivity|]. now destruct i.
  - destruct i as [|i]; [reflexivity|]. simpl nth_error at 1. rewrite IH. reflexivity.
Qed.

Lemma owns_facts m r l : owns m r l -> size r = length l /\ data r < cap r /\ length l <= cap r.
Proof. intros (k & s & _ & _ & _ & Hl & Hz & Hd & Hle & _); auto. Qed.

(** Constructing into a raw slot. *)
Lemma construct_at m k s p v :
  blocks m k = Some s -> nth_error s p = Some None ->
  construct m (Some k) p v =
    Ok {| blocks := upd (blocks m) k (Some (set_nth s p (Some v))); fresh := fresh m |}.
Proof. intros Hs Hp; unfold construct; rewrite Hs, Hp; reflexivity. Qed.

Lemma set_nth_twice {A} (s : list A) p a b : set_nth (set_nth s p a) p b = set_nth s p b.
Proof. revert p; induction s as [|x s IH]; intros [|p]; simpl; auto. now rewrite IH. Qed.

Definition op_ok m r (l' : list T) (x : res (memory T * rv)) : Prop :=
  exists m' r', x = Ok (m', r') /\ buf r' = buf r /\ cap r' = cap r /\ owns m' r' l' /\ frame m r m'.

Lemma push_back_gen m r l v (get : memory T -> res T) :
  owns m r l ->
  (forall m1 r1 p, allocate_next m r = Ok (m1, r1, p) -> get m1 = Ok v) ->
  op_ok m r (bd_push_back (cap r) l v)
    (let* (m1, r1, p) := allocate_next m r in
     let* v := get m1 in
     let* m2 := construct m1 (buf r1) p v in Ok (m2, r1)).
Proof.
  intros Ho Hget. pose proof (owns_facts _ _ _ Ho) as (Hz & Hd & Hle).
  unfold allocate_next in *. unfold full, data_end in *. destruct (size r =? cap r) eqn:F.
  - (* full: the front is dropped *)
    destruct l as [|x l]; [simpl in *; lia|].
    destruct (destroy_ok m r (x :: l) 0 x (data r) Ho eq_refl (data_address _ Hd))
      as (k & s & Hb & Hs & R & Hk & E). rewrite E in *. cbn [rbind buf data size cap with_data with_size] in *.
    specialize (Hget _ _ _ eq_refl). rewrite Hget. cbn [rbind buf data size cap with_data with_size].
    destruct R as (Hl & _ & _ & _ & Hn).
    assert (Ha : address r (size r) = data r).
    { unfold address. destruct (cap r <=? data r + size r) eqn:Q; lia. }
    rewrite Ha, Hb.
    erewrite construct_at; [|simpl; apply upd_eq|apply nth_error_set_nth_eq; lia]. cbn [rbind buf data size cap with_data with_size].
    eexists _, _. split; [reflexivity|]. simpl. rewrite Hb. repeat split; auto.
    2:{ simpl. intros k' Hk'. rewrite !upd_neq by congruence. reflexivity. }
    exists k, (set_nth s (data r) (Some v)). simpl. rewrite upd_eq, set_nth_twice.
    repeat split; auto.
    + simpl. now rewrite set_nth_length.
    + simpl. unfold bd_push_back. simpl in Hz, Hle. simpl length. simpl tl.
      destruct (S (length l) <? cap r) eqn:Q; [lia|]. rewrite app_length; simpl; lia.
    + simpl. unfold next. destruct (S (data r) =? cap r) eqn:Q; lia.
    + simpl. unfold bd_push_back. simpl in Hz, Hle. simpl length. simpl tl.
      destruct (S (length l) <? cap r) eqn:Q; [lia|]. rewrite app_length; simpl; lia.
    + simpl. intros i Hi. unfold bd_push_back. simpl in Hz, Hle. simpl length. simpl tl.
      destruct (S (length l) <? cap r) eqn:Q; [lia|].
      rewrite nth_error_snoc.
      assert (HA : address (with_data r (next r (data r))) i =
                   if i =? length l then data r else address r (S i)).
      { unfold address, with_data, next; simpl.
        destruct (S (data r) =? cap r) eqn:Q1; destruct (i =? length l) eqn:Q2;
          destruct (cap r <=? data r + S i) eqn:Q3; simpl;
          try destruct (cap r <=? 0 + i) eqn:Q4;
          try destruct (cap r <=? S (data r + i)) eqn:Q5;
          try destruct (cap r <=? i) eqn:Q6; lia. }
      rewrite HA. destruct (i =? length l) eqn:Q2.
      * apply nth_error_set_nth_eq. lia.
      * rewrite nth_error_set_nth_neq. rewrite Hn by lia. reflexivity.
        intros HH. rewrite (data_address r Hd) in HH.
        apply address_inj in HH; lia.
  - (* not full *)
    specialize (Hget _ _ _ eq_refl). cbn [rbind buf data size cap with_data with_size]. rewrite Hget. cbn [rbind buf data size cap with_data with_size].
    destruct Ho as (k & s & Hb & Hs & Hk & Hl & _ & _ & _ & Hn).
    rewrite Hb. erewrite construct_at; [|exact Hs|].
    2:{ rewrite Hn by lia. f_equal. apply nth_error_None. lia. }
    cbn [rbind buf data size cap with_data with_size]. eexists _, _. split; [reflexivity|]. simpl. repeat split; auto.
    2:{ simpl. intros k' Hk'. rewrite !upd_neq by congruence. reflexivity. }
    eexists k, _. simpl. rewrite upd_eq. rewrite Hb. split; [reflexivity|]. split; [reflexivity|].
    split; auto. unfold bd_push_back. destruct (length l <? cap r) eqn:Q; [|lia].
    repeat split; simpl; auto.
    + now rewrite set_nth_length.
    + rewrite app_length; simpl; lia.
    + rewrite app_length; simpl; lia.
    + intros i Hi. change (address (with_size r (S (size r))) i) with (address r i).
      rewrite nth_error_snoc. destruct (i =? length l) eqn:Q2.
      * replace i with (size r) by lia. apply nth_error_set_nth_eq. rewrite Hl. apply address_lt; lia.
      * rewrite nth_error_set_nth_neq; [apply Hn; auto|]. intros HH. apply address_inj in HH; lia.
Qed.

Lemma push_back_ok m r l v : owns m r l -> op_ok m r (bd_push_back (cap r) l v) (push_back m r v).
Proof.
  intros Ho. pose proof (push_back_gen m r l v (fun _ => Ok v) Ho (fun _ _ _ _ => eq_refl)) as H.
  unfold push_back. destruct (allocate_next m r) as [[[m1 r1] p]|e|]; exact H.
Qed.

Lemma push_front_gen m r l v (get : memory T -> res T) :
  owns m r l ->
  (forall m1 r1 p, allocate_prev m r = Ok (m1, r1, p) -> get m1 = Ok v) ->
  op_ok m r (bd_push_front (cap r) l v)
    (let* (m1, r1, p) := allocate_prev m r in
     let* v := get m1 in
     let* m2 := construct m1 (buf r1) p v in Ok (m2, r1)).
Proof.
  intros Ho Hget. pose proof (owns_facts _ _ _ Ho) as (Hz & Hd & Hle).
  unfold allocate_prev in *. unfold full in *.
  assert (Hp : prev r (data r) = if data r =? 0 then cap r - 1 else data r - 1)
    by (unfold prev; destruct (data r =? 0); lia).
  assert (HpL : prev r (data r) < cap r) by (rewrite Hp; destruct (data r =? 0) eqn:?; lia).
  assert (Hpa : prev r (data r) = address r (cap r - 1)).
  { rewrite Hp. unfold address. destruct (data r =? 0) eqn:Q1; destruct (cap r <=? data r + (cap r - 1)) eqn:Q2; lia. }
  assert (HA : forall i, i < cap r -> address (with_data r (prev r (data r))) (S i) = address r i \/ S i = cap r).
  { intros i Hi. destruct (Nat.eq_dec (S i) (cap r)); [auto|left].
    unfold address, with_data; simpl. rewrite Hp.
    destruct (data r =? 0) eqn:Q1;
      [destruct (cap r <=? cap r - 1 + S i) eqn:Q2|destruct (cap r <=? data r - 1 + S i) eqn:Q2];
      destruct (cap r <=? data r + i) eqn:Q3; lia. }
  assert (HA0 : address (with_data r (prev r (data r))) 0 = prev r (data r)).
  { unfold address, with_data; simpl. destruct (cap r <=? prev r (data r) + 0) eqn:Q; lia. }
  destruct (size r =? cap r) eqn:F.
  - destruct (nth_error l (cap r - 1)) as [x|] eqn:Ex; [|apply nth_error_None in Ex; lia].
    destruct (destroy_ok m r l (cap r - 1) x _ Ho Ex Hpa)
      as (k & s & Hb & Hs & R & Hk & E).
    cbn [buf data with_data] in *. rewrite E in *. cbn [rbind buf data size cap with_data with_size] in *.
    specialize (Hget _ _ _ eq_refl). rewrite Hget. cbn [rbind buf data size cap with_data with_size].
    destruct R as (Hl & _ & _ & _ & Hn).
    rewrite Hb.
    erewrite construct_at; [|simpl; apply upd_eq|apply nth_error_set_nth_eq; lia]. cbn [rbind buf data size cap with_data with_size].
    eexists _, _. split; [reflexivity|]. simpl. rewrite Hb. repeat split; auto.
    2:{ simpl. intros k' Hk'. rewrite !upd_neq by congruence. reflexivity. }
    exists k, (set_nth s (prev r (data r)) (Some v)). simpl. rewrite upd_eq, set_nth_twice.
    unfold bd_push_front. destruct (length l <? cap r) eqn:Q; [lia|].
    assert (HL : length (v :: removelast l) = cap r) by (simpl; rewrite removelast_length; lia).
    repeat split; auto; cbn [cap data size with_data]; try lia.
    + now rewrite set_nth_length.
    + intros i Hi. destruct i as [|i].
      * rewrite HA0. simpl. apply nth_error_set_nth_eq. lia.
      * simpl nth_error at 2. rewrite nth_error_removelast.
        destruct (S i =? length l) eqn:Q2; [lia|].
        destruct (HA i ltac:(lia)) as [HA'|]; [|lia].
        rewrite HA', nth_error_set_nth_neq; [apply Hn; lia|].
        intros HH. rewrite Hpa in HH. apply address_inj in HH; lia.
  - cbn [buf data with_data with_size size] in *.
    specialize (Hget _ _ _ eq_refl). cbn [rbind buf data size cap with_data with_size]. rewrite Hget. cbn [rbind buf data size cap with_data with_size].
    destruct Ho as (k & s & Hb & Hs & Hk & Hl & _ & _ & _ & Hn).
    rewrite Hb. erewrite construct_at; [|exact Hs|].
    2:{ rewrite Hpa, Hn by lia. f_equal. apply nth_error_None. lia. }
    cbn [rbind buf data size cap with_data with_size]. eexists _, _. split; [reflexivity|]. simpl. repeat split; auto.
    2:{ simpl. intros k' Hk'. rewrite !upd_neq by congruence. reflexivity. }
    eexists k, _. simpl. rewrite upd_eq. rewrite Hb. split; [reflexivity|]. split; [reflexivity|].
    split; auto. unfold bd_push_front. destruct (length l <? cap r) eqn:Q; [|lia].
    repeat split; simpl; auto; try lia.
    + now rewrite set_nth_length.
    + intros i Hi.
      change (address (with_size (with_data r (prev r (data r))) (S (size r))) i)
        with (address (with_data r (prev r (data r))) i).
      destruct i as [|i].
      * rewrite HA0. simpl. apply nth_error_set_nth_eq. lia.
      * simpl nth_error at 2.
        destruct (HA i ltac:(lia)) as [HA'|].
        -- rewrite HA', nth_error_set_nth_neq; [apply Hn; lia|].
           intros HH. rewrite Hpa in HH. apply address_inj in HH; lia.
        -- lia.
Qed.

Lemma push_front_ok m r l v : owns m r l -> op_ok m r (bd_push_front (cap r) l v) (push_front m r v).
Proof.
  intros Ho. pose proof (push_front_gen m r l v (fun _ => Ok v) Ho (fun _ _ _ _ => eq_refl)) as H.
  unfold push_front. destruct (allocate_prev m r) as [[[m1 r1] p]|e|]; exact H.
Qed.

Lemma load_after_destroy m k s p q v :
  blocks m k = Some s -> nth_error s q = Some (Some v) -> p <> q ->
  load {| blocks := upd (blocks m) k (Some (set_nth s p None)); fresh := fresh m |} (Some k) q = Ok v.
Proof.
  intros Hs Hq Hne. unfold load; simpl. rewrite upd_eq, nth_error_set_nth_neq by auto. now rewrite Hq.
Qed.

Lemma push_back_own_ok m r l i v :
  owns m r l -> nth_error l i = Some v -> (length l < cap r \/ i <> 0) ->
  op_ok m r (bd_push_back (cap r) l v) (push_back_own m r i).
Proof.
  intros Ho Hi Hc. unfold push_back_own.
  apply (push_back_gen m r l v (fun m1 => load m1 (buf r) (address r i)) Ho).
  intros m1 r1 p Ha. unfold allocate_next in Ha. destruct (full r) eqn:F.
  - pose proof (owns_facts _ _ _ Ho) as (Hz & Hd & Hle). unfold full in F.
    destruct l as [|x l]; [destruct i; discriminate|].
    destruct (destroy_ok m r (x :: l) 0 x (data r) Ho eq_refl (data_address _ Hd))
      as (k & s & Hb & Hs & R & Hk & E). rewrite E in Ha. simpl in Ha. inversion Ha; subst.
    rewrite Hb. destruct R as (Hl & _ & _ & _ & Hn).
    assert (i < length (x :: l)) by (apply nth_error_Some; congruence).
    eapply load_after_destroy; eauto.
    + rewrite Hn by lia. now rewrite Hi.
    + intros HH. rewrite (data_address r Hd) in HH. apply address_inj in HH; simpl in *; lia.
  - inversion Ha; subst. now apply load_ok with l.
Qed.

Lemma push_front_own_ok m r l i v :
  owns m r l -> nth_error l i = Some v -> (length l < cap r \/ S i <> length l) ->
  op_ok m r (bd_push_front (cap r) l v) (push_front_own m r i).
Proof.
  intros Ho Hi Hc. unfold push_front_own.
  apply (push_front_gen m r l v (fun m1 => load m1 (buf r) (address r i)) Ho).
  intros m1 r1 p Ha. unfold allocate_prev in Ha. destruct (full r) eqn:F.
  - pose proof (owns_facts _ _ _ Ho) as (Hz & Hd & Hle). unfold full in F.
    assert (Hpa : prev r (data r) = address r (cap r - 1)).
    { unfold prev, address. destruct (data r =? 0) eqn:Q1; destruct (cap r <=? data r + (cap r - 1)) eqn:Q2; lia. }
    destruct (nth_error l (cap r - 1)) as [x|] eqn:Ex; [|apply nth_error_None in Ex; lia].
    destruct (destroy_ok m r l (cap r - 1) x _ Ho Ex Hpa) as (k & s & Hb & Hs & R & Hk & E).
    cbn [buf data with_data] in Ha. rewrite E in Ha. simpl in Ha. inversion Ha; subst.
    rewrite Hb. destruct R as (Hl & _ & _ & _ & Hn).
    assert (i < length l) by (apply nth_error_Some; congruence).
    eapply load_after_destroy; eauto.
    + rewrite Hn by lia. now rewrite Hi.
    + intros HH. rewrite Hpa in HH. apply address_inj in HH; simpl in *; lia.
  - inversion Ha; subst. now apply load_ok with l.
Qed.

Lemma pop_front_ok m r x l : owns m r (x :: l) -> op_ok m r l (pop_front m r).
Proof.
  intros Ho. pose proof (owns_facts _ _ _ Ho) as (Hz & Hd & Hle). unfold pop_front, empty.
  simpl in Hz, Hle. destruct (size r =? 0) eqn:Q; [lia|]. simpl.
  destruct (destroy_ok m r (x :: l) 0 x (data r) Ho eq_refl (data_address _ Hd))
    as (k & s & Hb & Hs & R & Hk & E). rewrite E. simpl.
  destruct R as (Hl & _ & _ & _ & Hn).
  eexists _, _. split; [reflexivity|]. simpl. repeat split; auto.
  2:{ simpl. intros k' Hk'. rewrite !upd_neq by congruence. reflexivity. }
  exists k, (set_nth s (data r) None). simpl. rewrite upd_eq. repeat split; auto; simpl; try lia.
  + now rewrite set_nth_length.
  + unfold next. destruct (S (data r) =? cap r) eqn:Q2; lia.
  + intros i Hi.
    assert (HA : address (with_size (with_data r (next r (data r))) (size r - 1)) i =
                   if S i =? cap r then data r else address r (S i)).
    { unfold address, with_data, next; simpl.
      destruct (S (data r) =? cap r) eqn:Q1; destruct (S i =? cap r) eqn:Q2;
        destruct (cap r <=? data r + S i) eqn:Q3; simpl;
        try destruct (cap r <=? S (data r + i)) eqn:Q5;
        try destruct (cap r <=? i) eqn:Q6; lia. }
    rewrite HA. destruct (S i =? cap r) eqn:Q2.
    * rewrite nth_error_set_nth_eq by lia. f_equal. symmetry. apply nth_error_None. lia.
    * rewrite nth_error_set_nth_neq. rewrite Hn by lia. reflexivity.
      intros HH. rewrite (data_address r Hd) in HH. apply address_inj in HH; lia.
Qed.

Lemma pop_back_ok m r l : owns m r l -> l <> [] -> op_ok m r (removelast l) (pop_back m r).
Proof.
  intros Ho Hne. pose proof (owns_facts _ _ _ Ho) as (Hz & Hd & Hle). unfold pop_back, empty, last_addr.
  destruct l as [|y l']; [congruence|]. clear Hne. remember (y :: l') as l. assert (0 < length l) by (subst; simpl; lia).
  destruct (size r =? 0) eqn:Q; [lia|]. simpl.
  destruct (nth_error l (size r - 1)) as [x|] eqn:Ex; [|apply nth_error_None in Ex; lia].
  destruct (destroy_ok m r l (size r - 1) x _ Ho Ex eq_refl)
    as (k & s & Hb & Hs & R & Hk & E). rewrite E. simpl.
  destruct R as (Hl & _ & _ & _ & Hn).
  eexists _, _. split; [reflexivity|]. simpl. repeat split; auto.
  2:{ simpl. intros k' Hk'. rewrite !upd_neq by congruence. reflexivity. }
  exists k, (set_nth s (address r (size r - 1)) None). simpl. rewrite upd_eq.
  pose proof (removelast_length l).
  repeat split; auto; simpl; try lia.
  + now rewrite set_nth_length.
  + intros i Hi. change (address (with_size r (size r - 1)) i) with (address r i).
    rewrite nth_error_removelast. destruct (S i =? length l) eqn:Q2.
    * replace i with (size r - 1) by lia. apply nth_error_set_nth_eq. rewrite Hl. apply address_lt; lia.
    * rewrite nth_error_set_nth_neq. apply Hn; lia.
      intros HH. apply address_inj in HH; lia.
Qed.

Lemma clear_loop_ok l : forall m r, owns m r l -> op_ok m r [] (clear_loop (length l) m r).
Proof.
  induction l as [|x l IH]; intros m r Ho; pose proof (owns_facts _ _ _ Ho) as (Hz & Hd & Hle); simpl in Hz.
  - simpl. unfold empty. rewrite Hz. simpl. exists m, r. repeat split; auto using frame_refl.
  - simpl length. simpl clear_loop. unfold empty. rewrite Hz. simpl.
    destruct (pop_front_ok _ _ _ _ Ho) as (m1 & r1 & E & Hb & Hc & Ho1 & F1). rewrite E. simpl.
    destruct (IH _ _ Ho1) as (m2 & r2 & E2 & Hb2 & Hc2 & Ho2 & F2).
    exists m2, r2. repeat split; try congruence; try apply Ho2.
    + destruct F1, F2; congruence.
    + intros k Hk. destruct F1 as [_ F1], F2 as [_ F2]. rewrite F2 by congruence. now apply F1.
Qed.

Lemma nil_all_raw (s : slots) r : rep s r [] -> forall i, i < cap r -> nth_error s i = Some None.
Proof.
  intros (Hl & Hz & Hd & Hle & Hn) i Hi.
  destruct (Nat.lt_ge_cases i (data r)).
  - specialize (Hn (i + cap r - data r) ltac:(lia)). unfold address in Hn.
    destruct (cap r <=? data r + (i + cap r - data r)) eqn:Q; [|lia].
    replace (data r + (i + cap r - data r) - cap r) with i in Hn by lia. rewrite Hn.
    now destruct (i + cap r - data r).
  - specialize (Hn (i - data r) ltac:(lia)). unfold address in Hn.
    destruct (cap r <=? data r + (i - data r)) eqn:Q; [lia|].
    replace (data r + (i - data r)) with i in Hn by lia. rewrite Hn. now destruct (i - data r).
Qed.

Lemma rep_nil_at0 (s : slots) r b :
  rep s r [] -> rep s {| buf := b; cap := cap r; data := 0; size := 0 |} [].
Proof.
  intros R. pose proof (nil_all_raw _ _ R) as H. destruct R as (Hl & Hz & Hd & Hle & Hn).
  repeat split; simpl; auto; try lia. intros i Hi. unfold address; simpl.
  destruct (cap r <=? i) eqn:Q; [lia|]. rewrite H by lia. now destruct i.
Qed.

Lemma clear_ok m r l : owns m r l -> op_ok m r [] (clear m r).
Proof.
  intros Ho. pose proof (owns_facts _ _ _ Ho) as (Hz & _ & _). unfold clear.
  destruct (clear_loop_ok _ _ _ Ho) as (m1 & r1 & E & Hb & Hc & Ho1 & F1).
  destruct Ho as (k & s & Hbk & _). rewrite Hbk, Hz, E. simpl.
  exists m1, (with_size (with_data r1 0) 0). repeat split; auto; try apply F1.
  destruct Ho1 as (k1 & s1 & Hb1 & Hs1 & Hk1 & R1). exists k1, s1.
  repeat split; auto; destruct (rep_nil_at0 _ _ (buf r1) R1) as (A & B & C & D & E'); simpl in *; auto.
Qed.

Lemma all_raw_forallb (s : slots) :
  (forall i, i < length s -> nth_error s i = Some None) ->
  forallb (fun x : option T => match x with None => true | _ => false end) s = true.
Proof.
  induction s as [|x s IH]; intros H; [reflexivity|]. simpl.
  pose proof (H 0 ltac:(simpl; lia)) as H0. simpl in H0. injection H0 as ->. simpl.
  apply IH. intros i Hi. apply (H (S i)). simpl; lia.
Qed.

(** free() destroys all elements and releases the block. *)
Lemma free_ok m r l :
  owns m r l ->
  exists m' r', free m r = Ok (m', r') /\ buf r' = None /\ frame m r m' /\
    (forall k, buf r = Some k -> blocks m' k = None).
Proof.
  intros Ho. unfold free. destruct (clear_ok _ _ _ Ho) as (m1 & r1 & E & Hb & Hc & Ho1 & F1).
  destruct Ho as (k & s & Hbk & _). rewrite Hbk, E. simpl.
  destruct Ho1 as (k1 & s1 & Hb1 & Hs1 & Hk1 & R1).
  assert (k1 = k) by congruence. subst k1.
  unfold deallocate. rewrite Hs1.
  pose proof (nil_all_raw _ _ R1) as Hraw. destruct R1 as (Hl & _).
  rewrite Hl, Nat.eqb_refl, all_raw_forallb by (intros; apply Hraw; lia). simpl.
  eexists _, _. split; [reflexivity|]. simpl. repeat split; auto.
  - simpl. apply F1.
  - simpl. intros k' Hk'. rewrite upd_neq by congruence. now apply F1.
  - simpl. intros k' Hk'. injection Hk' as <-. apply upd_eq.
Qed.

Lemma iterate_ok m r l ps :
  owns m r l -> (forall p, In p ps -> p < length l) ->
  exists vs, iterate m r ps = Ok vs /\ map Some vs = map (nth_error l) ps.
Proof.
  intros Ho. induction ps as [|p ps IH]; intros Hp; [exists []; auto|].
  destruct IH as (vs & E & Hvs); [intros; apply Hp; simpl; auto|].
  destruct (nth_error l p) as [v|] eqn:Ev.
  - exists (v :: vs). simpl. erewrite load_ok by eauto. simpl. rewrite E. simpl. rewrite Ev, Hvs. auto.
  - apply nth_error_None in Ev. specialize (Hp p (or_introl eq_refl)). lia.
Qed.

Lemma map_nth_seq l n : map (nth_error l) (seq n (length l - n)) = map Some (skipn n l).
Proof.
  revert n; induction l as [|x l IH]; intros n; simpl.
  - destruct n; reflexivity.
  - destruct n as [|n]; simpl.
    + f_equal. rewrite <- seq_shift, map_map. simpl. specialize (IH 0). rewrite Nat.sub_0_r in IH.
      simpl in IH. rewrite <- IH. apply map_ext. reflexivity.
    + rewrite <- IH. rewrite <- seq_shift, map_map. apply map_ext. reflexivity.
Qed.

Lemma map_nth_seq0 l : map (nth_error l) (seq 0 (length l)) = map Some l.
Proof. pose proof (map_nth_seq l 0) as H. rewrite Nat.sub_0_r in H. exact H. Qed.

Lemma map_Some_inj (a b : list T) : map Some a = map Some b -> a = b.
Proof. revert b; induction a as [|x a IH]; intros [|y b] H; simpl in H; try discriminate; auto.
  inversion H; subst; f_equal; auto. Qed.

Lemma to_list_ok m r l : owns m r l -> to_list m r = Ok l.
Proof.
  intros Ho. pose proof (owns_facts _ _ _ Ho) as (Hz & _ & _). unfold to_list. rewrite Hz.
  destruct (iterate_ok m r l (seq 0 (length l)) Ho) as (vs & E & Hvs).
  { intros p Hp. apply in_seq in Hp. lia. }
  rewrite map_nth_seq0 in Hvs. apply map_Some_inj in Hvs. now subst.
Qed.

Lemma to_rlist_ok m r l : owns m r l -> to_rlist m r = Ok (rev l).
Proof.
  intros Ho. pose proof (owns_facts _ _ _ Ho) as (Hz & _ & _). unfold to_rlist. rewrite Hz.
  destruct (iterate_ok m r l (rev (seq 0 (length l))) Ho) as (vs & E & Hvs).
  { intros p Hp. apply in_rev in Hp. apply in_seq in Hp. lia. }
  rewrite map_rev, map_nth_seq0, <- map_rev in Hvs. apply map_Some_inj in Hvs. now subst.
Qed.

Lemma front_ok m r x l : owns m r (x :: l) -> front m r = Ok x.
Proof.
  intros Ho. pose proof (owns_facts _ _ _ Ho) as (Hz & Hd & _). unfold front, empty. rewrite Hz. simpl.
  rewrite (data_address r Hd). now apply load_ok with (x :: l).
Qed.

Lemma hd_error_rev l : hd_error (rev l) = nth_error l (length l - 1).
Proof.
  destruct l as [|x l] using rev_ind; [reflexivity|].
  rewrite rev_app_distr, app_length; simpl. rewrite nth_error_app2 by lia.
  replace (length l + 1 - 1 - length l) with 0 by lia. reflexivity.
Qed.

Lemma back_ok m r l v : owns m r l -> hd_error (rev l) = Some v -> back m r = Ok v.
Proof.
  intros Ho Hv. pose proof (owns_facts _ _ _ Ho) as (Hz & Hd & _). rewrite hd_error_rev in Hv.
  assert (length l - 1 < length l) by (apply nth_error_Some; congruence).
  unfold back, empty, last_addr. rewrite Hz. destruct (length l =? 0) eqn:Q; [lia|]. simpl.
  now apply load_ok with l.
Qed.

Lemma allocate_facts m c :
  blocks (fst (allocate m c)) (snd (allocate m c)) = Some (repeat None c) /\
  snd (allocate m c) = fresh m /\ fresh (fst (allocate m c)) = S (fresh m) /\
  forall k, k <> fresh m -> blocks (fst (allocate m c)) k = blocks m k.
Proof. simpl. repeat split. apply upd_eq. intros; now apply upd_neq. Qed.

Lemma rep_fresh c b : c <> 0 -> rep (repeat None c : slots) {| buf := b; cap := c; data := 0; size := 0 |} [].
Proof.
  intros Hc. repeat split; simpl; try lia. now rewrite repeat_length.
  intros i Hi. unfold address; simpl. destruct (c <=? i) eqn:Q; [lia|].
  rewrite nth_error_repeat by lia. now destruct i.
Qed.

Lemma owns_frame m m' r l :
  owns m r l -> fresh m <= fresh m' -> (forall k, buf r = Some k -> blocks m' k = blocks m k) -> owns m' r l.
Proof. intros (k & s & Hb & Hs & Hk & R) Hf H. exists k, s. repeat split; auto; try apply R; try lia.
  rewrite H; auto. Qed.

(** The copy loop appends the source's elements one by one. *)
Lemma copy_loop_ok ps : forall m r done src l,
  owns m src l -> owns m r done -> buf r <> buf src ->
  (forall p, In p ps -> p < length l) -> length done + length ps <= cap r ->
  exists vs m' r', map Some vs = map (nth_error l) ps /\
    copy_loop m r src ps = Ok (m', r') /\ buf r' = buf r /\ cap r' = cap r /\
    owns m' r' (done ++ vs) /\ frame m r m'.
Proof.
  induction ps as [|p ps IH]; intros m r dn src l Hs Hr Hne Hp Hc.
  - exists [], m, r. simpl. rewrite app_nil_r. repeat split; auto.
  - simpl. destruct (nth_error l p) as [v|] eqn:Ev.
    2:{ apply nth_error_None in Ev. specialize (Hp p (or_introl eq_refl)). lia. }
    erewrite load_ok by eauto. simpl.
    destruct (push_back_ok _ _ _ v Hr) as (m1 & r1 & E & Hb & Hcap & Ho & F). rewrite E. simpl.
    simpl in Hc. unfold bd_push_back in Ho. destruct (length dn <? cap r) eqn:Q; [|lia].
    destruct (IH m1 r1 (dn ++ [v]) src l) as (vs & m' & r' & Hvs & E' & Hb' & Hc' & Ho' & F'); auto.
    + destruct F as [F1 F2]. eapply owns_frame; eauto; try lia. intros k Hk. apply F2. congruence.
    + congruence.
    + intros q Hq. apply Hp; simpl; auto.
    + rewrite app_length; simpl. lia.
    + exists (v :: vs), m', r'. simpl. rewrite Hvs. repeat split; try congruence; auto.
      * rewrite <- app_assoc in Ho'. exact Ho'.
      * destruct F, F'; congruence.
      * intros k Hk. destruct F as [_ F], F' as [_ F']. rewrite F' by congruence. now apply F.
Qed.

Lemma copy_ok m src l :
  owns m src l ->
  exists m' r', copy m (Robj src) = Ok (m', r') /\ buf r' = Some (fresh m) /\ cap r' = cap src /\
    owns m' r' l /\ fresh m' = S (fresh m) /\ (forall k, k <> fresh m -> blocks m' k = blocks m k).
Proof.
  intros Ho. pose proof (owns_facts _ _ _ Ho) as (Hz & Hd & Hle).
  pose proof Ho as (k & s & Hb & Hs & Hk & R).
  destruct (allocate_facts m (cap src)) as (Ab & Ak & Af & Ao).
  unfold copy. destruct (allocate m (cap src)) as [m1 nb]. simpl in *. subst nb.
  destruct (copy_loop_ok (seq 0 (size src)) m1
              {| buf := Some (fresh m); cap := cap src; data := 0; size := 0 |} [] src l)
    as (vs & m' & r' & Hvs & E & Hb' & Hc' & Ho' & F).
  - eapply owns_frame; eauto; try lia. intros k' Hk'. apply Ao. assert (k' = k) by congruence. lia.
  - exists (fresh m), (repeat None (cap src)). repeat split; auto; try (apply rep_fresh; lia); simpl; lia.
  - simpl. rewrite Hb. intros HH. injection HH as HH. lia.
  - intros p Hp. apply in_seq in Hp. lia.
  - simpl. rewrite seq_length. lia.
  - simpl in *. exists m', r'. rewrite Hz, map_nth_seq0 in Hvs. apply map_Some_inj in Hvs. subst vs.
    destruct F as [F1 F2]. simpl in *. repeat split; auto; try congruence.
    intros k' Hk'. rewrite F2 by congruence. apply Ao; auto.
Qed.

(** reserve's moves. *)
Lemma reserve_loop_ok f0 r l nb c off : forall is dn m,
  owns m r l -> buf r <> Some nb ->
  owns m {| buf := Some nb; cap := c; data := 0; size := length dn |} dn ->
  is = seq (length dn) (length is) -> off + length dn + length is = length l ->
  dn = firstn (length dn) (skipn off l) -> length dn + length is <= c ->
  fresh m = f0 ->
  exists m', reserve_loop m r nb off is = Ok m' /\ fresh m' = fresh m /\
    (forall k, k <> nb -> blocks m' k = blocks m k) /\
    owns m' {| buf := Some nb; cap := c; data := 0; size := length l - off |} (skipn off l).
Proof.
  induction is as [|i is IH]; intros dn m Ho Hne Hn Hseq Hlen Hdn Hc Hf.
  - simpl in *. exists m. repeat split; auto.
    assert (Hdl : length dn = length l - off) by lia.
    rewrite Hdl in Hdn. rewrite <- skipn_length in Hdn. rewrite firstn_all in Hdn.
    rewrite <- Hdn. rewrite Hdl in Hn. exact Hn.
  - simpl in Hseq. injection Hseq as Hi Hseq. subst i.
    simpl in Hlen. cbn [reserve_loop]. unfold index.
    destruct (nth_error l (off + length dn)) as [v|] eqn:Ev; [|apply nth_error_None in Ev; lia].
    erewrite load_ok by eauto. cbn [rbind buf data size cap with_data with_size].
    pose proof Hn as (k & s & Hb & Hs & Hk & Hl & Hz & Hd & Hle & Hnn). simpl in Hb. injection Hb as <-.
    cbn [cap data size length] in *.
    assert (Hadr : forall q i, i < c -> address {| buf := Some nb; cap := c; data := 0; size := q |} i = i).
    { intros q i Hi. unfold address; simpl. destruct (c <=? i) eqn:Q; lia. }
    erewrite construct_at; [|exact Hs|].
    2:{ specialize (Hnn (length dn) ltac:(lia)). rewrite Hadr in Hnn by lia. rewrite Hnn. f_equal. apply nth_error_None; lia. }
    cbn [rbind buf data size cap with_data with_size].
    specialize (IH (dn ++ [v]) {| blocks := upd (blocks m) nb (Some (set_nth s (length dn) (Some v))); fresh := fresh m |}).
    destruct IH as (m' & E & F1 & F2 & O); auto.
    + eapply owns_frame; [exact Ho|simpl; lia|]. simpl. intros k' Hk'. apply upd_neq. congruence.
    + exists nb, (set_nth s (length dn) (Some v)). simpl. rewrite upd_eq, app_length. simpl.
      repeat split; simpl; try lia.
      * now rewrite set_nth_length.
      * now rewrite app_length; simpl.
      * rewrite app_length; simpl; lia.
      * intros i Hi. rewrite Hadr by lia. rewrite nth_error_snoc. destruct (i =? length dn) eqn:Q.
        -- replace i with (length dn) by lia. apply nth_error_set_nth_eq; lia.
        -- rewrite nth_error_set_nth_neq by lia. specialize (Hnn i Hi). rewrite Hadr in Hnn by lia. exact Hnn.
    + rewrite app_length; simpl. rewrite Nat.add_1_r. exact Hseq.
    + rewrite app_length; simpl; lia.
    + assert (nth_error (skipn off l) (length dn) = Some v) as Hx.
      { rewrite <- Ev. clear. revert l; induction off as [|o IHo]; intros l; simpl; auto.
        destruct l; simpl; auto. now destruct (length dn). }
      rewrite app_length; simpl. replace (length dn + 1) with (S (length dn)) by lia.
      assert (Hg : forall n (x : list T), nth_error x n = Some v -> firstn n x ++ [v] = firstn (S n) x).
      { clear. intros n; induction n as [|n IHn]; intros [|y x] Hx; simpl in *; try discriminate.
        - now injection Hx as ->.
        - f_equal. apply IHn, Hx. }
      rewrite <- (Hg _ _ Hx), <- Hdn. reflexivity.
    + rewrite app_length; simpl; lia.
    + exists m'. repeat split; auto. intros k' Hk'. rewrite F2 by auto. simpl. now apply upd_neq.
Qed.

Lemma lastn_skipn n l : lastn n l = skipn (length l - Nat.min n (length l)) l.
Proof.
  unfold lastn. destruct (Nat.le_ge_cases n (length l)).
  - now rewrite Nat.min_l.
  - rewrite Nat.min_r by lia. f_equal. lia.
Qed.

Lemma reserve_live_ok m r l c :
  owns m r l -> c <> 0 ->
  exists m', reserve m (Robj r) c =
      Ok (m', {| buf := Some (fresh m); cap := c; data := 0; size := length (lastn c l) |}) /\
    owns m' {| buf := Some (fresh m); cap := c; data := 0; size := length (lastn c l) |} (lastn c l) /\
    fresh m' = S (fresh m) /\
    (forall k, k <> fresh m -> buf r <> Some k -> blocks m' k = blocks m k) /\
    (forall k, buf r = Some k -> blocks m' k = None).
Proof.
  intros Ho Hc0. pose proof (owns_facts _ _ _ Ho) as (Hz & Hd & Hle).
  pose proof Ho as (k & s & Hb & Hs & Hk & R).
  destruct (allocate_facts m c) as (Ab & Ak & Af & Ao).
  unfold reserve. destruct (c =? 0) eqn:Q; [lia|]. simpl.
  unfold allocate in *. simpl in *. rewrite Hb, Hz.
  set (m1 := {| blocks := upd (blocks m) (fresh m) (Some (repeat None c)); fresh := S (fresh m) |}) in *.
  assert (Ho1 : owns m1 r l).
  { eapply owns_frame; [exact Ho|simpl; lia|]. intros k' Hk'. apply Ao. assert (k' = k) by congruence. lia. }
  pose proof (lastn_skipn c l) as HL.
  destruct (reserve_loop_ok (S (fresh m)) r l (fresh m) c (length l - Nat.min c (length l))
              (seq 0 (Nat.min c (length l))) [] m1) as (m2 & E & F1 & F2 & O2); auto.
  - rewrite Hb. intros HH. injection HH as HH. lia.
  - exists (fresh m), (repeat None c). split; [reflexivity|]. split; [exact Ab|]. split; [simpl; lia|].
    apply (rep_fresh c (Some (fresh m)) Hc0).
  - simpl. now rewrite seq_length.
  - simpl. rewrite seq_length. lia.
  - simpl. rewrite seq_length. lia.
  - rewrite E. cbn [rbind buf data size cap with_data with_size].
    assert (Ho2 : owns m2 r l).
    { eapply owns_frame; [exact Ho1|lia|]. intros k' Hk'. apply F2. assert (k' = k) by congruence. lia. }
    destruct (free_ok _ _ _ Ho2) as (m3 & r3 & E3 & _ & [G1 G2] & G3).
    rewrite E3. simpl.
    assert (HLl : Nat.min c (length l) = length (lastn c l)).
    { rewrite HL, skipn_length. lia. }
    rewrite <- HLl. exists m3. split; [reflexivity|].
    rewrite <- HL in O2. replace (length l - (length l - Nat.min c (length l))) with (Nat.min c (length l)) in O2 by lia.
    repeat split.
    + eapply owns_frame; [exact O2|lia|]. simpl. intros k' Hk'. injection Hk' as <-. apply G2.
      rewrite Hb. intros HH. injection HH as HH. lia.
    + rewrite G1, F1. reflexivity.
    + intros k' Hk1 Hk2. rewrite G2 by congruence. rewrite F2 by auto. apply Ao; auto.
    + intros k' Hk'. apply G3. congruence.
Qed.

(** operator== *)
Lemma eq_loop_ok (eqb : T -> T -> bool) m a b la lb :
  owns m a la -> owns m b lb -> length la = length lb ->
  forall n i, i + n = length la ->
  eq_loop eqb m a b (seq i n) = Ok (list_eqb eqb (skipn i la) (skipn i lb)).
Proof.
  intros Ha Hb Hl n. induction n as [|n IH]; intros i Hi; simpl.
  - rewrite !skipn_all2 by lia. reflexivity.
  - destruct (nth_error la i) as [x|] eqn:Ex; [|apply nth_error_None in Ex; lia].
    destruct (nth_error lb i) as [y|] eqn:Ey; [|apply nth_error_None in Ey; lia].
    rewrite (load_ok _ _ _ _ _ Ha Ex), (load_ok _ _ _ _ _ Hb Ey). simpl.
    assert (forall (l : list T) j z, nth_error l j = Some z -> skipn j l = z :: skipn (S j) l) as Hsk.
    { clear. intros l; induction l as [|w l IHl]; intros [|j] z Hz; simpl in *; try discriminate.
      - now injection Hz as ->.
      - apply IHl, Hz. }
    rewrite (Hsk la i x Ex), (Hsk lb i y Ey). cbn [list_eqb].
    destruct (eqb x y); simpl; [apply IH; lia|reflexivity].
Qed.

Lemma list_eqb_length (eqb : T -> T -> bool) a b : length a <> length b -> list_eqb eqb a b = false.
Proof.
  revert b; induction a as [|x a IH]; intros [|y b] H; simpl in *; try lia; auto.
  rewrite IH by lia. apply andb_false_r.
Qed.

Lemma equal_ok (eqb : T -> T -> bool) m a b la lb :
  owns m a la -> owns m b lb -> equal eqb m a b = Ok (list_eqb eqb la lb).
Proof.
  intros Ha Hb. pose proof (owns_facts _ _ _ Ha) as (Hza & _ & _). pose proof (owns_facts _ _ _ Hb) as (Hzb & _ & _).
  unfold equal. rewrite Hza, Hzb. destruct (length la =? length lb) eqn:Q.
  - rewrite (eq_loop_ok eqb m a b la lb Ha Hb ltac:(lia) (length la) 0 ltac:(lia)). reflexivity.
  - rewrite list_eqb_length by lia. reflexivity.
Qed.

(** ** Whole programs *)

Definition var_rel m (o : option robj) (s : svar T) : Prop :=
  match s with
  | SNone => o = None
  | SNull => exists b, o = Some b /\ obuf b = None
  | SLive c l => exists r, o = Some (Robj r) /\ cap r = c /\ owns m r l
  end.

(** Memory and variables correspond to the specification; the live blocks are
    exactly the buffers of the live variables (nothing leaks) and are not shared. *)
Record Rel (st : rstate) (e : senv T) : Prop := {
  rel_var : forall i, var_rel (fst st) (snd st i) (e i);
  rel_sep : forall i j r r' k, snd st i = Some (Robj r) -> snd st j = Some (Robj r') ->
            buf r = Some k -> buf r' = Some k -> i = j;
  rel_leak : forall k s, blocks (fst st) k = Some s ->
             exists i r, snd st i = Some (Robj r) /\ buf r = Some k;
  rel_fresh : forall k, fresh (fst st) <= k -> blocks (fst st) k = None
}.

Lemma Rel_init : Rel rinit sinit.
Proof. split; simpl; auto; discriminate. Qed.

Lemma var_rel_frame m m' o s :
  var_rel m o s -> fresh m <= fresh m' ->
  (forall r k, o = Some (Robj r) -> buf r = Some k -> blocks m' k = blocks m k) -> var_rel m' o s.
Proof.
  intros H Hf Hb. destruct s as [| |c l]; simpl in *; auto.
  destruct H as (r & Hr & Hc & Ho). exists r. repeat split; auto. eapply owns_frame; eauto.
Qed.

(** A mutation of live variable [i] within its own block keeps the relation. *)
Lemma Rel_mutate st e i c l l' f :
  Rel st e -> e i = SLive c l ->
  (forall r, snd st i = Some (Robj r) -> cap r = c -> owns (fst st) r l -> op_ok (fst st) r l' (f (fst st) r)) ->
  exists st', mutate st i f = Ok (st', VUnit) /\ Rel st' (upd e i (SLive c l')).
Proof.
  intros HR Hi Hf. pose proof (rel_var _ _ HR i) as Hv. rewrite Hi in Hv.
  destruct Hv as (r & Hr & Hc & Ho). destruct (Hf r Hr Hc Ho) as (m' & r' & E & Hb & Hc' & Ho' & F1 & F2).
  unfold mutate, with_var. rewrite Hr, E. simpl. eexists. split; [reflexivity|].
  split; simpl.
  - intros j. unfold upd. destruct (Nat.eqb_spec j i) as [->|Hj].
    + simpl. exists r'. repeat split; auto. congruence.
    + eapply var_rel_frame; [apply (rel_var _ _ HR)|lia|]. intros r2 k Hr2 Hk. apply F2.
      intros HH. apply Hj. eapply (rel_sep _ _ HR); eauto.
  - intros a b ra rb k Ha Hb2 Hka Hkb. unfold upd in *.
    destruct (Nat.eqb_spec a i), (Nat.eqb_spec b i); subst; auto.
    + injection Ha as <-. eapply (rel_sep _ _ HR); eauto. congruence.
    + injection Hb2 as <-. eapply (rel_sep _ _ HR); eauto. congruence.
    + eapply (rel_sep _ _ HR); eauto.
  - intros k s Hs.
    assert (Hdec : buf r = Some k \/ buf r <> Some k).
    { destruct (buf r) as [x|]; [destruct (Nat.eq_dec x k); [left; congruence|right; congruence]|right; congruence]. }
    destruct Hdec as [Hk|Hk].
    + exists i, r'. rewrite upd_eq. split; auto. congruence.
    + rewrite F2 in Hs by auto. destruct (rel_leak _ _ HR _ _ Hs) as (j & rj & Hj & Hkj).
      exists j, rj. rewrite upd_neq; auto. intros ->. rewrite Hr in Hj. injection Hj as <-. congruence.
  - intros k Hk. rewrite F1 in Hk. rewrite F2; [now apply (rel_fresh _ _ HR)|].
    destruct Ho as (k0 & s0 & Hb0 & _ & Hk0 & _). intros HH. assert (k0 = k) by congruence. lia.
Qed.

Lemma Rel_live st e i c l :
  Rel st e -> e i = SLive c l -> exists r, snd st i = Some (Robj r) /\ cap r = c /\ owns (fst st) r l.
Proof. intros HR Hi. pose proof (rel_var _ _ HR i) as Hv. rewrite Hi in Hv. exact Hv. Qed.

(** Introducing or replacing the value of variable [i] by a ring in a fresh block,
    after the old block of [i] (if any) has been freed. *)
Lemma Rel_install st e i m' r c l :
  Rel st e ->
  buf r = Some (fresh (fst st)) -> cap r = c -> owns m' r l ->
  fresh m' = S (fresh (fst st)) ->
  (forall k, k <> fresh (fst st) -> (forall ri, snd st i = Some (Robj ri) -> buf ri <> Some k) ->
     blocks m' k = blocks (fst st) k) ->
  (forall ri k, snd st i = Some (Robj ri) -> buf ri = Some k -> blocks m' k = None) ->
  Rel (m', upd (snd st) i (Some (Robj r))) (upd e i (SLive c l)).
Proof.
  intros HR Hb Hc Ho Hf Hother Hold.
  assert (Hlt : forall j rj k, snd st j = Some (Robj rj) -> buf rj = Some k -> k < fresh (fst st)).
  { intros j rj k Hj Hk. pose proof (rel_var _ _ HR j) as Hv. rewrite Hj in Hv. destruct (e j) as [| |cj lj]; simpl in Hv.
    - discriminate.
    - destruct Hv as (b & Hb' & Hn). injection Hb' as <-. simpl in Hn. congruence.
    - destruct Hv as (r0 & Hr0 & _ & (k0 & s0 & Hk0 & _ & Hlt & _)). injection Hr0 as <-. assert (k0 = k) by congruence. lia. }
  split; simpl.
  - intros j. unfold upd. destruct (Nat.eqb_spec j i) as [->|Hj].
    + simpl. exists r. repeat split; auto.
    + eapply var_rel_frame; [apply (rel_var _ _ HR)|lia|]. intros r2 k Hr2 Hk.
      apply Hother.
      * pose proof (Hlt _ _ _ Hr2 Hk). lia.
      * intros ri Hri HH. apply Hj. eapply (rel_sep _ _ HR); eauto.
  - intros a b ra rb k Ha Hb2 Hka Hkb. unfold upd in *.
    destruct (Nat.eqb_spec a i), (Nat.eqb_spec b i); subst; auto.
    + injection Ha as <-. pose proof (Hlt _ _ _ Hb2 Hkb). assert (k = fresh (fst st)) by congruence. lia.
    + injection Hb2 as <-. pose proof (Hlt _ _ _ Ha Hka). assert (k = fresh (fst st)) by congruence. lia.
    + eapply (rel_sep _ _ HR); eauto.
  - intros k s Hs. destruct (Nat.eq_dec k (fresh (fst st))) as [->|Hk].
    + exists i, r. rewrite upd_eq. auto.
    + assert (Hni : forall ri, snd st i = Some (Robj ri) -> buf ri <> Some k).
      { intros ri Hri HH. rewrite (Hold _ _ Hri HH) in Hs. discriminate. }
      rewrite Hother in Hs by auto. destruct (rel_leak _ _ HR _ _ Hs) as (j & rj & Hj & Hkj).
      exists j, rj. rewrite upd_neq; auto. intros ->. exact (Hni _ Hj Hkj).
  - intros k Hk. rewrite Hother; [apply (rel_fresh _ _ HR); lia|lia|].
    intros ri Hri HH. pose proof (Hlt _ _ _ Hri HH). lia.
Qed.

Lemma obuf_dec st e i o : Rel st e -> snd st i = Some o ->
  (e i = SNull /\ obuf o = None) \/ (exists c l r, e i = SLive c l /\ o = Robj r /\ cap r = c /\ owns (fst st) r l).
Proof.
  intros HR Hi. pose proof (rel_var _ _ HR i) as Hv. destruct (e i) as [| |c l]; simpl in Hv.
  - congruence.
  - left. destruct Hv as (b & Hb & Hn). split; congruence.
  - right. destruct Hv as (r & Hr & Hc & Ho). exists c, l, r. repeat split; auto. congruence.
Qed.

Lemma ofree_ok st e i o : Rel st e -> snd st i = Some o ->
  exists m1, ofree (fst st) o = Ok m1 /\ fresh m1 = fresh (fst st) /\
    (forall k, obuf o <> Some k -> blocks m1 k = blocks (fst st) k) /\
    (forall k, obuf o = Some k -> blocks m1 k = None).
Proof.
  intros HR Hi. destruct (obuf_dec _ _ _ _ HR Hi) as [[He Hn]|(c & l & r & He & -> & Hc & Ho)].
  - exists (fst st). destruct o as [|r]; simpl in *.
    + repeat split; auto; intros; discriminate.
    + unfold free. rewrite Hn. simpl. repeat split; auto; intros; congruence.
  - simpl. destruct (free_ok _ _ _ Ho) as (m1 & r1 & E & _ & [F1 F2] & F3). rewrite E. simpl.
    exists m1. repeat split; auto.
Qed.

Lemma load_frame m m' b p :
  (forall k, b = Some k -> blocks m' k = blocks m k) -> load m' b p = load m b p.
Proof. unfold load. destruct b as [k|]; auto. intros H. now rewrite H. Qed.

Variable eqb : T -> T -> bool.

Lemma upd_same {A} (f : nat -> A) i a : f i = a -> forall j, upd f i a j = f j.
Proof. intros H j. unfold upd. destruct (Nat.eqb_spec j i); congruence. Qed.

(** Only the pointwise values of the environments matter. *)
Lemma Rel_ext m en en' e e' :
  Rel (m, en) e -> (forall i, en' i = en i) -> (forall i, e' i = e i) -> Rel (m, en') e'.
Proof.
  intros HR H1 H2. destruct HR as [A B C D]; simpl in *. split; simpl.
  - intros i. rewrite H1, H2. apply A.
  - intros i j r r' k Hi Hj. rewrite H1 in Hi, Hj. eapply B; eauto.
  - intros k s Hs. destruct (C k s Hs) as (i & r & Hi & Hk). exists i, r. now rewrite H1.
  - exact D.
Qed.

Lemma Rel_mutate' st e i c l l' f v e' :
  Rel st e -> e i = SLive c l -> Some (upd e i (SLive c l'), VUnit) = Some (e', v) ->
  (forall r, snd st i = Some (Robj r) -> cap r = c -> owns (fst st) r l -> op_ok (fst st) r l' (f (fst st) r)) ->
  exists st', mutate st i f = Ok (st', v) /\ Rel st' e'.
Proof. intros HR Hi H Hf. injection H as <- <-. eapply Rel_mutate; eauto. Qed.

Lemma Rel_null m en e i o :
  Rel (m, en) e -> e i = SNone -> obuf o = None -> Rel (m, upd en i (Some o)) (upd e i SNull).
Proof.
  intros HR Hi Ho. pose proof (rel_var _ _ HR i) as Hv. rewrite Hi in Hv. simpl in Hv.
  split; simpl.
  - intros j. unfold upd. destruct (Nat.eqb_spec j i); [subst; simpl; eauto|apply (rel_var _ _ HR j)].
  - intros a b ra rb k Ha Hb Hka Hkb. unfold upd in *.
    destruct (Nat.eqb_spec a i), (Nat.eqb_spec b i); subst; auto.
    + injection Ha as ->. simpl in Ho. congruence.
    + injection Hb as ->. simpl in Ho. congruence.
    + eapply (rel_sep _ _ HR); simpl; eauto.
  - intros k s Hs. destruct (rel_leak _ _ HR _ _ Hs) as (j & rj & Hj & Hkj). simpl in Hj.
    exists j, rj. rewrite upd_neq; auto. intros ->. congruence.
  - apply (rel_fresh _ _ HR).
Qed.

(** Ending the life of variable [i]. *)
Lemma Rel_destroy st e i o :
  Rel st e -> snd st i = Some o ->
  exists m1, ofree (fst st) o = Ok m1 /\ Rel (m1, upd (snd st) i None) (upd e i SNone).
Proof.
  intros HR Hi. destruct (ofree_ok _ _ _ _ HR Hi) as (m1 & E & F1 & F2 & F3).
  exists m1. split; auto. split; simpl.
  - intros j. unfold upd. destruct (Nat.eqb_spec j i) as [->|Hj]; [reflexivity|].
    eapply var_rel_frame; [apply (rel_var _ _ HR)|lia|]. intros r k Hr Hk. apply F2.
    intros HH. destruct o as [|ro]; simpl in HH; [discriminate|]. apply Hj.
    eapply (rel_sep _ _ HR); eauto.
  - intros a b ra rb k Ha Hb Hka Hkb. unfold upd in *.
    destruct (Nat.eqb_spec a i), (Nat.eqb_spec b i); subst; auto; try discriminate.
    eapply (rel_sep _ _ HR); eauto.
  - intros k s Hs.
    assert (Hne : obuf o <> Some k) by (intros HH; rewrite F3 in Hs by auto; discriminate).
    rewrite F2 in Hs by auto. destruct (rel_leak _ _ HR _ _ Hs) as (j & rj & Hj & Hkj).
    exists j, rj. rewrite upd_neq; auto. intros ->. rewrite Hi in Hj. injection Hj as ->. simpl in Hne. congruence.
  - intros k Hk. rewrite F1 in Hk. pose proof (rel_fresh _ _ HR k Hk) as Hn.
    assert (Hdec : obuf o = Some k \/ obuf o <> Some k).
    { destruct (obuf o) as [x|]; [destruct (Nat.eq_dec x k); [left; congruence|right; congruence]|right; congruence]. }
    destruct Hdec as [H|H]; [auto|]. rewrite F2; auto.
Qed.

(** Moving the ring of variable [j] into the (dead) variable [i]. *)
Lemma Rel_move m en e i j c l r s :
  Rel (m, en) e -> e i = SNone -> e j = SLive c l -> en j = Some (Robj r) -> obuf s = None ->
  Rel (m, upd (upd en j (Some s)) i (Some (Robj r))) (upd (upd e j SNull) i (SLive c l)).
Proof.
  intros HR Hi Hj Hr Hs.
  assert (Hij : i <> j) by (intros ->; congruence).
  pose proof (rel_var _ _ HR i) as Hvi. rewrite Hi in Hvi. simpl in Hvi.
  pose proof (rel_var _ _ HR j) as Hvj. rewrite Hj in Hvj. simpl in Hvj.
  destruct Hvj as (r0 & Hr0 & Hc & Ho). rewrite Hr in Hr0. injection Hr0 as <-.
  split; simpl.
  - intros q. unfold upd. destruct (Nat.eqb_spec q i); [subst; simpl; eauto|].
    destruct (Nat.eqb_spec q j); [subst; simpl; eauto|]. apply (rel_var _ _ HR q).
  - intros a b ra rb k Ha Hb Hka Hkb.
    assert (Hx : forall a ra, upd (upd en j (Some s)) i (Some (Robj r)) a = Some (Robj ra) -> buf ra = Some k ->
              (a = i /\ ra = r) \/ (a <> i /\ a <> j /\ en a = Some (Robj ra))).
    { clear - Hs. intros a ra Ha Hk. unfold upd in Ha. destruct (Nat.eqb_spec a i).
      - left. split; auto. congruence.
      - right. destruct (Nat.eqb_spec a j); auto. injection Ha as ->. simpl in Hs. congruence. }
    destruct (Hx _ _ Ha Hka) as [[-> ->]|(A1 & A2 & A3)]; destruct (Hx _ _ Hb Hkb) as [[-> ->]|(B1 & B2 & B3)]; auto.
    + exfalso. apply B2. eapply (rel_sep _ _ HR); simpl; eauto.
    + exfalso. apply A2. eapply (rel_sep _ _ HR); simpl; eauto.
    + eapply (rel_sep _ _ HR); simpl; eauto.
  - intros k sl Hsl. destruct (rel_leak _ _ HR _ _ Hsl) as (q & rq & Hq & Hkq). simpl in Hq.
    destruct (Nat.eq_dec q j) as [->|Hqj].
    + exists i, rq. rewrite upd_eq. split; [congruence|auto].
    + exists q, rq. rewrite !upd_neq; auto. intros ->. congruence.
  - apply (rel_fresh _ _ HR).
Qed.

Lemma same_buf_refl b : same_buf b b = true.
Proof. destruct b; simpl; auto. apply Nat.eqb_refl. Qed.

Lemma same_buf_spec st e i j oi c l r :
  Rel st e -> i <> j -> snd st i = Some oi -> e j = SLive c l -> snd st j = Some (Robj r) ->
  same_buf (obuf oi) (buf r) = false.
Proof.
  intros HR Hij Hi Hj Hr. pose proof (Rel_live _ _ _ _ _ HR Hj) as (r0 & Hr0 & _ & (k & s & Hb & _)).
  rewrite Hr in Hr0. injection Hr0 as <-. rewrite Hb. destruct (obuf oi) as [x|] eqn:Hx; [|reflexivity].
  simpl. apply Nat.eqb_neq. intros ->. destruct oi as [|ri]; [discriminate|]. apply Hij.
  eapply (rel_sep _ _ HR); eauto.
Qed.

(** One supported step. *)
Lemma step_ok st e o e' v :
  Rel st e -> sstep eqb e o = Some (e', v) -> supported e o = true ->
  exists st', rstep eqb st o = Ok (st', v) /\ Rel st' e'.
Proof.
  intros HR Hs Hsup. destruct o; cbn [sstep rstep supported] in *.
  - (* default *)
    destruct (e i) eqn:Ei; try discriminate. injection Hs as <- <-.
    pose proof (rel_var _ _ HR i) as Hv. rewrite Ei in Hv. simpl in Hv.
    unfold fresh_var. rewrite Hv. eexists. split; [reflexivity|].
    apply Rel_null; auto. destruct st; exact HR.
  - (* new *)
    destruct (e i) eqn:Ei; try discriminate. destruct (c =? 0) eqn:Q; [discriminate|]. injection Hs as <- <-.
    pose proof (rel_var _ _ HR i) as Hv. rewrite Ei in Hv. simpl in Hv.
    unfold fresh_var, new_ring, guard. rewrite Hv, Q. simpl. eexists. split; [reflexivity|].
    apply Rel_install; auto; simpl; auto.
    + exists (fresh (fst st)), (repeat None c).
      split; [reflexivity|]. split; [apply upd_eq|]. split; [simpl; lia|]. apply rep_fresh; lia.
    + intros k Hk _. now apply upd_neq.
    + intros ri k Hri. congruence.
  - (* copy constructor *)
    destruct (e i) eqn:Ei; try discriminate. destruct (e j) as [| |c l] eqn:Ej; try discriminate. injection Hs as <- <-.
    pose proof (rel_var _ _ HR i) as Hv. rewrite Ei in Hv. simpl in Hv.
    pose proof (Rel_live _ _ _ _ _ HR Ej) as (r & Hr & Hc & Ho).
    unfold fresh_var, with_obj, copy_ctor. rewrite Hv, Hr.
    destruct (copy_ok _ _ _ Ho) as (m' & r' & E & Hb' & Hc' & Ho' & Hf' & Hfr). rewrite E. simpl.
    eexists. split; [reflexivity|]. apply Rel_install; auto; try congruence.
  - (* move constructor *)
    destruct (e i) eqn:Ei; try discriminate. destruct (e j) as [| |c l] eqn:Ej; try discriminate. injection Hs as <- <-.
    pose proof (rel_var _ _ HR i) as Hv. rewrite Ei in Hv. simpl in Hv.
    pose proof (Rel_live _ _ _ _ _ HR Ej) as (r & Hr & Hc & Ho).
    unfold fresh_var, with_obj. rewrite Hv, Hr. simpl. eexists. split; [reflexivity|].
    eapply Rel_move; eauto. destruct st; exact HR.
  - (* assignment *)
    assert (Hex : exists c l, e j = SLive c l /\ e i <> SNone /\ e' = upd e i (SLive c l) /\ v = VUnit).
    { destruct (e i) eqn:Ei; destruct (e j) as [| |cc ll] eqn:Ej; try discriminate;
        injection Hs as <- <-; exists cc, ll; repeat split; congruence. }
    destruct Hex as (c & l & Ej & Ei & -> & ->).
    pose proof (Rel_live _ _ _ _ _ HR Ej) as (r & Hr & Hc & Ho).
    destruct (snd st i) as [oi|] eqn:Hi.
    2:{ pose proof (rel_var _ _ HR i) as Hv. rewrite Hi in Hv. destruct (e i); simpl in Hv; try congruence; destruct Hv as (? & ? & ?); discriminate. }
    unfold with_obj. rewrite Hi, Hr. unfold assign. cbn [obuf].
    destruct (Nat.eq_dec i j) as [->|Hij].
    + assert (oi = Robj r) as -> by congruence. cbn [obuf]. rewrite same_buf_refl. simpl. eexists. split; [reflexivity|].
      destruct st as [m en]. simpl in *. eapply Rel_ext; [exact HR| |]; intros q; apply upd_same; auto.
    + rewrite (same_buf_spec _ _ _ _ _ _ _ _ HR Hij Hi Ej Hr).
      destruct (Rel_destroy _ _ _ _ HR Hi) as (m1 & E1 & HR1). rewrite E1. cbn [rbind buf data size cap with_data with_size].
      pose proof (Rel_live _ _ j c l HR1) as Hlive. rewrite upd_neq in Hlive by auto.
      destruct (Hlive Ej) as (r0 & Hr0 & _ & Ho1). simpl in Hr0. rewrite upd_neq in Hr0 by auto.
      rewrite Hr in Hr0. injection Hr0 as <-. simpl in Ho1.
      destruct (copy_ok _ _ _ Ho1) as (m' & r' & E & Hb' & Hc' & Ho' & Hf' & Hfr). rewrite E. simpl.
      eexists. split; [reflexivity|].
      eapply Rel_ext with (en := upd (upd (snd st) i None) i (Some (Robj r'))) (e := upd (upd e i SNone) i (SLive c l)).
      * apply (Rel_install _ _ _ _ _ _ _ HR1); auto; simpl; try congruence.
        -- intros ri k. rewrite upd_eq. discriminate.
      * intros q. unfold upd. destruct (q =? i); auto.
      * intros q. unfold upd. destruct (q =? i); auto.
  - (* move assignment *)
    destruct (Nat.eqb_spec i j) as [<-|Hij].
    + assert (Ei : e i <> SNone /\ e' = e /\ v = VUnit).
      { destruct (e i); try discriminate; injection Hs as <- <-; repeat split; congruence. }
      destruct Ei as (Ei & -> & ->).
      destruct (snd st i) as [oi|] eqn:Hi.
      2:{ pose proof (rel_var _ _ HR i) as Hv. rewrite Hi in Hv. destruct (e i); simpl in Hv; try congruence; destruct Hv as (? & ? & ?); discriminate. }
      unfold with_obj. rewrite Hi. unfold move_assign. rewrite same_buf_refl. simpl. eexists. split; [reflexivity|].
      destruct st as [m en]. simpl in *. eapply Rel_ext; [exact HR| |reflexivity]. intros q.
      rewrite upd_same by apply upd_eq. now apply upd_same.
    + assert (Hex : exists c l, e j = SLive c l /\ e i <> SNone /\ e' = upd (upd e j SNull) i (SLive c l) /\ v = VUnit).
      { destruct (e i) eqn:Ei; destruct (e j) as [| |cc ll] eqn:Ej; try discriminate;
          injection Hs as <- <-; exists cc, ll; repeat split; congruence. }
      destruct Hex as (c & l & Ej & Ei & -> & ->).
      pose proof (Rel_live _ _ _ _ _ HR Ej) as (r & Hr & Hc & Ho).
      destruct (snd st i) as [oi|] eqn:Hi.
      2:{ pose proof (rel_var _ _ HR i) as Hv. rewrite Hi in Hv. destruct (e i); simpl in Hv; try congruence; destruct Hv as (? & ? & ?); discriminate. }
      unfold with_obj. rewrite Hi, Hr. unfold move_assign. cbn [obuf].
      rewrite (same_buf_spec _ _ _ _ _ _ _ _ HR Hij Hi Ej Hr).
      destruct (Rel_destroy _ _ _ _ HR Hi) as (m1 & E1 & HR1). rewrite E1. cbn [rbind buf data size cap with_data with_size].
      eexists. split; [reflexivity|].
      assert (HM := Rel_move m1 (upd (snd st) i None) (upd e i SNone) i j c l r
                (Robj {| buf := None; cap := cap r; data := data r; size := size r |}) HR1).
      rewrite upd_eq, !upd_neq in HM by auto. specialize (HM eq_refl Ej Hr eq_refl).
      eapply Rel_ext; [exact HM| |]; intros q; unfold upd; destruct (q =? i); auto.
  - (* destructor *)
    assert (Ei : e i <> SNone /\ e' = upd e i SNone /\ v = VUnit).
    { destruct (e i); try discriminate; injection Hs as <- <-; repeat split; congruence. }
    destruct Ei as (Ei & -> & ->).
    destruct (snd st i) as [oi|] eqn:Hi.
    2:{ pose proof (rel_var _ _ HR i) as Hv. rewrite Hi in Hv. destruct (e i); simpl in Hv; try congruence; destruct Hv as (? & ? & ?); discriminate. }
    unfold with_obj. rewrite Hi. destruct (Rel_destroy _ _ _ _ HR Hi) as (m1 & E1 & HR1). rewrite E1. simpl. eauto.
  - (* push_back *)
    destruct (e i) as [| |c l] eqn:Ei; try discriminate.
    eapply Rel_mutate'; [exact HR|exact Ei|exact Hs|]. intros r _ <- Ho. now apply push_back_ok.
  - destruct (e i) as [| |c l] eqn:Ei; try discriminate.
    eapply Rel_mutate'; [exact HR|exact Ei|exact Hs|]. intros r _ <- Ho. now apply push_front_ok.
  - destruct (e i) as [| |c l] eqn:Ei; try discriminate. destruct (nth_error l k) as [x|] eqn:Ek; [|discriminate].
    eapply Rel_mutate'; [exact HR|exact Ei|exact Hs|]. intros r _ <- Ho.
    pose proof (owns_facts _ _ _ Ho) as (Hz & _ & _).
    assert (k < length l) by (apply nth_error_Some; congruence).
    unfold guard. destruct (k <? size r) eqn:Q; [|lia]. apply push_back_own_ok; auto. lia.
  - destruct (e i) as [| |c l] eqn:Ei; try discriminate. destruct (nth_error l k) as [x|] eqn:Ek; [|discriminate].
    eapply Rel_mutate'; [exact HR|exact Ei|exact Hs|]. intros r _ <- Ho.
    pose proof (owns_facts _ _ _ Ho) as (Hz & _ & _).
    assert (k < length l) by (apply nth_error_Some; congruence).
    unfold guard. destruct (k <? size r) eqn:Q; [|lia]. apply push_front_own_ok; auto. lia.
  - destruct (e i) as [| |c l] eqn:Ei; try discriminate. destruct l as [|x l]; [discriminate|].
    eapply Rel_mutate'; [exact HR|exact Ei|exact Hs|]. intros r _ <- Ho. now apply pop_front_ok with x.
  - destruct (e i) as [| |c l] eqn:Ei; try discriminate. destruct l as [|x l]; [discriminate|].
    eapply Rel_mutate'; [exact HR|exact Ei|exact Hs|]. intros r _ <- Ho. apply pop_back_ok; auto. discriminate.
  - destruct (e i) as [| |c l] eqn:Ei; try discriminate.
    eapply Rel_mutate'; [exact HR|exact Ei|exact Hs|]. intros r _ <- Ho. now apply clear_ok with l.
  - (* reserve *)
    destruct (c =? 0) eqn:Q; [discriminate|].
    destruct (e i) as [| |c0 l] eqn:Ei; try discriminate; injection Hs as <- <-.
    + pose proof (rel_var _ _ HR i) as Hv. rewrite Ei in Hv. destruct Hv as (b & Hi & Hn).
      unfold with_obj. rewrite Hi.
      assert (reserve (fst st) b c = Ok (fst (allocate (fst st) c),
                {| buf := Some (fresh (fst st)); cap := c; data := 0; size := 0 |})) as ->.
      { unfold reserve, guard. rewrite Q. simpl. destruct b as [|r]; [reflexivity|]. simpl in Hn. now rewrite Hn. }
      cbn [rbind buf data size cap with_data with_size]. eexists. split; [reflexivity|].
      apply Rel_install; auto; simpl; auto.
      * exists (fresh (fst st)), (repeat None c).
      split; [reflexivity|]. split; [apply upd_eq|]. split; [simpl; lia|]. apply rep_fresh; lia.
      * intros k Hk _. now apply upd_neq.
      * intros ri k Hri Hk. rewrite Hi in Hri. injection Hri as ->. simpl in Hn. congruence.
    + pose proof (Rel_live _ _ _ _ _ HR Ei) as (r & Hr & Hc & Ho).
      unfold with_obj. rewrite Hr.
      destruct (reserve_live_ok _ _ _ c Ho ltac:(lia)) as (m' & E & Ho' & Hf & Hfr & Hold).
      rewrite E. cbn [rbind buf data size cap with_data with_size]. eexists. split; [reflexivity|].
      apply Rel_install; auto.
      intros ri k Hri. rewrite Hr in Hri. injection Hri as <-. apply Hold.
  - destruct (e i) as [| |c l] eqn:Ei; try discriminate. injection Hs as <- <-.
    pose proof (Rel_live _ _ _ _ _ HR Ei) as (r & Hr & Hc & Ho). unfold query, with_var. rewrite Hr.
    pose proof (owns_facts _ _ _ Ho) as (Hz & _). rewrite Hz. eauto.
  - destruct (e i) as [| |c l] eqn:Ei; try discriminate. injection Hs as <- <-.
    pose proof (Rel_live _ _ _ _ _ HR Ei) as (r & Hr & Hc & Ho). unfold query, with_var. rewrite Hr, Hc. eauto.
  - destruct (e i) as [| |c l] eqn:Ei; try discriminate. destruct l as [|x l]; [discriminate|]. injection Hs as <- <-.
    pose proof (Rel_live _ _ _ _ _ HR Ei) as (r & Hr & Hc & Ho). unfold query, with_var. rewrite Hr.
    rewrite (front_ok _ _ _ _ Ho). simpl. eauto.
  - destruct (e i) as [| |c l] eqn:Ei; try discriminate. destruct (hd_error (rev l)) as [x|] eqn:Ex; [|discriminate]. injection Hs as <- <-.
    pose proof (Rel_live _ _ _ _ _ HR Ei) as (r & Hr & Hc & Ho). unfold query, with_var. rewrite Hr.
    rewrite (back_ok _ _ _ _ Ho Ex). simpl. eauto.
  - destruct (e i) as [| |c l] eqn:Ei; try discriminate. destruct (nth_error l k) as [x|] eqn:Ex; [|discriminate]. injection Hs as <- <-.
    pose proof (Rel_live _ _ _ _ _ HR Ei) as (r & Hr & Hc & Ho). unfold query, with_var. rewrite Hr.
    unfold index. rewrite (load_ok _ _ _ _ _ Ho Ex). simpl. eauto.
  - destruct (e i) as [| |c l] eqn:Ei; try discriminate.
    pose proof (Rel_live _ _ _ _ _ HR Ei) as (r & Hr & Hc & Ho). unfold query, with_var. rewrite Hr.
    pose proof (owns_facts _ _ _ Ho) as (Hz & _). unfold at_, index.
    destruct (nth_error l k) as [x|] eqn:Ex; injection Hs as <- <-.
    + assert (k < length l) by (apply nth_error_Some; congruence).
      destruct (size r <? k) eqn:Q; [lia|]. rewrite (load_ok _ _ _ _ _ Ho Ex). simpl. eauto.
    + apply nth_error_None in Ex. destruct (size r <? k) eqn:Q; [|lia]. simpl. eauto.
  - destruct (e i) as [| |c l] eqn:Ei; try discriminate. injection Hs as <- <-.
    pose proof (Rel_live _ _ _ _ _ HR Ei) as (r & Hr & Hc & Ho). unfold query, with_var. rewrite Hr.
    rewrite (to_list_ok _ _ _ Ho). simpl. eauto.
  - destruct (e i) as [| |c l] eqn:Ei; try discriminate. injection Hs as <- <-.
    pose proof (Rel_live _ _ _ _ _ HR Ei) as (r & Hr & Hc & Ho). unfold query, with_var. rewrite Hr.
    rewrite (to_rlist_ok _ _ _ Ho). simpl. eauto.
  - destruct (e i) as [| |c l] eqn:Ei; try discriminate. destruct (e j) as [| |cj lj] eqn:Ej; try discriminate.
    injection Hs as <- <-.
    pose proof (Rel_live _ _ _ _ _ HR Ei) as (r & Hr & Hc & Ho).
    pose proof (Rel_live _ _ _ _ _ HR Ej) as (rj & Hrj & Hcj & Hoj). unfold query, with_var. rewrite Hr, Hrj.
    rewrite (equal_ok eqb _ _ _ _ _ Ho Hoj). simpl. eauto.
Qed.

Lemma run_ok os : forall st e e' vs,
  Rel st e -> srun eqb e os = Some (e', vs, true) ->
  exists st', rrun eqb st os = Ok (st', vs) /\ Rel st' e'.
Proof.
  induction os as [|o os IH]; intros st e e' vs HR Hs; simpl in *.
  - injection Hs as <- <-. eauto.
  - destruct (sstep eqb e o) as [[e1 v]|] eqn:Es; [|discriminate].
    destruct (srun eqb e1 os) as [[[e2 vs2] b]|] eqn:Er; [|discriminate].
    injection Hs as <- <- Hb. apply andb_prop in Hb as [Hb1 ->].
    destruct (step_ok _ _ _ _ _ HR Es Hb1) as (st1 & E1 & HR1). rewrite E1. simpl.
    destruct (IH _ _ _ _ HR1 Er) as (st2 & E2 & HR2). rewrite E2. simpl. eauto.
Qed.

End Proofs.
