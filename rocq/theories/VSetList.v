(** The doubly linked list of vector_set's nodes. *)
From Verif Require Import Common VSetModel VSetTree VSetRotate VSetInsert VSetLookup.
From Coq Require Import ZifyBool ZifyNat.

Section LinkedList.
Context {T : Type}.
Implicit Types (s : st T) (ks : list link).

Lemma link_eq_dec (k k' : link) : {k = k'} + {k <> k'}.
Proof. decide equality. apply Nat.eq_dec. Qed.
Lemma updl_eq (f : link -> option link) k v : updl f k v k = v.
Proof. destruct k; simpl; auto. unfold updl. simpl. now rewrite Nat.eqb_refl. Qed.
Lemma updl_neq (f : link -> option link) k v x : x <> k -> updl f k v x = f x.
Proof.
  intros H. unfold updl. destruct k as [|a], x as [|b]; simpl; auto; try congruence.
  assert (b <> a) by congruence. apply Nat.eqb_neq in H0. rewrite ?H0. rewrite Nat.eqb_sym in H0. now rewrite ?H0.
Qed.

(** Consecutive links point at each other. *)
Fixpoint chain s ks : Prop :=
  match ks with
  | k :: ks' => match ks' with
                | k' :: _ => nxt s k = Some k' /\ prv s k' = Some k /\ chain s ks'
                | [] => True
                end
  | [] => True
  end.

Definition ring (l : list nat) : list link := Sentinel :: map At l ++ [Sentinel].
Definition lnk s (l : list nat) : Prop := chain s (ring l).

Lemma chain_app s ks k ks' : chain s (ks ++ k :: ks') <-> chain s (ks ++ [k]) /\ chain s (k :: ks').
Proof.
  induction ks as [|x ks IH]; cbn [app].
  - simpl. tauto.
  - destruct ks as [|y ks]; cbn [app] in *.
    + simpl. tauto.
    + change (chain s (x :: y :: ks ++ k :: ks')) with (nxt s x = Some y /\ prv s y = Some x /\ chain s (y :: ks ++ k :: ks')).
      change (chain s (x :: y :: ks ++ [k])) with (nxt s x = Some y /\ prv s y = Some x /\ chain s (y :: ks ++ [k])).
      tauto.
Qed.

Lemma chain_frame s s' ks :
  (forall k, In k (removelast ks) -> nxt s' k = nxt s k) -> (forall k, In k (tl ks) -> prv s' k = prv s k) ->
  chain s ks -> chain s' ks.
Proof.
  induction ks as [|x ks IH]; intros H1 H2 H; auto. destruct ks as [|y ks]; [exact I|].
  destruct H as (A1 & A2 & A3). split; [|split].
  - rewrite H1; auto. now left.
  - rewrite H2; auto. now left.
  - apply IH; auto.
    + intros k Hk. apply H1. now right.
    + intros k Hk. apply H2. now right.
Qed.

(** Only the list changed. *)
Definition lonly s s' : Prop :=
  root s' = root s /\ par s' = par s /\ lft s' = lft s /\ rgt s' = rgt s /\ col s' = col s /\ cnt s' = cnt s /\
  val s' = val s /\ fresh s' = fresh s.

Lemma foc_lonly s s' t C : lonly s s' -> foc s t C -> foc s' t C.
Proof.
  intros (H1 & H2 & H3 & H4 & H5 & H6 & H7 & H8) [A1 A2 A3 A4 A5 A6].
  assert (He : forall a, eq_at s s' a).
  { intros a. unfold eq_at, alive. rewrite H2, H3, H4, H5, H7. auto. }
  split; auto.
  - eapply tst_frame; [|exact A1]. auto.
  - eapply cst_frame; [| |exact A2]; auto.
  - eapply tct_frame; [|exact A4]. intros. now rewrite H6.
  - eapply cct_frame; [|exact A5]. intros. now rewrite H6.
  - now rewrite H8.
Qed.

Lemma bind_rd_link {B} s f k (g : option link -> @M T B) :
  link_ok s k = true -> bind (rd_link f (Some k)) g s = g (f s k) s.
Proof. intros H. unfold bind, rd_link. now rewrite H. Qed.
Lemma bind_wr_link {B} s f k v (g : unit -> @M T B) :
  link_ok s k = true -> bind (wr_link f (Some k) v) g s = g tt (f k v s).
Proof. intros H. unfold bind, wr_link. now rewrite H. Qed.
Lemma run_wr_link s f k v : link_ok s k = true -> wr_link f (Some k) v s = Ok (f k v s, tt).
Proof. intros H. unfold wr_link. now rewrite H. Qed.

Lemma link_insert_ok s F k k' Q n :
  chain s (F ++ k :: k' :: Q) -> NoDup (F ++ [k]) -> NoDup (k' :: Q) ->
  ~ In k (removelast (k' :: Q)) -> ~ In k' (tl (F ++ [k])) -> ~ In (At n) (F ++ [k]) -> ~ In (At n) (k' :: Q) ->
  (forall x, In x (F ++ k :: k' :: Q) -> link_ok s x = true) -> alive s n = true ->
  exists s', link_insert_after k (At n) s = Ok (s', tt) /\ lonly s s' /\ chain s' (F ++ k :: At n :: k' :: Q).
Proof.
  intros Hc N1 N2 X1 X2 X3 X4 Hal Hn.
  apply chain_app in Hc as [Hc1 Hc2]. destruct Hc2 as (Hnk & Hpk & Hc2).
  assert (Lk : link_ok s k = true) by (apply Hal; apply in_or_app; right; now left).
  assert (Lk' : link_ok s k' = true) by (apply Hal; apply in_or_app; right; right; now left).
  assert (Lok : forall x, link_ok (set_nxt k (Some (At n)) (set_nxt (At n) (Some k') s)) x = link_ok s x) by reflexivity.
  unfold link_insert_after, insert_after_1.
  rewrite bind_rd_link by exact Lk. rewrite bind_assoc, bind_rd_link by exact Lk. rewrite Hnk.
  rewrite bind_assoc, bind_wr_link by exact Hn. rewrite bind_wr_link by exact Lk.
  rewrite bind_rd_link by exact Lk'. 
  change (prv (set_nxt k (Some (At n)) (set_nxt (At n) (Some k') s)) k') with (prv s k'). rewrite Hpk.
  rewrite bind_wr_link by exact Hn. rewrite run_wr_link by exact Lk'.
  eexists. split; [reflexivity|]. split; [repeat split|].
  set (s' := set_prv k' _ _).
  assert (Hnx : forall x, x <> k -> x <> At n -> nxt s' x = nxt s x).
  { intros x D1 D2. cbn [s' nxt set_prv set_nxt]. now rewrite !updl_neq. }
  assert (Hpr : forall x, x <> k' -> x <> At n -> prv s' x = prv s x).
  { intros x D1 D2. cbn [s' prv set_prv set_nxt]. now rewrite !updl_neq. }
  assert (Dkn : k <> At n). { intros ->. apply X3. apply in_or_app. right. now left. }
  assert (Dkn' : k' <> At n). { intros ->. apply X4. now left. }
  apply chain_app. split; [|split; [|split; [|split; [|split]]]].
  - eapply chain_frame; [| |exact Hc1].
    + intros x Hx. rewrite removelast_last in Hx. apply Hnx.
      * intros ->. apply NoDup_remove_2 in N1. apply N1. rewrite app_nil_r. exact Hx.
      * intros ->. apply X3. apply in_or_app. now left.
    + intros x Hx. apply Hpr.
      * intros ->. auto.
      * intros ->. apply X3. destruct (F ++ [k]); simpl in *; auto.
  - cbn [s' nxt set_prv set_nxt]. now rewrite updl_eq.
  - cbn [s' prv set_prv set_nxt]. rewrite updl_neq by congruence. now rewrite updl_eq.
  - cbn [s' nxt set_prv set_nxt]. rewrite updl_neq by congruence. now rewrite updl_eq.
  - cbn [s' prv set_prv set_nxt]. now rewrite updl_eq.
  - eapply chain_frame; [| |exact Hc2].
    + intros x Hx. apply Hnx.
      * intros ->. auto.
      * intros ->. apply X4. clear -Hx. revert Hx. generalize (k' :: Q). intros l. induction l as [|y l IH]; simpl; auto.
        destruct l; [simpl; tauto|]. intros [->|H]; auto.
    + intros x Hx. simpl in Hx. apply Hpr.
      * intros ->. inversion N2; subst. auto.
      * intros ->. apply X4. now right.
Qed.

Lemma link_exclude_ok s F k k' Q n :
  chain s (F ++ k :: At n :: k' :: Q) -> NoDup (F ++ [k]) -> NoDup (k' :: Q) ->
  ~ In k (removelast (k' :: Q)) -> ~ In k' (tl (F ++ [k])) -> ~ In (At n) (F ++ [k]) -> ~ In (At n) (k' :: Q) ->
  (forall x, In x (F ++ k :: At n :: k' :: Q) -> link_ok s x = true) ->
  exists s', link_safe_exclude (At n) s = Ok (s', tt) /\ lonly s s' /\ chain s' (F ++ k :: k' :: Q).
Proof.
  intros Hc N1 N2 X1 X2 X3 X4 Hal.
  apply chain_app in Hc as [Hc1 Hc2]. destruct Hc2 as (Hnk & Hpn & Hnn & Hpk & Hc2).
  assert (Lk : link_ok s k = true) by (apply Hal; apply in_or_app; right; now left).
  assert (Ln : link_ok s (At n) = true) by (apply Hal; apply in_or_app; right; right; now left).
  assert (Lk' : link_ok s k' = true) by (apply Hal; apply in_or_app; right; right; right; now left).
  assert (Dkn : k <> At n). { intros ->. apply X3. apply in_or_app. right. now left. }
  assert (Dkn' : k' <> At n). { intros ->. apply X4. now left. }
  unfold link_safe_exclude. rewrite bind_rd_link by exact Ln. rewrite Hnn.
  unfold link_exclude, remove_after_1. rewrite bind_rd_link by exact Ln. rewrite Hpn.
  rewrite bind_rd_link by exact Ln. rewrite Hnn.
  rewrite bind_assoc, bind_rd_link by exact Lk. rewrite Hnk.
  rewrite bind_assoc, bind_rd_link by exact Ln. rewrite Hnn.
  rewrite bind_assoc, bind_wr_link by exact Lk. rewrite bind_wr_link by exact Ln.
  set (s1 := set_nxt (At n) None (set_nxt k (Some k') s)).
  rewrite bind_rd_link by exact Lk'. change (prv s1) with (prv s). rewrite Hpk.
  rewrite bind_rd_link by exact Ln. change (prv s1) with (prv s). rewrite Hpn.
  rewrite bind_wr_link by exact Lk'. rewrite run_wr_link by exact Ln.
  eexists. split; [reflexivity|]. split; [repeat split|].
  set (s' := set_prv (At n) _ _).
  assert (Hnx : forall x, x <> k -> x <> At n -> nxt s' x = nxt s x).
  { intros x D1 D2. cbn [s' s1 nxt set_prv set_nxt]. now rewrite !updl_neq. }
  assert (Hpr : forall x, x <> k' -> x <> At n -> prv s' x = prv s x).
  { intros x D1 D2. cbn [s' s1 prv set_prv set_nxt]. now rewrite !updl_neq. }
  apply chain_app. split; [|split; [|split]].
  - eapply chain_frame; [| |exact Hc1].
    + intros x Hx. rewrite removelast_last in Hx. apply Hnx.
      * intros ->. apply NoDup_remove_2 in N1. apply N1. rewrite app_nil_r. exact Hx.
      * intros ->. apply X3. apply in_or_app. now left.
    + intros x Hx. apply Hpr.
      * intros ->. auto.
      * intros ->. apply X3. destruct (F ++ [k]); simpl in *; auto.
  - cbn [s' s1 nxt set_prv set_nxt]. rewrite updl_neq by congruence. now rewrite updl_eq.
  - cbn [s' s1 prv set_prv set_nxt]. rewrite updl_neq by congruence. now rewrite updl_eq.
  - eapply chain_frame; [| |exact Hc2].
    + intros x Hx. apply Hnx.
      * intros ->. auto.
      * intros ->. apply X4. clear -Hx. revert Hx. generalize (k' :: Q). intros l. induction l as [|y l IH]; simpl; auto.
        destruct l; [simpl; tauto|]. intros [->|H]; auto.
    + intros x Hx. simpl in Hx. apply Hpr.
      * intros ->. inversion N2; subst. auto.
      * intros ->. apply X4. now right.
Qed.

(** The links around a position. *)
Definition lk (o : option nat) : link := match o with Some a => At a | None => Sentinel end.
Lemma lk_link_of o : link_of o = lk o. Proof. now destruct o. Qed.

Lemma ring_split l1 l2 : exists F Q,
  ring (l1 ++ l2) = F ++ lk (lasto l1) :: lk (hd_error l2) :: Q /\
  Sentinel :: map At l1 = F ++ [lk (lasto l1)] /\ map At l2 ++ [Sentinel] = lk (hd_error l2) :: Q.
Proof.
  assert (H1 : exists F, Sentinel :: map At l1 = F ++ [lk (lasto l1)]).
  { unfold lasto. pose proof (rev_involutive l1) as Hr. destruct (rev l1) as [|a r]; simpl in Hr; subst l1; [exists []; reflexivity|].
    exists (Sentinel :: map At (rev r)). simpl. now rewrite map_app. }
  assert (H2 : exists Q, map At l2 ++ [Sentinel] = lk (hd_error l2) :: Q).
  { destruct l2 as [|b l2]; simpl; eauto. }
  destruct H1 as (F & H1), H2 as (Q & H2). exists F, Q. repeat split; auto.
  unfold ring. rewrite map_app, <- app_assoc. rewrite H2.
  change (Sentinel :: map At l1 ++ lk (hd_error l2) :: Q) with ((Sentinel :: map At l1) ++ lk (hd_error l2) :: Q).
  rewrite H1, <- app_assoc. reflexivity.
Qed.

Lemma NoDup_At l : NoDup l -> NoDup (map At l).
Proof. intros H. apply FinFun.Injective_map_NoDup; auto. intros a b E. congruence. Qed.
Lemma In_At a l : In (At a) (map At l) <-> In a l.
Proof. rewrite in_map_iff. split; [intros (b & E & H); congruence|eauto]. Qed.
Lemma NoSent l : ~ In Sentinel (map At l).
Proof. rewrite in_map_iff. intros (b & E & _). discriminate. Qed.

Lemma nodup_app_iff {A} (l1 l2 : list A) : NoDup (l1 ++ l2) <-> NoDup l1 /\ (forall x, In x l1 -> ~ In x l2) /\ NoDup l2.
Proof.
  induction l1 as [|a l1 IH]; simpl.
  - split; [intros H; repeat split; auto; constructor|tauto].
  - rewrite !NoDup_cons_iff, IH, in_app_iff. firstorder subst; auto.
Qed.

Lemma split_side l1 l2 F Q : NoDup (l1 ++ l2) ->
  Sentinel :: map At l1 = F ++ [lk (lasto l1)] -> map At l2 ++ [Sentinel] = lk (hd_error l2) :: Q ->
  NoDup (F ++ [lk (lasto l1)]) /\ NoDup (lk (hd_error l2) :: Q) /\
  ~ In (lk (lasto l1)) (removelast (lk (hd_error l2) :: Q)) /\
  ~ In (lk (hd_error l2)) (tl (F ++ [lk (lasto l1)])) /\
  (forall n, ~ In n l1 -> ~ In (At n) (F ++ [lk (lasto l1)])) /\
  (forall n, ~ In n l2 -> ~ In (At n) (lk (hd_error l2) :: Q)).
Proof.
  intros N H1 H2. rewrite <- H1, <- H2. apply nodup_app_iff in N as (N1 & N2 & N3).
  split; [|split; [|split; [|split; [|split]]]].
  - constructor; [apply NoSent|now apply NoDup_At].
  - apply nodup_app_iff. split; [now apply NoDup_At|]. split; [|repeat constructor; simpl; tauto].
    intros x Hx. simpl. intros [<-|[]]. revert Hx. apply NoSent.
  - rewrite removelast_last. unfold lasto. destruct (rev l1) as [|a r] eqn:E; [apply NoSent|]. simpl.
    rewrite In_At. intros H. apply (N2 a); auto. apply in_rev. rewrite E. now left.
  - cbn [tl]. destruct l2 as [|b l2]; simpl; [apply NoSent|]. rewrite In_At. intros H. apply (N2 b); simpl; auto.
  - intros n Hn [E|H]; [discriminate|]. now apply In_At in H.
  - intros n Hn H. apply in_app_or in H as [H|[H|[]]]; [|discriminate]. now apply In_At in H.
Qed.

Definition all_alive s (l : list nat) : Prop := forall a, In a l -> alive s a = true.
Lemma ring_ok s l : all_alive s l -> forall x, In x (ring l) -> link_ok s x = true.
Proof.
  intros H x [<-|Hx]; [reflexivity|]. apply in_app_or in Hx as [Hx|[<-|[]]]; [|reflexivity].
  apply in_map_iff in Hx as (a & <- & Ha). apply H. exact Ha.
Qed.

Lemma lnk_insert s l1 l2 n :
  lnk s (l1 ++ l2) -> NoDup (l1 ++ n :: l2) -> all_alive s (l1 ++ l2) -> alive s n = true ->
  exists s', link_insert_after (lk (lasto l1)) (At n) s = Ok (s', tt) /\ lonly s s' /\ lnk s' (l1 ++ n :: l2).
Proof.
  intros H N Al An. destruct (ring_split l1 l2) as (F & Q & E0 & E1 & E2).
  pose proof (NoDup_remove_1 _ _ _ N) as N'. pose proof (NoDup_remove_2 _ _ _ N) as Nn.
  destruct (split_side l1 l2 F Q N' E1 E2) as (S1 & S2 & S3 & S4 & S5 & S6).
  destruct (link_insert_ok s F (lk (lasto l1)) (lk (hd_error l2)) Q n) as (s' & R1 & R2 & R3); auto.
  - unfold lnk in H. now rewrite <- E0.
  - apply S5. intros Hi. apply Nn. apply in_or_app. now left.
  - apply S6. intros Hi. apply Nn. apply in_or_app. now right.
  - rewrite <- E0. apply ring_ok. exact Al.
  - exists s'. split; [exact R1|]. split; [exact R2|]. unfold lnk, ring. rewrite map_app, <- app_assoc. cbn [map app].
    rewrite E2.
    change (Sentinel :: map At l1 ++ At n :: lk (hd_error l2) :: Q) with ((Sentinel :: map At l1) ++ At n :: lk (hd_error l2) :: Q).
    rewrite E1, <- app_assoc. exact R3.
Qed.

Lemma lnk_exclude s l1 l2 n :
  lnk s (l1 ++ n :: l2) -> NoDup (l1 ++ n :: l2) -> all_alive s (l1 ++ n :: l2) ->
  exists s', link_safe_exclude (At n) s = Ok (s', tt) /\ lonly s s' /\ lnk s' (l1 ++ l2).
Proof.
  intros H N Al. destruct (ring_split l1 l2) as (F & Q & E0 & E1 & E2).
  pose proof (NoDup_remove_1 _ _ _ N) as N'. pose proof (NoDup_remove_2 _ _ _ N) as Nn.
  destruct (split_side l1 l2 F Q N' E1 E2) as (S1 & S2 & S3 & S4 & S5 & S6).
  assert (Er : ring (l1 ++ n :: l2) = F ++ lk (lasto l1) :: At n :: lk (hd_error l2) :: Q).
  { unfold ring. rewrite map_app, <- app_assoc. cbn [map app]. rewrite E2.
    change (Sentinel :: map At l1 ++ At n :: lk (hd_error l2) :: Q) with ((Sentinel :: map At l1) ++ At n :: lk (hd_error l2) :: Q).
    rewrite E1, <- app_assoc. reflexivity. }
  destruct (link_exclude_ok s F (lk (lasto l1)) (lk (hd_error l2)) Q n) as (s' & R1 & R2 & R3); auto.
  - unfold lnk in H. now rewrite <- Er.
  - apply S5. intros Hi. apply Nn. apply in_or_app. now left.
  - apply S6. intros Hi. apply Nn. apply in_or_app. now right.
  - rewrite <- Er. apply ring_ok. exact Al.
  - exists s'. split; [exact R1|]. split; [exact R2|]. unfold lnk. rewrite E0. exact R3.
Qed.

Lemma lnk_nxt s l1 l2 : lnk s (l1 ++ l2) -> nxt s (lk (lasto l1)) = Some (lk (hd_error l2)) /\ prv s (lk (hd_error l2)) = Some (lk (lasto l1)).
Proof.
  unfold lnk. destruct (ring_split l1 l2) as (F & Q & -> & _ & _). intros H. apply chain_app in H as [_ (H1 & H2 & _)]. auto.
Qed.

Lemma it_of_lk s o : it_of_link (T:=T) (Some (lk o)) s = Ok (s, o).
Proof. now destruct o. Qed.

Lemma link_ok_lk s l o : all_alive s l -> (forall a, o = Some a -> In a l) -> link_ok s (lk o) = true.
Proof. destruct o; simpl; auto. Qed.

Lemma lasto_in {A} (l : list A) a : lasto l = Some a -> In a l.
Proof. unfold lasto. intros H. apply in_rev. destruct (rev l); [discriminate|]. injection H as ->. now left. Qed.

Lemma it_next_ok s l1 a l2 : lnk s (l1 ++ a :: l2) -> all_alive s (l1 ++ a :: l2) ->
  it_next (Some a) s = Ok (s, hd_error l2).
Proof.
  intros H Al. replace (l1 ++ a :: l2) with ((l1 ++ [a]) ++ l2) in * by (rewrite <- app_assoc; reflexivity).
  apply lnk_nxt in H as [H _]. rewrite lasto_snoc in H. unfold it_next. rewrite lk_link_of.
  rewrite bind_rd_link. 2:{ simpl. apply Al. apply in_or_app. left. apply in_or_app. right. now left. }
  rewrite H. apply it_of_lk.
Qed.
Lemma it_prev_ok s l1 a l2 : lnk s (l1 ++ a :: l2) -> all_alive s (l1 ++ a :: l2) ->
  it_prev (Some a) s = Ok (s, lasto l1).
Proof.
  intros H Al. apply lnk_nxt in H as [_ H]. simpl in H. unfold it_prev. rewrite lk_link_of.
  rewrite bind_rd_link. 2:{ simpl. apply Al. apply in_or_app. right. now left. }
  cbn [lk]. rewrite H. apply it_of_lk.
Qed.
Lemma it_first_ok s l : lnk s l -> it_next None s = Ok (s, hd_error l).
Proof.
  intros H. apply (lnk_nxt s []) in H as [H _]. unfold it_next. rewrite lk_link_of, bind_rd_link by reflexivity.
  cbn [lk]. change (lk (lasto [])) with Sentinel in H. rewrite H. apply it_of_lk.
Qed.
Lemma it_last_ok s l : lnk s l -> it_prev None s = Ok (s, lasto l).
Proof.
  intros H. rewrite <- (app_nil_r l) in H. apply lnk_nxt in H as [_ H]. unfold it_prev. rewrite lk_link_of, bind_rd_link by reflexivity.
  cbn [lk]. simpl in H. rewrite H. apply it_of_lk.
Qed.

(** Values in order. *)
Definition vals s (l : list nat) (vs : list T) : Prop := Forall2 (fun a v => val s a = Some v) l vs.

Lemma walk_next_ok s l2 : forall l1 f vs, lnk s (l1 ++ l2) -> all_alive s (l1 ++ l2) -> vals s l2 vs -> length l2 < f ->
  walk f it_next (hd_error l2) s = Ok (s, vs).
Proof.
  induction l2 as [|a l2 IH]; intros l1 f vs H Al Hv Hf; (destruct f as [|f]; [simpl in Hf; lia|]); inversion Hv as [|? v ? vs' Ha Hv' ]; subst; cbn [walk hd_error is_null].
  - reflexivity.
  - unfold it_deref. rewrite (rd_val_run _ _ _ _ Ha). rewrite (bind_ok _ _ _ _ _ (it_next_ok s l1 a l2 H Al)).
    erewrite bind_ok; [reflexivity|].
    apply (IH (l1 ++ [a])); auto; try (rewrite <- app_assoc; assumption). simpl in Hf. lia.
Qed.
Lemma walk_prev_ok s l1 : forall l2 f vs, lnk s (rev l1 ++ l2) -> all_alive s (rev l1 ++ l2) -> vals s l1 vs -> length l1 < f ->
  walk f it_prev (hd_error l1) s = Ok (s, vs).
Proof.
  induction l1 as [|a l1 IH]; intros l2 f vs H Al Hv Hf; (destruct f as [|f]; [simpl in Hf; lia|]); inversion Hv as [|? v ? vs' Ha Hv' ]; subst; cbn [walk hd_error is_null].
  - reflexivity.
  - unfold it_deref. rewrite (rd_val_run _ _ _ _ Ha). simpl in H, Al. rewrite <- app_assoc in H, Al. simpl in H, Al.
    rewrite (bind_ok _ _ _ _ _ (it_prev_ok s (rev l1) a l2 H Al)).
    unfold lasto. rewrite rev_involutive. erewrite bind_ok; [reflexivity|]. eapply IH; eauto. simpl in Hf. lia.
Qed.

Lemma to_list_ok s l vs : lnk s l -> all_alive s l -> vals s l vs -> length l <= fresh s -> to_list s = Ok (s, vs).
Proof.
  intros H Al Hv Hf. unfold to_list. rewrite (bind_ok _ _ _ _ _ (it_first_ok s l H)). unfold fuelled.
  apply (walk_next_ok s l []); auto. lia.
Qed.
Lemma Forall2_rev {A B} (P : A -> B -> Prop) l1 l2 : Forall2 P l1 l2 -> Forall2 P (rev l1) (rev l2).
Proof. induction 1; simpl; auto. apply Forall2_app; auto. Qed.
Lemma to_rlist_ok s l vs : lnk s l -> all_alive s l -> vals s l vs -> length l <= fresh s -> to_rlist s = Ok (s, rev vs).
Proof.
  intros H Al Hv Hf. unfold to_rlist. rewrite (bind_ok _ _ _ _ _ (it_last_ok s l H)). unfold fuelled, lasto.
  apply (walk_prev_ok s (rev l) []).
  - rewrite rev_involutive, app_nil_r. exact H.
  - rewrite rev_involutive, app_nil_r. exact Al.
  - now apply Forall2_rev.
  - rewrite rev_length. lia.
Qed.
End LinkedList.
