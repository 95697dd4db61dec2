(** The relation between list memory and specification, and its preservation. *)
From Verif Require Import Common QListModel QListSpec QListProofs.
From Coq Require Import ZifyBool ZifyNat.

Definition view := nat -> option (list nat).
Definition nowhere (g : view) (n : nat) : Prop := forall l s, g l = Some s -> ~ In n s.

Record Rel (m : mem) (g : view) (el : nat -> where_) : Prop := {
  r_circ : forall l s, g l = Some s -> circ m (Nl l) (map El s);
  r_nd : forall l s, g l = Some s -> NoDup s;
  r_dj : forall l l' s s' n, g l = Some s -> g l' = Some s' -> In n s -> In n s' -> l = l';
  r_alive : forall n, el n <> Unborn -> alive m (El n);
  r_out : forall l s n, g l = Some s -> In n s -> el n = Out;
  r_free : forall n, el n = Out -> nowhere g n -> fwd m (El n) = None /\ bwd m (El n) = None }.

Lemma map_El_in n s : In (El n) (map El s) <-> In n s.
Proof. rewrite in_map_iff. split; [intros (x & [= ->] & H); auto|eauto]. Qed.
Lemma nl_in l s : ~ In (Nl l) (map El s).
Proof. rewrite in_map_iff. intros (x & [=] & _). Qed.
Lemma nodup_El s : NoDup s -> NoDup (map El s).
Proof. induction 1; cbn; constructor; auto. now rewrite map_El_in. Qed.
Lemma nodup_circ l s : NoDup s -> NoDup (Nl l :: map El s).
Proof. constructor; [apply nl_in|apply nodup_El; auto]. Qed.

(** Addresses used by the list [l]. *)
Definition uses (g : view) (l : nat) (x : addr) : Prop := x = Nl l \/ exists s n, g l = Some s /\ In n s /\ x = El n.

Lemma circ_other m m' l s : circ m (Nl l) (map El s) ->
  (forall x, x = Nl l \/ (exists n, In n s /\ x = El n) -> fwd m' x = fwd m x /\ bwd m' x = bwd m x) -> circ m' (Nl l) (map El s).
Proof.
  intros C H. assert (K : forall x, In x (Nl l :: map El s) -> x = Nl l \/ (exists n, In n s /\ x = El n)).
  { intros x [<-|Hx]; [auto|]. right. apply in_map_iff in Hx as (n & <- & ?). eauto. }
  eapply circ_frame; [exact C| |]; intros x Hx; apply H; auto.
Qed.

Lemma rel_ext m g g' el : (forall l, g' l = g l) -> Rel m g el -> Rel m g' el.
Proof.
  intros E R. constructor; intros.
  - apply (r_circ _ _ _ R); now rewrite <- E.
  - apply (r_nd _ _ _ R l); now rewrite <- E.
  - eapply (r_dj _ _ _ R); [rewrite <- E; eauto|rewrite <- E; eauto| |]; eauto.
  - now apply (r_alive _ _ _ R).
  - eapply (r_out _ _ _ R); [rewrite <- E; eauto|eauto].
  - apply (r_free _ _ _ R); auto. intros l s Hl. apply (H0 l). now rewrite E.
Qed.

Definition updv (g : view) (l : nat) (s : list nat) : view := upd g l (Some s).
Lemma updv_cases g l s l' s' : updv g l s l' = Some s' -> (l' = l /\ s' = s) \/ (l' <> l /\ g l' = Some s').
Proof. unfold updv, upd. destruct (Nat.eqb_spec l' l); [intros [= ->]; auto|auto]. Qed.
Lemma updv_eq g l s : updv g l s l = Some s.
Proof. apply upd_eq. Qed.
Lemma updv_neq g l s l' : l' <> l -> updv g l s l' = g l'.
Proof. apply upd_neq. Qed.

Lemma gap_in (l : nat) s1 s2 l1 p q l2 : Nl l :: map El s1 = l1 ++ [p] -> map El s2 ++ [Nl l] = q :: l2 ->
  (p = Nl l \/ exists n, In n s1 /\ p = El n) /\ (q = Nl l \/ exists n, In n s2 /\ q = El n).
Proof.
  intros E1 E2. split.
  - assert (H : In p (Nl l :: map El s1)) by (rewrite E1; apply in_or_app; cbn; auto).
    destruct H as [<-|H]; [auto|]. apply in_map_iff in H as (n & <- & ?). eauto.
  - assert (H : In q (map El s2 ++ [Nl l])) by (rewrite E2; cbn; auto).
    apply in_app_or in H as [H|[<-|[]]]; [|auto]. apply in_map_iff in H as (n & <- & ?). eauto.
Qed.

Lemma R_inserted m m' g el l s1 s2 n l1 p q l2 : Rel m g el -> g l = Some (s1 ++ s2) -> el n <> Unborn -> nowhere g n ->
  Nl l :: map El s1 = l1 ++ [p] -> map El s2 ++ [Nl l] = q :: l2 -> chain m (l1 ++ [p]) -> chain m (q :: l2) ->
  inserted m m' p (El n) q -> Rel m' (updv g l (s1 ++ n :: s2)) (upd el n Out).
Proof.
  intros R Hg Hn Hw E1 E2 C1 C2 I. pose proof I as (F & B & L). destruct (gap_in _ _ _ _ _ _ _ E1 E2) as [Ip Iq].
  pose proof (r_nd _ _ _ R _ _ Hg) as ND.
  assert (Nn : ~ In n (s1 ++ s2)) by (eapply Hw; eauto).
  assert (Other : forall l' s', l' <> l -> g l' = Some s' -> forall x, x = Nl l' \/ (exists k, In k s' /\ x = El k) ->
            x <> p /\ x <> q /\ x <> El n).
  { intros l' s' Hl' Hg' x Hx.
    assert (K : forall y, y = Nl l \/ (exists k, In k (s1 ++ s2) /\ y = El k) -> x <> y).
    { intros y Hy ->. destruct Hx as [->|(k & Hk & ->)], Hy as [E|(k' & Hk' & E)]; try congruence.
      injection E as ->. apply Hl'. eapply (r_dj _ _ _ R); eauto. }
    repeat split.
    - apply K. destruct Ip as [|(k & ? & ?)]; [auto|right]. exists k. rewrite in_app_iff. auto.
    - apply K. destruct Iq as [|(k & ? & ?)]; [auto|right]. exists k. rewrite in_app_iff. auto.
    - intros ->. destruct Hx as [|(k & Hk & [= ->])]; [discriminate|]. eapply Hw; eauto. }
  constructor.
  - intros l' s' H. apply updv_cases in H as [[-> ->]|[Hl' H]].
    + rewrite map_app. cbn [map]. eapply circ_insert; eauto.
      * rewrite <- map_app. apply nodup_circ; auto.
      * rewrite <- map_app. intros [|H]; [discriminate|]. now apply map_El_in in H.
    + eapply circ_other; [eapply (r_circ _ _ _ R); eauto|]. intros x Hx. destruct (Other _ _ Hl' H x Hx) as (X1 & X2 & X3).
      rewrite F, B, !ifa_neq by auto. auto.
  - intros l' s' H. apply updv_cases in H as [[-> ->]|[Hl' H]]; [|eapply (r_nd _ _ _ R); eauto].
    apply NoDup_Add with (a := n) (l := s1 ++ s2); [apply Add_app|auto].
  - assert (K : forall l' s' k, l' <> l -> g l' = Some s' -> In k (s1 ++ n :: s2) -> In k s' -> False).
    { intros l' s' k Hl' H Hk Hk'. apply in_app_or in Hk. cbn in Hk. destruct (Nat.eq_dec k n) as [->|Hkn]; [eapply Hw; eauto|].
      apply Hl'. eapply (r_dj _ _ _ R); [exact H|exact Hg|exact Hk'|]. rewrite in_app_iff. intuition congruence. }
    intros la lb sa sb k Ha Hb Hka Hkb. apply updv_cases in Ha. apply updv_cases in Hb.
    destruct Ha as [[-> ->]|[Ha' Ha]], Hb as [[-> ->]|[Hb' Hb]]; auto.
    + exfalso. eauto.
    + exfalso. eauto.
    + eapply (r_dj _ _ _ R); eauto.
  - intros k Hk. apply L. apply (r_alive _ _ _ R). unfold upd in Hk. destruct (Nat.eqb_spec k n); subst; auto.
  - intros l' s' k H Hk. unfold upd. destruct (Nat.eqb_spec k n); [auto|]. apply updv_cases in H as [[-> ->]|[Hl' H]].
    + eapply (r_out _ _ _ R); [exact Hg|]. apply in_app_or in Hk. cbn in Hk. rewrite in_app_iff. intuition congruence.
    + eapply (r_out _ _ _ R); eauto.
  - intros k Hk Hnw. assert (Hkn : k <> n).
    { intros ->. eapply Hnw; [apply updv_eq|]. rewrite in_app_iff. cbn. auto. }
    rewrite upd_neq in Hk by auto.
    assert (Hks : ~ In k (s1 ++ s2)).
    { intros X. eapply Hnw; [apply updv_eq|]. apply in_app_or in X. rewrite in_app_iff. cbn. tauto. }
    assert (Hp : El k <> p /\ El k <> q).
    { rewrite in_app_iff in Hks. split; intros <-; [destruct Ip as [|(k' & ? & [= ->])]|destruct Iq as [|(k' & ? & [= ->])]]; try discriminate; tauto. }
    destruct (r_free _ _ _ R k Hk) as [X1 X2].
    + intros l' s' H X. destruct (Nat.eq_dec l' l) as [->|Hl']; [rewrite Hg in H; injection H as <-; auto|].
      eapply Hnw; [rewrite updv_neq; eauto|auto].
    + rewrite F, B, !ifa_neq by (tauto || congruence). auto.
Qed.

Lemma R_gap m g el l s1 s2 : Rel m g el -> g l = Some (s1 ++ s2) ->
  exists l1 p q l2, Nl l :: map El s1 = l1 ++ [p] /\ map El s2 ++ [Nl l] = q :: l2 /\
    chain m (l1 ++ [p]) /\ link m p q /\ chain m (q :: l2).
Proof. intros R Hg. apply circ_gap. rewrite <- map_app. eapply r_circ; eauto. Qed.

Lemma R_insert m g el l s1 s2 n : Rel m g el -> g l = Some (s1 ++ s2) -> el n <> Unborn -> nowhere g n ->
  exists l1 p q l2, Nl l :: map El s1 = l1 ++ [p] /\ map El s2 ++ [Nl l] = q :: l2 /\
    (exists m', insert_after m p (El n) = Ok m' /\ Rel m' (updv g l (s1 ++ n :: s2)) (upd el n Out)) /\
    (exists m', insert_before m q (El n) = Ok m' /\ Rel m' (updv g l (s1 ++ n :: s2)) (upd el n Out)).
Proof.
  intros R Hg Hn Hw. destruct (R_gap _ _ _ _ _ _ R Hg) as (l1 & p & q & l2 & E1 & E2 & C1 & Lk & C2).
  exists l1, p, q, l2. split; [auto|]. split; [auto|]. destruct (gap_in _ _ _ _ _ _ _ E1 E2) as [Ip Iq].
  assert (Nn := Hw _ _ Hg). rewrite in_app_iff in Nn.
  assert (Np : El n <> p) by (intros <-; destruct Ip as [|(k & ? & [= ->])]; [discriminate|tauto]).
  assert (Nq : El n <> q) by (intros <-; destruct Iq as [|(k & ? & [= ->])]; [discriminate|tauto]).
  assert (An : alive m (El n)) by (eapply r_alive; eauto).
  split.
  - destruct (insert_after_ok m p (El n) q) as (m' & E & I); auto. exists m'. split; [auto|]. eapply R_inserted; eauto.
  - destruct (insert_before_ok m p (El n) q) as (m' & E & I); auto. exists m'. split; [auto|]. eapply R_inserted; eauto.
Qed.

Lemma snoc_inj {A} (l1 l2 : list A) x y : l1 ++ [x] = l2 ++ [y] -> l1 = l2 /\ x = y.
Proof. apply app_inj_tail. Qed.

Lemma R_exclude m g el l s1 n s2 : Rel m g el -> g l = Some (s1 ++ n :: s2) ->
  exists m' l1 p, Nl l :: map El s1 = l1 ++ [p] /\ bwd m (El n) = Some p /\
    exclude m (El n) = Ok m' /\ Rel m' (updv g l (s1 ++ s2)) el /\ nowhere (updv g l (s1 ++ s2)) n /\ el n = Out.
Proof.
  intros R Hg. pose proof (r_circ _ _ _ R _ _ Hg) as C. rewrite map_app in C. cbn [map] in C.
  destruct (circ_elem _ _ _ _ _ C) as (l1 & p & q & l2 & E1 & E2 & C1 & L1 & L2 & C2).
  destruct (gap_in _ _ _ _ _ _ _ E1 E2) as [Ip Iq].
  pose proof (r_nd _ _ _ R _ _ Hg) as ND. apply NoDup_remove in ND as X. destruct X as [ND' Nn]. rewrite in_app_iff in Nn.
  assert (Np : El n <> p) by (intros <-; destruct Ip as [|(k & ? & [= ->])]; [discriminate|tauto]).
  assert (Nq : El n <> q) by (intros <-; destruct Iq as [|(k & ? & [= ->])]; [discriminate|tauto]).
  destruct (exclude_ok m p (El n) q) as (m' & E & I); auto. pose proof I as (F & B & L).
  assert (Hout : el n = Out) by (eapply (r_out _ _ _ R); [exact Hg|rewrite in_app_iff; cbn; auto]).
  assert (Dj : forall l' s' k, l' <> l -> g l' = Some s' -> In k (s1 ++ n :: s2) -> In k s' -> False).
  { intros l' s' k Hl' H Hk Hk'. apply Hl'. eapply (r_dj _ _ _ R); [exact H|exact Hg|exact Hk'|exact Hk]. }
  assert (Sub : forall k, In k (s1 ++ s2) -> In k (s1 ++ n :: s2)) by (intros k; rewrite !in_app_iff; cbn; tauto).
  assert (Hnw : nowhere (updv g l (s1 ++ s2)) n).
  { intros l' s' H. apply updv_cases in H as [[-> ->]|[Hl' H]]; [rewrite in_app_iff; tauto|].
    intros X. eapply Dj; eauto. rewrite in_app_iff; cbn; auto. }
  exists m', l1, p. split; [auto|]. split; [apply L1|]. split; [auto|]. split; [|auto]. constructor.
  - intros l' s' H. apply updv_cases in H as [[-> ->]|[Hl' H]].
    + rewrite map_app. eapply circ_exclude; eauto.
      change (El n :: map El s2) with (map El (n :: s2)). rewrite <- map_app. apply nodup_circ; auto.
    + eapply circ_other; [eapply (r_circ _ _ _ R); eauto|]. intros x Hx.
      assert (K : forall y, y = Nl l \/ (exists k, In k (s1 ++ n :: s2) /\ y = El k) -> x <> y).
      { intros y Hy ->. destruct Hx as [->|(k & Hk & ->)], Hy as [X|(k' & Hk' & X)]; try congruence.
        injection X as ->. eauto. }
      rewrite F, B, !ifa_neq; auto; apply K.
      * destruct Iq as [|(k & ? & ?)]; [auto|right]. exists k. rewrite in_app_iff. cbn. auto.
      * right. exists n. rewrite in_app_iff. cbn. auto.
      * destruct Ip as [|(k & ? & ?)]; [auto|right]. exists k. rewrite in_app_iff. auto.
      * right. exists n. rewrite in_app_iff. cbn. auto.
  - intros l' s' H. apply updv_cases in H as [[-> ->]|[Hl' H]]; [auto|eapply (r_nd _ _ _ R); eauto].
  - intros la lb sa sb k Ha Hb Hka Hkb. apply updv_cases in Ha. apply updv_cases in Hb.
    destruct Ha as [[-> ->]|[Ha' Ha]], Hb as [[-> ->]|[Hb' Hb]]; auto.
    + exfalso. eauto.
    + exfalso. eauto.
    + eapply (r_dj _ _ _ R); eauto.
  - intros k Hk. apply L. now apply (r_alive _ _ _ R).
  - intros l' s' k H Hk. apply updv_cases in H as [[-> ->]|[Hl' H]]; eapply (r_out _ _ _ R); eauto.
  - intros k Hk Hw. destruct (Nat.eq_dec k n) as [->|Hkn]; [rewrite F, B, !ifa_eq; auto|].
    assert (Hks : ~ In k (s1 ++ s2)) by (eapply Hw; apply updv_eq).
    assert (Hp : El k <> p /\ El k <> q).
    { rewrite in_app_iff in Hks. split; intros <-; [destruct Ip as [|(k' & ? & [= ->])]|destruct Iq as [|(k' & ? & [= ->])]]; try discriminate; tauto. }
    destruct (r_free _ _ _ R k Hk) as [X1 X2].
    + intros l' s' H X. destruct (Nat.eq_dec l' l) as [->|Hl'].
      * rewrite Hg in H; injection H as <-. apply Hks. apply in_app_or in X. cbn in X. rewrite in_app_iff. intuition congruence.
      * eapply Hw; [rewrite updv_neq; eauto|auto].
    + rewrite F, B, !ifa_neq by (tauto || congruence). auto.
Qed.

(** Two lists become (concatenation, empty). *)
Lemma R_splice m m' g g' el l src t1 t2 s l1 p q l2 :
  Rel m g el -> l <> src -> g src = Some s -> s <> [] ->
  (g l = Some (t1 ++ t2) \/ g l = None /\ t1 ++ t2 = []) ->
  Nl l :: map El t1 = l1 ++ [p] -> map El t2 ++ [Nl l] = q :: l2 -> chain m (l1 ++ [p]) -> chain m (q :: l2) ->
  spliced m m' p (hd (Nl src) (map El s)) (last (map El s) (Nl src)) q (Nl src) ->
  (forall l', g' l' = updv (updv g src []) l (t1 ++ s ++ t2) l') -> Rel m' g' el.
Proof.
  intros R Hl Hs Hne Ht E1 E2 C1 C2 Sp Eg. apply (rel_ext _ _ _ _ Eg). clear g' Eg. pose proof Sp as (F & B & L).
  destruct (gap_in _ _ _ _ _ _ _ E1 E2) as [Ip Iq].
  assert (NDt : NoDup (t1 ++ t2)) by (destruct Ht as [Ht|[_ ->]]; [eapply (r_nd _ _ _ R); eauto|constructor]).
  assert (NDs : NoDup s) by (eapply (r_nd _ _ _ R); eauto).
  assert (Djt : forall n, In n (t1 ++ t2) -> In n s -> False).
  { intros n X Y. destruct Ht as [Ht|[_ Ht]]; [apply Hl; eapply (r_dj _ _ _ R); eauto|rewrite Ht in X; destruct X]. }
  assert (Djo : forall l' s' k, l' <> l -> l' <> src -> g l' = Some s' -> In k s' -> In k (t1 ++ s ++ t2) -> False).
  { intros l' s' k N1 N2 H X Y.
    assert (Y' : In k s \/ In k (t1 ++ t2)) by (rewrite !in_app_iff in *; tauto). destruct Y' as [Y'|Y'].
    - apply N2. eapply (r_dj _ _ _ R); eauto.
    - destruct Ht as [Ht|[_ Ht]]; [apply N1; eapply (r_dj _ _ _ R); eauto|rewrite Ht in Y'; destruct Y']. }
  destruct (circ_splice m m' (Nl l) (Nl src) (map El t1) (map El t2) (map El s)
              (hd (Nl src) (map El s)) (last (map El s) (Nl src)) l1 p q l2) as [CL CS]; auto.
  { rewrite <- map_app. apply nodup_circ; auto. }
  { apply nodup_circ; auto. }
  { rewrite <- map_app. intros x [<-|X] [Y|Y].
    - congruence.
    - now apply nl_in in Y.
    - subst x. now apply nl_in in X.
    - apply in_map_iff in X as (k & <- & X). apply map_El_in in Y. eauto. }
  { eapply (r_circ _ _ _ R); eauto. }
  { destruct s; cbn; congruence. }
  destruct (map_hd s (Nl src) Hne) as [nf Ef]. destruct (map_last s (Nl src) Hne) as [nz Ez].
  assert (If : In nf s). { apply map_El_in. rewrite <- Ef. destruct s; [congruence|]; cbn; auto. }
  assert (Iz : In nz s). { apply map_El_in. rewrite <- Ez. destruct s as [|z s _] using rev_ind; [congruence|]. rewrite map_app. cbn [map]. rewrite last_last, in_app_iff. cbn; auto. }
  rewrite Ef, Ez in *.
  assert (Outside : forall x, x <> Nl l -> x <> Nl src -> (forall k, In k (t1 ++ s ++ t2) -> x <> El k) ->
            fwd m' x = fwd m x /\ bwd m' x = bwd m x).
  { intros x X1 X2 X3.
    assert (x <> p) by (destruct Ip as [->|(k & ? & ->)]; [auto|apply X3; rewrite !in_app_iff; auto]).
    assert (x <> q) by (destruct Iq as [->|(k & ? & ->)]; [auto|apply X3; rewrite !in_app_iff; auto]).
    assert (x <> El nf) by (apply X3; rewrite !in_app_iff; auto).
    assert (x <> El nz) by (apply X3; rewrite !in_app_iff; auto).
    rewrite F, B, !ifa_neq by auto. auto. }
  assert (Cases : forall l' s', updv (updv g src []) l (t1 ++ s ++ t2) l' = Some s' ->
            (l' = l /\ s' = t1 ++ s ++ t2) \/ (l' = src /\ s' = []) \/ (l' <> l /\ l' <> src /\ g l' = Some s')).
  { intros l' s' H. apply updv_cases in H as [|[N1 H]]; [auto|]. apply updv_cases in H as [|[N2 H]]; auto. }
  constructor.
  - intros l' s' H. destruct (Cases _ _ H) as [[-> ->]|[[-> ->]|(N1 & N2 & H')]].
    + rewrite !map_app. exact CL.
    + exact CS.
    + eapply circ_other; [eapply (r_circ _ _ _ R); eauto|]. intros x Hx. apply Outside.
      * destruct Hx as [->|(k & _ & ->)]; congruence.
      * destruct Hx as [->|(k & _ & ->)]; congruence.
      * intros k Hk ->. destruct Hx as [|(k' & Hk' & [= ->])]; [discriminate|]. eapply Djo; eauto.
  - intros l' s' H. destruct (Cases _ _ H) as [[-> ->]|[[-> ->]|(N1 & N2 & H')]].
    + apply nodup_app in NDt as (N1 & N2 & N3). apply nodup_app. repeat split; auto.
      * apply nodup_app. repeat split; auto. intros x X Y. apply (Djt x); [rewrite in_app_iff; auto|auto].
      * intros x X Y. apply in_app_or in Y as [Y|Y]; [apply (Djt x); [rewrite in_app_iff; auto|auto]|eauto].
    + constructor.
    + eapply (r_nd _ _ _ R); eauto.
  - intros la lb sa sb k Ha Hb Hka Hkb.
    destruct (Cases _ _ Ha) as [[-> ->]|[[-> ->]|(N1 & N2 & H1)]], (Cases _ _ Hb) as [[-> ->]|[[-> ->]|(N3 & N4 & H2)]]; auto;
      try (destruct Hka; fail); try (destruct Hkb; fail).
    + exfalso. eapply (Djo lb); eauto.
    + exfalso. eapply (Djo la); eauto.
    + eapply (r_dj _ _ _ R); eauto.
  - intros k Hk. apply L. now apply (r_alive _ _ _ R).
  - intros l' s' k H Hk. destruct (Cases _ _ H) as [[-> ->]|[[-> ->]|(N1 & N2 & H')]].
    + assert (Y' : In k s \/ In k (t1 ++ t2)) by (rewrite !in_app_iff in *; tauto). destruct Y' as [Y'|Y']; [eapply (r_out _ _ _ R); eauto|].
      destruct Ht as [Ht|[_ Ht]]; [eapply (r_out _ _ _ R); eauto|rewrite Ht in Y'; destruct Y'].
    + destruct Hk.
    + eapply (r_out _ _ _ R); eauto.
  - intros k Hk Hw. destruct (Outside (El k)) as [-> ->]; try discriminate.
    + intros k' Hk' [= ->]. eapply Hw; [apply updv_eq|auto].
    + apply (r_free _ _ _ R); auto. intros l' s' H X.
      destruct (Nat.eq_dec l' l) as [->|N1]; [|destruct (Nat.eq_dec l' src) as [->|N2]].
      * eapply Hw; [apply updv_eq|]. destruct Ht as [Ht|[Ht _]]; [|congruence]. rewrite Ht in H. injection H as <-.
        rewrite !in_app_iff in *. tauto.
      * eapply Hw; [apply updv_eq|]. rewrite Hs in H. injection H as <-. rewrite !in_app_iff. auto.
      * eapply (Hw l' s'); [rewrite 2!updv_neq by auto; exact H|exact X].
Qed.

Lemma R_clear m g el l s : Rel m g el -> g l = Some s ->
  exists m', clear m l = Ok m' /\ Rel m' (updv g l []) (fun n => if mem_of n s then Lost else el n).
Proof.
  intros R Hg. pose proof (r_circ _ _ _ R _ _ Hg) as C. destruct (clear_ok m l) as (m' & E & F & B & L).
  { eapply circ_null_alive; eauto. }
  assert (Hm : forall n, mem_of n s = true <-> In n s).
  { intros n. unfold mem_of. rewrite existsb_exists. split; [intros (x & X & Y)|intros X; exists n; split; auto; lia].
    apply Nat.eqb_eq in Y. now subst. }
  exists m'. split; [auto|]. constructor.
  - intros l' s' H. apply updv_cases in H as [[-> ->]|[Hl' H]].
    + cbn. split; [|exact I]. split; [rewrite F, ifa_eq; auto|rewrite B, ifa_eq; auto].
    + eapply circ_other; [eapply (r_circ _ _ _ R); eauto|]. intros x Hx.
      rewrite F, B, !ifa_neq; auto; destruct Hx as [->|(k & _ & ->)]; congruence.
  - intros l' s' H. apply updv_cases in H as [[-> ->]|[Hl' H]]; [constructor|eapply (r_nd _ _ _ R); eauto].
  - intros la lb sa sb k Ha Hb Hka Hkb. apply updv_cases in Ha. apply updv_cases in Hb.
    destruct Ha as [[-> ->]|[Ha' Ha]], Hb as [[-> ->]|[Hb' Hb]]; auto; try (destruct Hka; fail); try (destruct Hkb; fail).
    eapply (r_dj _ _ _ R); eauto.
  - intros k Hk. apply L. destruct (mem_of k s) eqn:Ek; [|now apply (r_alive _ _ _ R)].
    apply (r_alive _ _ _ R). apply Hm in Ek. rewrite (r_out _ _ _ R _ _ _ Hg Ek). discriminate.
  - intros l' s' k H Hk. apply updv_cases in H as [[-> ->]|[Hl' H]]; [destruct Hk|].
    destruct (mem_of k s) eqn:Ek; [|eapply (r_out _ _ _ R); eauto]. apply Hm in Ek. exfalso. apply Hl'. eapply (r_dj _ _ _ R); eauto.
  - intros k Hk Hw. destruct (mem_of k s) eqn:Ek; [discriminate|]. rewrite F, B, !ifa_neq by discriminate.
    apply (r_free _ _ _ R); auto. intros l' s' H X. destruct (Nat.eq_dec l' l) as [->|N1].
    + rewrite Hg in H. injection H as <-. apply Hm in X. congruence.
    + eapply Hw; [rewrite updv_neq; eauto|auto].
Qed.

Lemma put_fwd m a c x : fwd (put m a c) x = ifa x a (nx c) (fwd m x).
Proof. unfold fwd, put, ifa. destruct (addr_eqb x a); reflexivity. Qed.
Lemma put_bwd m a c x : bwd (put m a c) x = ifa x a (pv c) (bwd m x).
Proof. unfold bwd, put, ifa. destruct (addr_eqb x a); reflexivity. Qed.
Lemma put_alive m a c x : alive m x \/ x = a -> alive (put m a c) x.
Proof. unfold alive, put. destruct (addr_eqb_spec x a); [congruence|intuition]. Qed.

Lemma R_new_elem m g el n : Rel m g el -> el n = Unborn -> Rel (put m (El n) {| nx := None; pv := None |}) g (upd el n Out).
Proof.
  intros R Hn. assert (Hw : nowhere g n) by (intros l s H X; rewrite (r_out _ _ _ R _ _ _ H X) in Hn; discriminate).
  constructor.
  - intros l s H. eapply circ_other; [eapply (r_circ _ _ _ R); eauto|]. intros x Hx.
    rewrite put_fwd, put_bwd, !ifa_neq; auto; intros ->; (destruct Hx as [|(k & X & [= ->])]; [discriminate|eapply Hw; eauto]).
  - apply (r_nd _ _ _ R).
  - apply (r_dj _ _ _ R).
  - intros k Hk. apply put_alive. unfold upd in Hk. destruct (Nat.eqb_spec k n); [subst; auto|left; now apply (r_alive _ _ _ R)].
  - intros l s k H X. unfold upd. destruct (Nat.eqb_spec k n); [auto|]. eapply (r_out _ _ _ R); eauto.
  - intros k Hk X. rewrite put_fwd, put_bwd. unfold upd in Hk. destruct (Nat.eqb_spec k n); [subst; rewrite !ifa_eq; auto|].
    rewrite !ifa_neq by congruence. now apply (r_free _ _ _ R).
Qed.

Lemma R_put_null m g el l c : Rel m g el -> g l = None -> Rel (put m (Nl l) c) g el.
Proof.
  intros R Hg. constructor; try apply R.
  intros l' s H. eapply circ_other; [eapply (r_circ _ _ _ R); eauto|]. intros x Hx.
    rewrite put_fwd, put_bwd, !ifa_neq; auto; intros ->; destruct Hx as [E|(k & X & E)]; congruence.
Qed.

Lemma R_new_list m g el l : Rel m g el -> g l = None -> Rel (list_ctor m l) (updv g l []) el.
Proof.
  intros R Hg. pose proof (R_put_null m g el l {| nx := Some (Nl l); pv := Some (Nl l) |} R Hg) as R'. constructor.
  - intros l' s' H. apply updv_cases in H as [[-> ->]|[Hl' H]]; [|eapply (r_circ _ _ _ R'); eauto].
    cbn. split; [|exact I]. unfold list_ctor. split; [rewrite put_fwd, ifa_eq; auto|rewrite put_bwd, ifa_eq; auto].
  - intros l' s' H. apply updv_cases in H as [[-> ->]|[Hl' H]]; [constructor|eapply (r_nd _ _ _ R'); eauto].
  - intros la lb sa sb k Ha Hb Hka Hkb. apply updv_cases in Ha. apply updv_cases in Hb.
    destruct Ha as [[-> ->]|[Ha' Ha]], Hb as [[-> ->]|[Hb' Hb]]; auto; try (destruct Hka; fail); try (destruct Hkb; fail).
    eapply (r_dj _ _ _ R'); eauto.
  - apply (r_alive _ _ _ R').
  - intros l' s' k H Hk. apply updv_cases in H as [[-> ->]|[Hl' H]]; [destruct Hk|eapply (r_out _ _ _ R'); eauto].
  - intros k Hk Hw. apply (r_free _ _ _ R'); auto. intros l' s' H X. eapply Hw; [|exact X].
    rewrite updv_neq; [exact H|congruence].
Qed.

(** Element [n] is constructed and in no list; it takes the place of [o]. *)
Lemma R_reinsert m g el l s1 o s2 n : Rel m g el -> g l = Some (s1 ++ o :: s2) -> el n <> Unborn -> nowhere g n -> n <> o ->
  exists m', reinsert m (El n) (El o) = Ok m' /\ Rel m' (updv g l (s1 ++ n :: s2)) (upd el n Out).
Proof.
  intros R Hg Hn Hw Hno. destruct (R_exclude _ _ _ _ _ _ _ R Hg) as (m1 & l1 & p & E1 & Bp & Ex & R1 & Hw1 & Ho).
  assert (Ao : alive m (El o)) by (apply (r_alive _ _ _ R); congruence).
  assert (Hw2 : nowhere (updv g l (s1 ++ s2)) n).
  { intros l' s' H. apply updv_cases in H as [[-> ->]|[Hl' H]]; [|eauto].
    intros X. apply (Hw _ _ Hg). rewrite in_app_iff in *. cbn. tauto. }
  destruct (R_insert _ _ _ l s1 s2 n R1 (updv_eq _ _ _) Hn Hw2) as (l1' & p' & q & l2 & E1' & E2' & (m2 & I2 & R2) & _).
  rewrite E1 in E1'. apply snoc_inj in E1' as [<- <-].
  exists m2. split.
  - unfold reinsert. assert (Inc : included m (El o) = Ok true).
    { destruct (included m (El o)) as [b| |] eqn:Ei; unfold exclude in Ex; rewrite Ei in Ex; cbn [rbind] in Ex; try discriminate.
      destruct b; [reflexivity|discriminate]. }
    rewrite Inc. cbn [rbind]. rewrite bnext_ok by auto. cbn [rbind]. rewrite Ex. cbn [rbind]. rewrite Bp. exact I2.
  - eapply rel_ext; [|exact R2]. intros l'. unfold updv, upd. destruct (Nat.eqb l' l); reflexivity.
Qed.

Lemma included_out m g el n : Rel m g el -> el n = Out -> nowhere g n -> included m (El n) = Ok false.
Proof.
  intros R Hn Hw. rewrite included_ok by (apply (r_alive _ _ _ R); congruence).
  destruct (r_free _ _ _ R n Hn Hw) as [-> ->]. reflexivity.
Qed.
Lemma included_in m g el l s n : Rel m g el -> g l = Some s -> In n s -> included m (El n) = Ok true.
Proof.
  intros R Hg Hn. apply in_split in Hn as (s1 & s2 & ->).
  destruct (R_exclude _ _ _ _ _ _ _ R Hg) as (m1 & l1 & p & _ & _ & Ex & _).
  destruct (included m (El n)) as [b| |] eqn:Ei; unfold exclude in Ex; rewrite Ei in Ex; cbn [rbind] in Ex; try discriminate.
  destruct b; [reflexivity|discriminate].
Qed.

(** *** From the specification to views *)
Definition vw (ls : list (nat * list nat)) : view := find_list ls.

Lemma find_in ls l s : find_list ls l = Some s -> In (l, s) ls.
Proof. induction ls as [|[k t] ls IH]; cbn; [discriminate|]. destruct (Nat.eqb_spec k l); [intros [= ->]; subst; auto|auto]. Qed.
Lemma in_find ls l s : NoDup (map fst ls) -> In (l, s) ls -> find_list ls l = Some s.
Proof.
  induction ls as [|[k t] ls IH]; cbn; [intros _ []|]. intros N [[= -> ->]|H]; [now rewrite Nat.eqb_refl|].
  apply NoDup_cons_iff in N as [N1 N2]. destruct (Nat.eqb_spec k l); [|auto]. subst. exfalso. apply N1.
  apply in_map_iff. exists (l, s). auto.
Qed.
Lemma find_none ls l : find_list ls l = None -> ~ In l (map fst ls).
Proof. induction ls as [|[k t] ls IH]; cbn; [auto|]. destruct (Nat.eqb_spec k l); [discriminate|]. intros H [|]; [auto|now apply IH]. Qed.
Lemma set_names ls l s : map fst (set_list ls l s) = map fst ls.
Proof. induction ls as [|[k t] ls IH]; cbn; [reflexivity|]. destruct (Nat.eqb k l); cbn; congruence. Qed.
Lemma edit_names f ls : map fst (edit f ls) = map fst ls.
Proof. unfold edit. rewrite map_map. reflexivity. Qed.
Lemma find_set ls l s t l' : find_list ls l = Some t -> find_list (set_list ls l s) l' = updv (find_list ls) l s l'.
Proof.
  unfold updv, upd. induction ls as [|[k u] ls IH]; cbn; [discriminate|]. destruct (Nat.eqb_spec k l).
  - intros _. subst. cbn. rewrite (Nat.eqb_sym l' l). destruct (Nat.eqb l l'); auto.
  - intros H. specialize (IH H). cbn. destruct (Nat.eqb_spec k l').
    + subst. destruct (Nat.eqb_spec l' l); [congruence|reflexivity].
    + exact IH.
Qed.
Lemma find_set_other ls a t l : (l =? a) = false -> find_list (set_list ls a t) l = find_list ls l.
Proof.
  intros Ha. induction ls as [|[k u] ls IH]; cbn; [reflexivity|]. destruct (Nat.eqb_spec k a); cbn.
  - destruct (Nat.eqb_spec k l); [lia|reflexivity].
  - destruct (Nat.eqb k l); [reflexivity|apply IH].
Qed.
Lemma find_edit f ls l : find_list (edit f ls) l = option_map f (find_list ls l).
Proof. induction ls as [|[k u] ls IH]; cbn; [reflexivity|]. destruct (Nat.eqb k l); cbn; auto. Qed.

Lemma mem_of_in n s : mem_of n s = true <-> In n s.
Proof.
  unfold mem_of. rewrite existsb_exists. split; [intros (x & X & Y)|intros X; exists n; split; auto; apply Nat.eqb_refl].
  apply Nat.eqb_eq in Y. now subst.
Qed.
Lemma member_in e n : NoDup (map fst (lists e)) -> member e n = true ->
  exists l s1 s2, find_list (lists e) l = Some (s1 ++ n :: s2).
Proof.
  intros N H. unfold member in H. apply existsb_exists in H as ((l & s) & H1 & H2). cbn in H2. apply mem_of_in in H2.
  apply in_split in H2 as (s1 & s2 & ->). exists l, s1, s2. now apply in_find.
Qed.
Lemma member_out e n : member e n = false -> nowhere (vw (lists e)) n.
Proof.
  unfold member, nowhere, vw. intros H l s Hl Hn. apply find_in in Hl.
  assert (X : existsb (fun p => mem_of n (snd p)) (lists e) = true); [|congruence].
  apply existsb_exists. exists (l, s). split; [auto|]. now apply mem_of_in.
Qed.

Lemma edit_one m el ls l s1 n s2 f t : Rel m (vw ls) el -> find_list ls l = Some (s1 ++ n :: s2) ->
  (~ In n s1 -> ~ In n s2 -> f (s1 ++ n :: s2) = t) -> (forall s, ~ In n s -> f s = s) ->
  forall l', find_list (edit f ls) l' = updv (vw ls) l t l'.
Proof.
  intros R Hg Hf Hid l'. rewrite find_edit. unfold updv, upd, vw. destruct (Nat.eqb_spec l' l) as [->|Hl].
  - rewrite Hg. cbn. f_equal. pose proof (r_nd _ _ _ R _ _ Hg) as N. apply NoDup_remove in N as [_ N].
    rewrite in_app_iff in N. apply Hf; tauto.
  - destruct (find_list ls l') as [s|] eqn:E; [|reflexivity]. cbn. f_equal. apply Hid. intros X. apply Hl.
    eapply (r_dj _ _ _ R); [exact E|exact Hg|exact X|]. rewrite in_app_iff. cbn. auto.
Qed.
Lemma edit_none ls n f : nowhere (vw ls) n -> (forall s, ~ In n s -> f s = s) ->
  forall l', find_list (edit f ls) l' = vw ls l'.
Proof.
  intros Hw Hid l'. rewrite find_edit. unfold vw in *. destruct (find_list ls l') as [s|] eqn:E; [|reflexivity].
  cbn. f_equal. apply Hid. eauto.
Qed.

Lemma without_id n s : ~ In n s -> without n s = s.
Proof.
  induction s as [|x s IH]; cbn; [reflexivity|]. intros H. destruct (Nat.eqb_spec x n); cbn; [tauto|]. f_equal. tauto.
Qed.
Lemma without_mid n s1 s2 : ~ In n s1 -> ~ In n s2 -> without n (s1 ++ n :: s2) = s1 ++ s2.
Proof.
  intros H1 H2. unfold without. rewrite filter_app. cbn. rewrite Nat.eqb_refl. cbn.
  f_equal; now apply without_id.
Qed.
Lemma after_id p a s : ~ In p s -> after p a s = s.
Proof. induction s as [|x s IH]; cbn; [reflexivity|]. intros H. destruct (Nat.eqb_spec x p); cbn; [tauto|]. f_equal. apply IH. tauto. Qed.
Lemma before_id p a s : ~ In p s -> before p a s = s.
Proof. induction s as [|x s IH]; cbn; [reflexivity|]. intros H. destruct (Nat.eqb_spec x p); cbn; [tauto|]. f_equal. apply IH. tauto. Qed.
Lemma replace_id p a s : ~ In p s -> replace_ p a s = s.
Proof. induction s as [|x s IH]; cbn; [reflexivity|]. intros H. destruct (Nat.eqb_spec x p); cbn; [tauto|]. f_equal. apply IH. tauto. Qed.
Lemma after_mid p a s1 s2 : ~ In p s1 -> ~ In p s2 -> after p a (s1 ++ p :: s2) = (s1 ++ [p]) ++ a :: s2.
Proof.
  intros H1 H2. unfold after. rewrite flat_map_app. cbn [flat_map]. rewrite Nat.eqb_refl.
  fold (after p a s1). fold (after p a s2). rewrite !after_id by auto. rewrite <- app_assoc. reflexivity.
Qed.
Lemma before_mid p a s1 s2 : ~ In p s1 -> ~ In p s2 -> before p a (s1 ++ p :: s2) = s1 ++ a :: p :: s2.
Proof.
  intros H1 H2. unfold before. rewrite flat_map_app. cbn [flat_map]. rewrite Nat.eqb_refl.
  fold (before p a s1). fold (before p a s2). rewrite !before_id by auto. reflexivity.
Qed.
Lemma replace_mid p a s1 s2 : ~ In p s1 -> ~ In p s2 -> replace_ p a (s1 ++ p :: s2) = s1 ++ a :: s2.
Proof.
  intros H1 H2. unfold replace_. rewrite map_app. cbn [map]. rewrite Nat.eqb_refl.
  fold (replace_ p a s1). fold (replace_ p a s2). rewrite !replace_id by auto. reflexivity.
Qed.

Lemma lose_lists s : forall e, lists (lose e s) = lists e /\ born (lose e s) = born e.
Proof. induction s as [|n s IH]; cbn; intros e; [auto|]. destruct (IH (with_elem e n Lost)). auto. Qed.
Lemma lose_elems s : forall e n, elems (lose e s) n = if mem_of n s then Lost else elems e n.
Proof.
  induction s as [|x s IH]; cbn; intros e n; [reflexivity|]. rewrite IH. fold (mem_of n s). cbn. unfold upd.
  destruct (Nat.eqb n x); destruct (mem_of n s); reflexivity.
Qed.

Lemma rel_el m g el el' : (forall n, el' n = el n) -> Rel m g el -> Rel m g el'.
Proof.
  intros E R. constructor; intros; try (rewrite E in *); eauto using r_circ, r_nd.
  - eapply (r_dj _ _ _ R); eauto.
  - now apply (r_alive _ _ _ R).
  - eapply (r_out _ _ _ R); eauto.
  - now apply (r_free _ _ _ R).
Qed.

(** *** The simulation relation *)
Definition counted (el : nat -> where_) (k : nat) : Prop :=
  exists bs, length bs = k /\ forall n, el n <> Unborn -> In n bs.
Definition Sim (st : qstate) (e : qspec) : Prop :=
  Rel (fst st) (vw (lists e)) (elems e) /\ NoDup (map fst (lists e)) /\ counted (elems e) (born e) /\ snd st = born e.

Lemma counted_same el el' k : counted el k -> (forall n, el n = Unborn -> el' n = Unborn) -> counted el' k.
Proof. intros (bs & H1 & H2) H. exists bs. split; [auto|]. intros n Hn. apply H2. intros X. apply Hn. auto. Qed.
Lemma counted_new el n k w : counted el k -> counted (upd el n w) (S k).
Proof.
  intros (bs & H1 & H2). exists (n :: bs). split; [cbn; congruence|]. intros x. unfold upd. destruct (Nat.eqb_spec x n); cbn; auto.
Qed.
Lemma size_bound m g el l s k : Rel m g el -> counted el k -> g l = Some s -> length s < S k.
Proof.
  intros R (bs & <- & H) Hg. apply Nat.lt_succ_r. apply NoDup_incl_length; [eapply (r_nd _ _ _ R); eauto|].
  intros n Hn. apply H. rewrite (r_out _ _ _ R _ _ _ Hg Hn). discriminate.
Qed.
