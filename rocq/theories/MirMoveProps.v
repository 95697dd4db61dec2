From Verif Require Import Common ObsThrowModel MirMoveModel MirMoveSpec.
From Coq Require Import Lia.

(** Paths in a forest *)
Section Forest.
Variable E : nat -> nat -> Prop.
Hypothesis uniq : forall t t' m, E t m -> E t' m -> t = t'.
Definition beq (x y : nat) : Prop := x = y \/ below E x y.
Lemma below_trans x y z : below E x y -> below E y z -> below E x z.
Proof. intros H. induction H; intros K; eapply B2; eauto. Qed.
Lemma beq_below x y z : beq x y -> below E y z -> below E x z.
Proof. intros [->|H] K; auto. eapply below_trans; eauto. Qed.
Lemma below_beq x y z : below E x y -> beq y z -> below E x z.
Proof. intros H [<-|K]; auto. eapply below_trans; eauto. Qed.
Lemma beq_trans x y z : beq x y -> beq y z -> beq x z.
Proof. intros [->|H] K; auto. right. eapply below_beq; eauto. Qed.
Lemma edge_beq x y z : E x y -> beq y z -> below E x z.
Proof. intros H K. eapply below_beq; eauto. now apply B1. Qed.
Lemma below_first x y : below E x y -> exists c, E x c /\ beq c y.
Proof. intros H. destruct H; eexists; split; eauto; [left|right]; auto. Qed.
Lemma below_last x y : below E x y -> exists q, beq x q /\ E q y.
Proof.
  intros H. induction H as [x y H|x y z H _ (q & Q & K)]; [exists x; split; [left|]; auto|]. exists q. split; auto. right. eapply edge_beq; eauto.
Qed.
Lemma beq_edge x y z : beq x y -> E y z -> below E x z.
Proof. intros H K. eapply beq_below; eauto. now apply B1. Qed.
(** above one object there is one chain *)
Lemma chain_above x y z : beq x z -> beq y z -> beq x y \/ beq y x.
Proof.
  intros [<-|H] K; [right; auto|]. revert y K. induction H as [x z H|x w z H B IH]; intros y K.
  - destruct K as [<-|K]; [left; right; now apply B1|]. apply below_last in K as (q & Q & K). rewrite (uniq _ _ _ H K). auto.
  - destruct (IH _ K) as [[->|I]|[->|I]].
    + left. right. now apply B1.
    + left. right. eapply B2; eauto.
    + left. right. now apply B1.
    + apply below_last in I as (q & Q & I). rewrite (uniq _ _ _ H I). auto.
Qed.
Lemma cycle_up x m : beq m x -> below E x x -> below E m m.
Proof.
  intros [->|H] C; auto. induction H as [m x H|m y x H B IH].
  - apply below_last in C as (q & Q & C). rewrite (uniq _ _ _ H C).  eapply below_beq; [apply B1; exact C|exact Q].
  - specialize (IH C). apply below_last in IH as (q & Q & K). rewrite (uniq _ _ _ H K). eapply below_beq; [apply B1; exact K|exact Q].
Qed.
Lemma apart p c1 c2 x : ~ below E p p -> E p c1 -> E p c2 -> beq c1 x -> beq c2 x -> c1 = c2.
Proof.
  intros N A B H K.
  assert (W : forall a b, E p a -> E p b -> beq a b -> a = b).
  { intros a b Ea Eb [|Q]; auto. exfalso. apply below_last in Q as (q & Q & R). rewrite (uniq _ _ _ R Eb) in Q. apply N. exact (edge_beq _ _ _ Ea Q). }
  destruct (chain_above _ _ _ H K); [|symmetry]; eauto.
Qed.
(** Paths downwards *)
Inductive path : nat -> list nat -> Prop :=
| P1 m : path m [m]
| P2 m c p : E m c -> path c p -> path m (m :: p).
Lemma path_in m p x : path m p -> In x p -> beq m x.
Proof.
  intros H. induction H as [m|m c p A H IH]; intros I.
  - destruct I as [->|[]]. left; auto.
  - destruct I as [->|I]; [left; auto|]. right. eapply edge_beq; eauto.
Qed.
Lemma path_nodup m p : path m p -> ~ below E m m -> NoDup p.
Proof.
  intros H. induction H as [m|m c p A H IH]; intros N; [repeat constructor; auto|]. constructor.
  - intros I. apply N. eapply edge_beq; eauto. eapply path_in; eauto.
  - apply IH. intros K. apply N. eapply cycle_up; [|exact K]. right. now apply B1.
Qed.
End Forest.

Lemma below_ext (E F : nat -> nat -> Prop) x y : (forall a b, E a b -> F a b) -> below E x y -> below F x y.
Proof. intros H K. induction K; [apply B1|eapply B2]; eauto. Qed.
Lemma beq_ext (E F : nat -> nat -> Prop) x y : (forall a b, E a b -> F a b) -> beq E x y -> beq F x y.
Proof. intros H [|K]; [left|right]; auto. eapply below_ext; eauto. Qed.

(** States as functions *)
Definition shape (s s' : mstate) : Prop :=
  length (mns s') = length (mns s) /\ (forall i, kind s' i = kind s i) /\ (forall i, obs s' i = obs s i).
Lemma shape_refl s : shape s s.
Proof. repeat split. Qed.
Lemma shape_trans a b c : shape a b -> shape b c -> shape a c.
Proof. intros (L & K & O) (L' & K' & O'). split; [congruence|]. split; intros i; [rewrite K'|rewrite O']; auto. Qed.
Lemma shape_edge s s' t m : shape s s' -> edge s' t m <-> edge s t m.
Proof. intros (_ & _ & O). unfold edge. rewrite O. tauto. Qed.
Lemma shape_below s s' x y : shape s s' -> below (edge s') x y <-> below (edge s) x y.
Proof. intros H. split; apply below_ext; intros a b; apply (shape_edge s s'); auto. Qed.
Lemma shape_beq s s' x y : shape s s' -> beq (edge s') x y <-> beq (edge s) x y.
Proof. intros H. split; apply beq_ext; intros a b; apply (shape_edge s s'); auto. Qed.

Lemma mget_lt s i n : mget s i = Some n -> i < length (mns s).
Proof. unfold mget. intros H. apply nth_error_Some. destruct (nth_error (mns s) i); discriminate. Qed.
Lemma mget_mset s i o x : i < length (mns s) -> mget (mset s i o) x = if Nat.eqb x i then o else mget s x.
Proof.
  intros L. unfold mget, mset. cbn. destruct (Nat.eqb_spec x i) as [->|N]; [rewrite nth_error_set_nth_eq; auto|rewrite nth_error_set_nth_neq; auto].
Qed.
Lemma mset_length s i o : length (mns (mset s i o)) = length (mns s).
Proof. apply set_nth_length. Qed.
Lemma mget_kind s i n : mget s i = Some n -> kind s i = Some (mir n) /\ obs s i = mobs n /\ elems s i = mxs n.
Proof. unfold kind, obs, elems. intros ->. auto. Qed.
Lemma alive_get s i : alive s i -> exists n, mget s i = Some n.
Proof. unfold alive, kind. destruct (mget s i); eauto. congruence. Qed.
Lemma get_alive s i n : mget s i = Some n -> alive s i.
Proof. unfold alive, kind. intros ->. discriminate. Qed.
Lemma alive_lt s i : alive s i -> i < length (mns s).
Proof. intros H. apply alive_get in H as (n & H). eapply mget_lt; eauto. Qed.
Lemma with_xs_shape s i l : shape s (with_xs s i l).
Proof.
  unfold with_xs. destruct (mget s i) as [n|] eqn:G; [|apply shape_refl]. pose proof (mget_lt _ _ _ G) as L. split; [cbn; apply set_nth_length|].
  split; intros x; unfold kind, obs; rewrite mget_mset by auto; destruct (Nat.eqb_spec x i) as [->|]; auto; rewrite G; auto.
Qed.
Lemma with_xs_elems s i l x : alive s i -> elems (with_xs s i l) x = if Nat.eqb x i then l else elems s x.
Proof.
  intros A. apply alive_get in A as (n & G). unfold with_xs. rewrite G. pose proof (mget_lt _ _ _ G) as L. unfold elems. rewrite mget_mset by auto.
  destruct (Nat.eqb_spec x i) as [->|]; auto.
Qed.
Lemma with_xs_calls s i l : mcalls (with_xs s i l) = mcalls s.
Proof. unfold with_xs. destruct (mget s i); auto. Qed.
Lemma call_shape s l : shape s (MSt (mns s) l).
Proof. repeat split. Qed.

(** What a call does to the elements of each object that is told, and when it is right *)
Definition act (c : zcall) (l : list Z) : list Z := match c with KAdded v => v :: l | KRemoving v => zdel v l | KClearing => [] end.
Definition right (c : zcall) (l : list Z) : Prop :=
  match c with KAdded v => ~ In v l | KRemoving v => In v l | KClearing => exists z, In z l end.
Lemma zin_in v l : zin v l = true <-> In v l.
Proof. unfold zin. rewrite existsb_exists. split; [intros (z & I & H); apply Z.eqb_eq in H; now subst|intros I; exists v; split; auto; apply Z.eqb_refl]. Qed.
Lemma right_step c l l' : (forall z, In z l' <-> In z l) -> right c l -> right c l'.
Proof. intros H. destruct c; cbn; rewrite ?H; auto. intros (z & I). exists z. apply H; auto. Qed.
Lemma act_step c l l' : (forall z, In z l' <-> In z l) -> forall z, In z (act c l') <-> In z (act c l).
Proof.
  intros H z. destruct c; cbn; [rewrite H; tauto| |tauto]. unfold zdel. rewrite !filter_In, H. tauto.
Qed.

(** How deep the observers below m are *)
Definition depth (s : mstate) (f m : nat) : Prop := forall p, path (edge s) m p -> length p <= f.
(** What a call needs: about m and everything below *)
Record good (s : mstate) (m : nat) : Prop := {
  g_uniq : forall t t' k, edge s t k -> edge s t' k -> t = t';
  g_alive : forall x, beq (edge s) m x -> alive s x;
  g_nodup : forall x, beq (edge s) m x -> NoDup (obs s x);
  g_step : forall x y, beq (edge s) m x -> edge s x y -> forall z, In z (elems s y) <-> In z (elems s x);
  g_cycle : ~ below (edge s) m m }.
Definition done (s s' : mstate) (c : zcall) (l : list nat) : Prop :=
  shape s s' /\ told s s' c l /\ forall x, elems s' x = if in_dec Nat.eq_dec x l then act c (elems s x) else elems s x.

Lemma good_child s m c : good s m -> edge s m c -> good s c.
Proof.
  intros [U A N S C] E. constructor; auto.
  - intros x H. apply A. right. eapply edge_beq; eauto.
  - intros x H. apply N. right. eapply edge_beq; eauto.
  - intros x y H. apply S. right. eapply edge_beq; eauto.
  - intros K. apply C. eapply cycle_up; [exact U| |exact K]. right. now apply B1.
Qed.
Lemma good_keep s s' m : shape s s' -> (forall x, beq (edge s) m x -> elems s' x = elems s x) -> good s m -> good s' m.
Proof.
  intros H K [U A N S C]. constructor.
  - intros t t' k. rewrite !(shape_edge s s' _ _ H). apply U.
  - intros x B. apply (shape_beq s s' _ _ H) in B. unfold alive. destruct H as (_ & -> & _). apply A; auto.
  - intros x B. apply (shape_beq s s' _ _ H) in B. destruct H as (_ & _ & ->). auto.
  - intros x y B E z. apply (shape_beq s s' _ _ H) in B. apply (shape_edge s s' _ _ H) in E. rewrite !K; auto. right. eapply beq_edge; eauto.
  - rewrite (shape_below s s' _ _ H). auto.
Qed.
Lemma depth_keep s s' f m : shape s s' -> depth s f m -> depth s' f m.
Proof.
  intros H D p P. apply D. clear D. induction P as [|m c p Ed P IH]; [constructor|]. apply (P2 _ _ c); auto. apply (shape_edge s s'); auto.
Qed.
Lemma depth_child s f m c : depth s (S f) m -> edge s m c -> depth s f c.
Proof. intros D E p P. specialize (D _ (P2 _ _ _ _ E P)). cbn in D. lia. Qed.

Lemma each_done (f : nat) (c : zcall) (p : nat) :
  (forall m s, good s m -> depth s f m -> right c (elems s m) -> exists s' l, tell f c m s = Ok s' /\ done s s' c l /\ forall x, In x l <-> beq (edge s) m x) ->
  forall ms s, NoDup ms -> (forall m, In m ms -> edge s p m) -> ~ below (edge s) p p -> (forall m, In m ms -> good s m /\ depth s f m /\ right c (elems s m)) ->
  exists s' l, each (tell f c) ms s = Ok s' /\ done s s' c l /\ forall x, In x l <-> exists m, In m ms /\ beq (edge s) m x.
Proof.
  intros T. induction ms as [|m ms IH]; intros s N Ed C G; cbn [each].
  - exists s, []. split; auto. split; [split; [apply shape_refl|split; [split; [constructor|reflexivity]|auto]]|]. intros x. split; [intros []|intros (m & [] & _)].
  - inversion N as [|? ? Nm Nms]; subst. destruct (G m (or_introl eq_refl)) as (Gm & Dm & Rm). destruct (T m s Gm Dm Rm) as (s1 & l1 & E1 & (Sh1 & (D1 & K1) & X1) & V1).
    rewrite E1. cbn [rbind].
    assert (AP : forall m' x, In m' ms -> beq (edge s) m' x -> ~ In x l1).
    { intros m' x I B J. apply V1 in J. apply Nm. replace m with m'; auto. eapply (apart (edge s) (g_uniq _ _ Gm) p); eauto; apply Ed; cbn; auto. }
    destruct (IH s1) as (s2 & l2 & E2 & (Sh2 & (D2 & K2) & X2) & V2); auto.
    + intros m' I. apply (shape_edge s s1); auto. apply Ed. cbn; auto.
    + rewrite (shape_below s s1); auto.
    + intros m' I. destruct (G m' (or_intror I)) as (Gm' & Dm' & Rm'). split; [|split].
      * eapply good_keep; eauto. intros x B. rewrite X1. destruct (in_dec Nat.eq_dec x l1) as [J|]; auto. exfalso. eapply AP; eauto.
      * eapply depth_keep; eauto.
      * rewrite X1. destruct (in_dec Nat.eq_dec m' l1) as [J|]; auto. exfalso. eapply AP; eauto. left; auto.
    + exists s2, (l2 ++ l1). split; auto.
      assert (V : forall x, In x l2 <-> exists m', In m' ms /\ beq (edge s) m' x).
      { intros x. rewrite V2. split; intros (m' & I & B); exists m'; split; auto; apply (shape_beq s s1); auto. }
      split; [split; [eapply shape_trans; eauto|split; [split|]]|].
      * clear - D1 D2 V AP. induction l2 as [|y l2 IH]; auto. cbn. inversion D2; subst. constructor.
        -- rewrite in_app_iff. intros [|J]; auto. assert (J2 : In y (y :: l2)) by (left; auto). apply V in J2 as (m' & I & B). eapply AP; eauto.
        -- clear IH. assert (AP2 : forall x, In x l2 -> ~ In x l1). { intros x I. assert (J : In x (y :: l2)) by (right; auto). apply V in J as (m' & I' & B). eapply AP; eauto. }
           clear - D1 H2 AP2. induction l2 as [|z l2 IH]; auto. cbn. inversion H2; subst. constructor; [rewrite in_app_iff; intros [|J]; auto; eapply AP2; eauto; left; auto|]. apply IH; auto. intros x I. apply AP2. right; auto.
      * rewrite K2, K1, map_app, app_assoc. auto.
      * intros x. rewrite X2, X1. destruct (in_dec Nat.eq_dec x (l2 ++ l1)) as [J|J]; rewrite in_app_iff in J; destruct (in_dec Nat.eq_dec x l2) as [J2|J2], (in_dec Nat.eq_dec x l1) as [J1|J1]; auto; try tauto.
        exfalso. apply V in J2 as (m' & I & B). eapply AP; eauto.
      * intros x. rewrite in_app_iff, V, V1. split; [intros [(m' & I & B)|B]; [exists m'|exists m]; cbn; auto|intros (m' & [->|I] & B); eauto].
Qed.

Definition tells (f : nat) (c : zcall) : Prop :=
  forall m s, good s m -> depth s f m -> right c (elems s m) -> exists s' l, tell f c m s = Ok s' /\ done s s' c l /\ forall x, In x l <-> beq (edge s) m x.
Lemma obs_done f c : tells f c -> forall m s s1, good s m -> (forall k, edge s m k -> depth s f k) -> right c (elems s m) ->
  shape s s1 -> (forall x, x <> m -> elems s1 x = elems s x) ->
  exists s2 l, each (tell f c) (obs s m) s1 = Ok s2 /\ done s1 s2 c l /\ forall x, In x l <-> below (edge s) m x.
Proof.
  intros T m s s1 G D R Sh X.
  destruct (each_done f c m T (obs s m) s1) as (s2 & l & E & Dn & V).
  - apply (g_nodup _ _ G). left; auto.
  - intros k I. apply (shape_edge s s1); auto.
  - rewrite (shape_below s s1); auto. apply (g_cycle _ _ G).
  - intros k I. assert (Ek : edge s m k) by exact I.
    assert (Nk : forall x, beq (edge s) k x -> x <> m). { intros x B ->. apply (g_cycle _ _ G). eapply edge_beq; eauto. }
    split; [|split].
    + eapply good_keep; eauto using good_child. 
    + eapply depth_keep; eauto.
    + rewrite X by (apply Nk; left; auto). eapply right_step; [|exact R]. apply (g_step _ _ G); auto. left; auto.
  - exists s2, l. split; auto. split; auto. intros x. rewrite V. split.
    + intros (k & I & B). apply (shape_beq s s1) in B; auto. eapply edge_beq; eauto.
    + intros B. apply below_first in B as (k & I & B). exists k. split; auto. apply (shape_beq s s1); auto.
Qed.
Lemma tell_done c : forall f, tells f c.
Proof.
  induction f as [|f T]; intros m s G D R.
  - specialize (D [m] (P1 _ _)). cbn in D. lia.
  - assert (Am : alive s m) by (apply (g_alive _ _ G); left; auto). destruct (alive_get _ _ Am) as (n & Gn). destruct (mget_kind _ _ _ Gn) as (Kn & On & Xn).
    cbn [tell]. set (s0 := MSt (mns s) ((m, c) :: mcalls s)). assert (G0 : mget s0 m = Some n) by exact Gn. rewrite G0.
    assert (Sh0 : shape s s0) by apply call_shape.
    assert (Dk : forall k, edge s m k -> depth s f k) by (intros k I; eapply depth_child; eauto).
    assert (Fin : forall (s1 s2 : mstate) l, done s1 s2 c l -> (forall x, In x l <-> below (edge s) m x) -> shape s s1 -> mcalls s1 = (m, c) :: mcalls s ->
              (forall x, x <> m -> elems s1 x = elems s x) ->
              forall s3, shape s2 s3 -> mcalls s3 = mcalls s2 -> (forall x, elems s3 x = if Nat.eqb x m then act c (elems s m) else elems s2 x) ->
              exists l', done s s3 c l' /\ forall x, In x l' <-> beq (edge s) m x).
    { intros s1 s2 l (Sh2 & (N2 & K2) & X2) V Sh1 K1 X1 s3 Sh3 K3 X3. exists (l ++ [m]).
      assert (Nm : ~ In m l) by (rewrite V; apply (g_cycle _ _ G)).
      split; [split; [|split; [split|]]|].
      - eapply shape_trans; [exact Sh1|]. eapply shape_trans; eauto.
      - clear - N2 Nm. induction l as [|y l IH]; [repeat constructor; auto|]. inversion N2; subst. cbn. constructor; [|apply IH; auto; intros J; apply Nm; right; auto].
        rewrite in_app_iff. intros [|[->|[]]]; auto. apply Nm. left; auto.
      - rewrite K3, K2, K1, map_app, <- app_assoc. auto.
      - intros x. rewrite X3, X2. destruct (Nat.eqb_spec x m) as [->|Nx].
        + destruct (in_dec Nat.eq_dec m (l ++ [m])) as [|J]; auto. exfalso. apply J. apply in_app_iff. right; left; auto.
        + rewrite X1 by auto. destruct (in_dec Nat.eq_dec x l) as [I|I], (in_dec Nat.eq_dec x (l ++ [m])) as [J|J]; auto; rewrite in_app_iff in J; cbn in J; exfalso; intuition congruence.
      - intros x. rewrite in_app_iff, V. cbn. unfold beq. intuition. }
    assert (Aft : forall s1 s2 l, done s1 s2 c l -> shape s s1 -> alive s2 m).
    { intros s1 s2 l (Sh2 & _) Sh1. destruct (shape_trans _ _ _ Sh1 Sh2) as (_ & K & _). unfold alive. rewrite K. auto. }
    destruct c as [v|v|].
    + cbn in R. destruct (zin v (mxs n)) eqn:Z0; [apply zin_in in Z0; rewrite Xn in R; tauto|].
      set (s1 := with_xs s0 m (v :: mxs n)). assert (Sh1 : shape s s1) by (eapply shape_trans; [exact Sh0|apply with_xs_shape]).
      assert (X1 : forall x, elems s1 x = if Nat.eqb x m then v :: mxs n else elems s x) by (intros x; unfold s1; rewrite with_xs_elems; auto).
      destruct (obs_done f (KAdded v) T m s s1 G Dk R Sh1) as (s2 & l & E & Dn & V).
      { intros x Nx. rewrite X1. apply Nat.eqb_neq in Nx. now rewrite Nx. }
      rewrite On in E. rewrite E.
      destruct (Fin s1 s2 l Dn V Sh1) with (s3 := s2) as (l' & F); auto; [unfold s1; now rewrite with_xs_calls| |apply shape_refl| |exists s2, l'; split; auto].
      * intros x Nx. rewrite X1. apply Nat.eqb_neq in Nx. now rewrite Nx.
      * intros x. destruct (Nat.eqb_spec x m) as [->|]; auto. destruct Dn as (_ & _ & X2). rewrite X2, X1, Nat.eqb_refl, Xn.
        destruct (in_dec Nat.eq_dec m l) as [J|]; auto. apply V in J. destruct (g_cycle _ _ G J).
    + cbn in R. destruct (zin v (mxs n)) eqn:Z0; [|rewrite <- not_true_iff_false, zin_in, <- Xn in Z0; tauto].
      destruct (obs_done f (KRemoving v) T m s s0 G Dk R Sh0) as (s2 & l & E & Dn & V); auto. rewrite On in E. rewrite E. cbn [rbind].
      destruct (Fin s0 s2 l Dn V Sh0) with (s3 := with_xs s2 m (zdel v (mxs n))) as (l' & F); auto; [apply with_xs_shape|apply with_xs_calls| |exists (with_xs s2 m (zdel v (mxs n))), l'; split; auto].
      intros x. rewrite with_xs_elems by eauto. cbn [act]. rewrite Xn. auto.
    + destruct (mxs n) as [|y r] eqn:Z0; [destruct R as (z & R); rewrite Xn in R; destruct R|].
      destruct (obs_done f KClearing T m s s0 G Dk R Sh0) as (s2 & l & E & Dn & V); auto. rewrite On in E. rewrite E. cbn [rbind].
      destruct (Fin s0 s2 l Dn V Sh0) with (s3 := with_xs s2 m []) as (l' & F); auto; [apply with_xs_shape|apply with_xs_calls| |exists (with_xs s2 m []), l'; split; auto].
      intros x. rewrite with_xs_elems by eauto. auto.
Qed.

(** The invariant, of the functions that a state gives *)
Definition ed (O : nat -> list nat) (t m : nat) : Prop := In m (O t).
Record Inv (K : nat -> option bool) (O : nat -> list nat) (X : nat -> list Z) : Prop := {
  v_live : forall t m, ed O t m -> K m = Some true;
  v_own : forall t, K t = None -> O t = [] /\ X t = [];
  v_uniq : forall t t' m, ed O t m -> ed O t' m -> t = t';
  v_nodup : forall t, NoDup (O t);
  v_step : forall t m, ed O t m -> forall z, In z (X m) <-> In z (X t);
  v_cycle : forall x, below (ed O) x x -> X x = [];
  v_set : forall i, NoDup (X i) }.
Definition inv (s : mstate) : Prop := Inv (kind s) (obs s) (elems s).
Lemma Inv_ext K O X K' O' X' : (forall i, K' i = K i) -> (forall i, O' i = O i) -> (forall i, X' i = X i) -> Inv K O X -> Inv K' O' X'.
Proof.
  intros HK HO HX [L W U N S C D]. assert (HE : forall a b, ed O' a b -> ed O a b) by (unfold ed; intros a b; now rewrite HO). constructor.
  - intros t m E. rewrite HK. eauto.
  - intros t E. rewrite HO, HX. apply W. now rewrite <- HK.
  - intros t t' m E E'. eauto.
  - intros t. rewrite HO. auto.
  - intros t m E. rewrite !HX. eauto.
  - intros x B. rewrite HX. apply C. eapply below_ext; eauto.
  - intros i. rewrite HX. auto.
Qed.
Lemma v_below K O X x y : Inv K O X -> below (ed O) x y -> forall z, In z (X y) <-> In z (X x).
Proof. intros V B. induction B as [x y E|x y z E B IH]; intros w; [eapply v_step; eauto|]. rewrite IH. eapply v_step; eauto. Qed.
Lemma v_empty K O X x y : Inv K O X -> below (ed O) x y -> X x = [] -> X y = [].
Proof. intros V B E. pose proof (v_below _ _ _ _ _ V B) as H. rewrite E in H. destruct (X y) as [|z r]; auto. destruct (H z) as (H1 & _). destruct H1; left; auto. Qed.
Lemma v_full K O X x y z : Inv K O X -> below (ed O) x y -> In z (X x) -> In z (X y).
Proof. intros V B. apply (v_below _ _ _ _ _ V B). Qed.

(** An object is cut out: its observers have been told that it clears. *)
Lemma inv_cut K O X i K' O' X' : Inv K O X ->
  (forall x, x <> i -> K' x = K x) -> (forall x, O' x = if Nat.eqb x i then [] else filter (fun k => negb (Nat.eqb k i)) (O x)) ->
  X' i = [] -> (forall x, X' x = X x \/ X' x = [] /\ beq (ed O) i x) -> (forall x, below (ed O) i x -> X' x = []) -> Inv K' O' X'.
Proof.
  intros [L W U N S C D] HK HO Xi H1 H2.
  assert (HE : forall t m, ed O' t m -> ed O t m /\ t <> i /\ m <> i).
  { intros t m. unfold ed. rewrite HO. destruct (Nat.eqb_spec t i); [intros []|]. rewrite filter_In. intros (I & J). split; auto. split; auto. intros ->. rewrite Nat.eqb_refl in J. discriminate. }
  constructor.
  - intros t m E. apply HE in E as (E & _ & Nm). rewrite HK; eauto.
  - intros t E. rewrite HO. destruct (Nat.eqb_spec t i) as [->|Nt]; auto. rewrite HK in E by auto. destruct (W _ E) as (Ot & Xt). rewrite Ot. split; auto.
    destruct (H1 t) as [->|(-> & _)]; auto.
  - intros t t' m E E'. apply HE in E as (E & _). apply HE in E' as (E' & _). eauto.
  - intros t. rewrite HO. destruct (Nat.eqb t i); [constructor|]. apply NoDup_filter. auto.
  - intros t m E. apply HE in E as (E & Nt & Nm). destruct (H1 t) as [Et|(Et & Bt)].
    + destruct (H1 m) as [Em|(Em & [->|Bm])]; [rewrite Et, Em; eauto|congruence|].
      pose proof Bm as B0. apply below_last in Bm as (q & Q & Bm). rewrite (U _ _ _ Bm E) in Q. destruct Q as [->|Q]; [congruence|]. rewrite Em, (H2 _ Q). tauto.
    + rewrite Et, (H2 m); [tauto|]. eapply beq_edge; eauto.
  - intros x B. assert (B0 : below (ed O) x x) by (eapply below_ext; [|exact B]; intros a b E; apply HE in E; tauto). apply C in B0. destruct (H1 x) as [->|(-> & _)]; auto.
  - intros x. destruct (H1 x) as [->|(-> & _)]; auto. constructor.
Qed.

(** An object k without observers that observes nothing takes the place of j. *)
Lemma inv_move K O X j k K' O' X' : Inv K O X -> j <> k -> O k = [] -> (forall t, ~ ed O t k) ->
  (forall x, x <> k -> K' x = K x) -> K' k = K j ->
  (forall x, O' x = if Nat.eqb x j then [] else map (ren j k) (O (if Nat.eqb x k then j else x))) ->
  (forall x, X' x = if Nat.eqb x j then [] else X (if Nat.eqb x k then j else x)) -> Inv K' O' X'.
Proof.
  intros [L W U N S C D] Njk Ok Ek HK HKk HO HX. set (b x := if Nat.eqb x k then j else x).
  assert (BI : forall x y, x <> j -> y <> j -> b x = b y -> x = y).
  { unfold b. intros x y Nx Ny. destruct (Nat.eqb_spec x k), (Nat.eqb_spec y k); congruence. }
  assert (HE : forall t m, ed O' t m -> ed O (b t) (b m) /\ t <> j /\ m <> j).
  { intros t m. unfold ed. rewrite HO. destruct (Nat.eqb_spec t j); [intros []|]. fold (b t). rewrite in_map_iff. intros (m0 & R & I). revert R. unfold ren.
    destruct (Nat.eqb_spec m0 j) as [->|Nm]; intros <-.
    - replace (b k) with j by (unfold b; now rewrite Nat.eqb_refl). auto.
    - assert (Nk : m0 <> k) by (intros ->; eapply Ek; exact I). replace (b m0) with m0 by (unfold b; apply Nat.eqb_neq in Nk; now rewrite Nk). auto. }
  assert (HXb : forall x, x <> j -> X' x = X (b x)) by (intros x Nx; rewrite HX; apply Nat.eqb_neq in Nx; rewrite Nx; auto).
  constructor.
  - intros t m E. apply HE in E as (E & _ & Nm). apply L in E. unfold b in E. destruct (Nat.eqb_spec m k) as [Em|Nk]; [rewrite Em, HKk; auto|rewrite HK; auto].
  - intros t E. rewrite HO, HX. destruct (Nat.eqb_spec t j) as [->|Nt]; auto. destruct (Nat.eqb_spec t k) as [->|Nk].
    + rewrite HKk in E. destruct (W _ E) as (-> & ->). auto.
    + rewrite HK in E by auto. destruct (W _ E) as (-> & ->). auto.
  - intros t t' m E E'. apply HE in E as (E & Nt & _). apply HE in E' as (E' & Nt' & _). apply BI; eauto.
  - intros t. rewrite HO. destruct (Nat.eqb t j); [constructor|]. fold (b t). assert (Nk : ~ In k (O (b t))) by apply Ek. pose proof (N (b t)) as Nb. revert Nk Nb. generalize (O (b t)).
    intros l Nk Nb. induction Nb as [|y l Ny Nl IH]; cbn; constructor.
    + rewrite in_map_iff. intros (z & R & I). unfold ren in R. destruct (Nat.eqb_spec y j), (Nat.eqb_spec z j); subst; auto; apply Nk; cbn; auto.
    + apply IH. intros I. apply Nk. right; auto.
  - intros t m E. apply HE in E as (E & Nt & Nm). rewrite !HXb by auto. eauto.
  - intros x B. assert (B0 : forall y, below (ed O') x y -> below (ed O) (b x) (b y) /\ x <> j).
    { clear B. intros y B. induction B as [x y E|x y z E B IH]; apply HE in E as (E & Nt & _); split; auto; [now apply B1|]. eapply B2; [exact E|]. apply IH. }
    apply B0 in B as (B & Nx). rewrite HXb by auto. auto.
  - intros x. rewrite HX. destruct (Nat.eqb x j); [constructor|]. auto.
Qed.

(** The elements of an object that observes nothing and of all below change in the same way. *)
Lemma inv_act K O X c i X' : Inv K O X -> (forall t, ~ ed O t i) -> right c (X i) -> K i <> None ->
  (forall x, beq (ed O) i x -> X' x = act c (X x)) -> (forall x, X' x = X x \/ beq (ed O) i x) -> Inv K O X'.
Proof.
  intros V NE R A H1 H2. assert (V' := V). destruct V' as [L W U N S C D].
  assert (Nc : ~ below (ed O) i i) by (intros B; apply below_last in B as (q & _ & B); eapply NE; eauto).
  constructor; auto.
  - intros t E. split; [apply W; auto|]. destruct (H2 t) as [->|[->|B]]; [apply W; auto|congruence|]. apply below_last in B as (q & _ & B). apply L in B. congruence.
  - intros t m E. destruct (H2 m) as [Em|[->|Bm]].
    + destruct (H2 t) as [Et|Bt]; [rewrite Em, Et; eauto|]. assert (Bm : beq (ed O) i m) by (right; eapply beq_edge; eauto). rewrite !H1 by auto. apply act_step. eauto.
    + destruct (NE _ E).
    + assert (Bt : beq (ed O) i t). { apply below_last in Bm as (q & Q & Bm). now rewrite (U _ _ _ E Bm). } rewrite !H1 by (auto; right; auto). apply act_step. eauto.
  - intros x B. destruct (H2 x) as [->|Bx]; auto. destruct Nc. eapply cycle_up; eauto.
  - intros x. destruct (H2 x) as [->|Bx]; auto. rewrite H1 by auto. assert (Rx : right c (X x)).
    { destruct Bx as [<-|Bx]; auto. eapply right_step; [|exact R]. eapply v_below; eauto. }
    destruct c; cbn in *; [constructor; auto|unfold zdel; apply NoDup_filter; auto|constructor].
Qed.

Lemma inv_good s m : inv s -> ~ below (edge s) m m -> alive s m -> good s m.
Proof.
  intros V C A. constructor; auto.
  - exact (v_uniq _ _ _ V).
  - intros x [<-|B]; auto. apply below_last in B as (q & _ & B). unfold alive. rewrite (v_live _ _ _ V _ _ B). discriminate.
  - intros x _. apply (v_nodup _ _ _ V).
  - intros x y _. apply (v_step _ _ _ V).
Qed.
Lemma good_depth s m : good s m -> depth s (length (mns s)) m.
Proof.
  intros G p P. rewrite <- (seq_length (length (mns s)) 0). apply NoDup_incl_length.
  - eapply path_nodup; eauto; apply G.
  - intros x I. apply in_seq. split; [lia|]. cbn. apply alive_lt. apply (g_alive _ _ G). eapply path_in; eauto.
Qed.
Lemma notify_done fuel c s i s1 : good s i -> length (mns s) <= fuel -> right c (elems s i) -> shape s s1 -> (forall x, x <> i -> elems s1 x = elems s x) ->
  exists s2 l, each (tell fuel c) (obs s i) s1 = Ok s2 /\ done s1 s2 c l /\ forall x, In x l <-> below (edge s) i x.
Proof.
  intros G F R Sh X. apply obs_done; auto; [apply tell_done|]. intros k E p P. transitivity (length (mns s)); auto. apply (good_depth s k); auto. exact (good_child _ _ _ G E).
Qed.
Lemma no_cycle s i : (forall t, ~ edge s t i) -> ~ below (edge s) i i.
Proof. intros H B. apply below_last in B as (q & _ & B). eapply H; eauto. Qed.
Lemma source_root s i : inv s -> kind s i = Some false -> forall t, ~ edge s t i.
Proof. intros V K t E. pose proof (v_live _ _ _ V _ _ E). congruence. Qed.

(** i and the objects in l *)
Definition changed (s s' : mstate) (c : zcall) (i : nat) : Prop :=
  exists l, shape s s' /\ told s s' c l /\ (forall x, In x l <-> below (edge s) i x) /\
  (forall x, elems s' x = if in_dec Nat.eq_dec x (i :: l) then act c (elems s x) else elems s x).
Lemma changed_inv s s' c i : inv s -> (forall t, ~ edge s t i) -> right c (elems s i) -> alive s i -> changed s s' c i -> inv s'.
Proof.
  intros V NE R A (l & Sh & _ & Vl & X). destruct Sh as (_ & HK & HO).
  assert (Q : forall x, In x (i :: l) <-> beq (edge s) i x) by (intros x; cbn; rewrite Vl; unfold beq; tauto).
  eapply Inv_ext; [exact HK|exact HO|reflexivity|]. eapply (inv_act _ _ _ c i); eauto.
  - intros x B. rewrite X. destruct (in_dec Nat.eq_dec x (i :: l)) as [|J]; auto. destruct J. apply Q. exact B.
  - intros x. rewrite X. destruct (in_dec Nat.eq_dec x (i :: l)) as [J|]; auto. right. apply Q in J. exact J.
Qed.
Lemma change_add fuel s i v n : good s i -> mget s i = Some n -> length (mns s) <= fuel -> ~ In v (mxs n) ->
  exists s', each (tell fuel (KAdded v)) (mobs n) (with_xs s i (v :: mxs n)) = Ok s' /\ changed s s' (KAdded v) i.
Proof.
  intros G Gn F R. destruct (mget_kind _ _ _ Gn) as (Kn & On & Xn). rewrite <- Xn in R. assert (A := get_alive _ _ _ Gn).
  destruct (notify_done fuel (KAdded v) s i (with_xs s i (v :: mxs n)) G F R) as (s2 & l & E & (Sh & (N & C) & X) & V).
  - apply with_xs_shape.
  - intros x Nx. rewrite with_xs_elems by auto. apply Nat.eqb_neq in Nx. now rewrite Nx.
  - rewrite On in E. exists s2. split; auto. exists l. split; [eapply shape_trans; [apply with_xs_shape|eauto]|]. split; [split; auto; rewrite C; now rewrite with_xs_calls|].
    split; auto. intros x. rewrite X, with_xs_elems by auto. destruct (Nat.eqb_spec x i) as [->|Nx].
    + destruct (in_dec Nat.eq_dec i l) as [J|]; [apply V in J; destruct (g_cycle _ _ G J)|]. destruct (in_dec Nat.eq_dec i (i :: l)) as [|J]; [cbn; now rewrite Xn|destruct J; left; auto].
    + destruct (in_dec Nat.eq_dec x l) as [J|J], (in_dec Nat.eq_dec x (i :: l)) as [I|I]; auto; cbn in I; exfalso; intuition congruence.
Qed.
Lemma change_del fuel c s i n : good s i -> mget s i = Some n -> length (mns s) <= fuel -> right c (mxs n) -> (forall v, c <> KAdded v) ->
  exists s2, each (tell fuel c) (mobs n) s = Ok s2 /\ changed s (with_xs s2 i (act c (mxs n))) c i.
Proof.
  intros G Gn F R NC. destruct (mget_kind _ _ _ Gn) as (Kn & On & Xn). rewrite <- Xn in R. assert (A := get_alive _ _ _ Gn).
  destruct (notify_done fuel c s i s G F R (shape_refl s)) as (s2 & l & E & (Sh & (N & C) & X) & V); auto.
  rewrite On in E. exists s2. split; auto. exists l. split; [eapply shape_trans; [eauto|apply with_xs_shape]|]. split; [split; auto; now rewrite with_xs_calls|].
  split; auto. intros x. rewrite with_xs_elems by (unfold alive; destruct Sh as (_ & -> & _); auto). rewrite X. destruct (Nat.eqb_spec x i) as [->|Nx].
  + destruct (in_dec Nat.eq_dec i (i :: l)) as [|J]; [now rewrite Xn|destruct J; left; auto].
  + destruct (in_dec Nat.eq_dec x l) as [J|J], (in_dec Nat.eq_dec x (i :: l)) as [I|I]; auto; cbn in I; exfalso; intuition congruence.
Qed.

Lemma step_new fuel s b : inv s -> exists s', mstep fuel (MNew b) s = Ok s' /\ inv s'.
Proof.
  intros V. eexists. split; [reflexivity|]. set (k := length (mns s)).
  assert (G : forall x, mget (MSt (mns s ++ [Some (MNd b [] [])]) (mcalls s)) x = if Nat.eqb x k then Some (MNd b [] []) else mget s x).
  { intros x. unfold mget. cbn. destruct (Nat.eqb_spec x k) as [->|N].
    - rewrite nth_error_app2 by auto. unfold k. now rewrite Nat.sub_diag.
    - destruct (Nat.lt_ge_cases x k) as [L|L]; [rewrite nth_error_app1; auto|]. unfold k in *. rewrite nth_error_app2 by auto. replace (nth_error (mns s) x) with (@None (option mnode)) by (symmetry; now apply nth_error_None).
      destruct (x - length (mns s)) as [|[|d]] eqn:Q; cbn; auto. lia. }
  assert (Gk : mget s k = None) by (unfold mget; replace (nth_error (mns s) k) with (@None (option mnode)); auto; symmetry; apply nth_error_None; unfold k; auto).
  assert (Ok0 : obs s k = [] /\ elems s k = [] /\ kind s k = None) by (unfold obs, elems, kind; rewrite Gk; auto). destruct Ok0 as (Ok0 & Xk & Kk).
  destruct V as [L W U N S C D]. constructor.
  - intros t m. unfold ed, obs. rewrite G. destruct (Nat.eqb_spec t k); [intros []|]. intros I. assert (E := L t m I). unfold kind. rewrite G. destruct (Nat.eqb_spec m k) as [->|]; auto. congruence.
  - intros t. unfold kind, obs, elems. rewrite G. destruct (Nat.eqb_spec t k); auto. apply (W t).
  - intros t t' m. unfold ed, obs. rewrite !G. destruct (Nat.eqb_spec t k), (Nat.eqb_spec t' k); try (intros []; fail); try (intros _ []; fail). apply U.
  - intros t. unfold obs. rewrite G. destruct (Nat.eqb_spec t k); [constructor|]. apply (N t).
  - intros t m. unfold ed, obs. rewrite G. destruct (Nat.eqb_spec t k); [intros []|]. intros I z. assert (E := L t m I). unfold elems. rewrite !G. destruct (Nat.eqb_spec m k) as [->|]; [congruence|].
    destruct (Nat.eqb_spec t k) as [->|]; [tauto|]. apply (S t m I z).
  - intros x B. unfold elems. rewrite G. destruct (Nat.eqb_spec x k); auto. apply (C x). eapply below_ext; [|exact B]. intros a c. unfold ed, obs. rewrite G. destruct (Nat.eqb_spec a k); auto. intros [].
  - intros x. unfold elems. rewrite G. destruct (Nat.eqb_spec x k); [constructor|]. apply (D x).
Qed.
Lemma step_insert fuel s i v : inv s -> kind s i = Some false -> length (mns s) <= fuel ->
  exists s', mstep fuel (MInsert i v) s = Ok s' /\ inv s' /\ (In v (elems s i) /\ s' = s \/ ~ In v (elems s i) /\ changed s s' (KAdded v) i).
Proof.
  intros V K F. assert (A : alive s i) by (unfold alive; congruence). destruct (alive_get _ _ A) as (n & Gn). destruct (mget_kind _ _ _ Gn) as (Kn & On & Xn).
  assert (R := source_root _ _ V K). cbn [mstep]. rewrite Gn. replace (mir n) with false by congruence. destruct (zin v (mxs n)) eqn:Z0.
  - apply zin_in in Z0. exists s. rewrite Xn. auto.
  - rewrite <- not_true_iff_false, zin_in in Z0. destruct (change_add fuel s i v n) as (s' & E & C); auto; [apply inv_good; auto; now apply no_cycle|].
    exists s'. split; auto. split; [|right; rewrite Xn; auto]. eapply changed_inv; eauto. cbn. now rewrite Xn.
Qed.
Lemma step_erase fuel s i v : inv s -> kind s i = Some false -> length (mns s) <= fuel ->
  exists s', mstep fuel (MErase i v) s = Ok s' /\ inv s' /\ (~ In v (elems s i) /\ s' = s \/ In v (elems s i) /\ changed s s' (KRemoving v) i).
Proof.
  intros V K F. assert (A : alive s i) by (unfold alive; congruence). destruct (alive_get _ _ A) as (n & Gn). destruct (mget_kind _ _ _ Gn) as (Kn & On & Xn).
  assert (R := source_root _ _ V K). cbn [mstep]. rewrite Gn. replace (mir n) with false by congruence. destruct (zin v (mxs n)) eqn:Z0.
  - apply zin_in in Z0. destruct (change_del fuel (KRemoving v) s i n) as (s' & E & C); auto; [apply inv_good; auto; now apply no_cycle|discriminate|]. rewrite E. cbn [rbind].
    eexists. split; [reflexivity|]. split; [|right; rewrite Xn; auto]. eapply changed_inv; eauto. cbn. now rewrite Xn.
  - rewrite <- not_true_iff_false, zin_in in Z0. exists s. rewrite Xn. auto.
Qed.
Lemma step_clear fuel s i : inv s -> kind s i = Some false -> length (mns s) <= fuel ->
  exists s', mstep fuel (MClear i) s = Ok s' /\ inv s' /\ (elems s i = [] /\ s' = s \/ elems s i <> [] /\ changed s s' KClearing i).
Proof.
  intros V K F. assert (A : alive s i) by (unfold alive; congruence). destruct (alive_get _ _ A) as (n & Gn). destruct (mget_kind _ _ _ Gn) as (Kn & On & Xn).
  assert (R := source_root _ _ V K). cbn [mstep]. rewrite Gn. replace (mir n) with false by congruence. destruct (mxs n) as [|y r] eqn:Z0.
  - exists s. rewrite Xn. auto.
  - assert (Rt : right KClearing (mxs n)) by (exists y; rewrite Z0; left; auto).
    destruct (change_del fuel KClearing s i n) as (s' & E & C); auto; [apply inv_good; auto; now apply no_cycle|discriminate|]. rewrite E. cbn [rbind].
    eexists. split; [reflexivity|]. split; [|right; rewrite Xn; split; [discriminate|exact C]]. eapply changed_inv; eauto. rewrite Xn. rewrite <- Z0. auto.
Qed.

Lemma on_obs_get f s x : mget (on_obs f s) x = match mget s x with Some n => Some (MNd (mir n) (mxs n) (f (mobs n))) | None => None end.
Proof. unfold mget, on_obs. cbn. rewrite nth_error_map. destruct (nth_error (mns s) x) as [[n|]|]; auto. Qed.
Lemma on_obs_kind f s x : kind (on_obs f s) x = kind s x.
Proof. unfold kind. rewrite on_obs_get. destruct (mget s x); auto. Qed.
Lemma on_obs_elems f s x : elems (on_obs f s) x = elems s x.
Proof. unfold elems. rewrite on_obs_get. destruct (mget s x); auto. Qed.
Lemma on_obs_obs f s x : f [] = [] -> obs (on_obs f s) x = f (obs s x).
Proof. unfold obs. rewrite on_obs_get. destruct (mget s x); auto. Qed.
Lemma on_obs_length f s : length (mns (on_obs f s)) = length (mns s).
Proof. cbn. now rewrite map_length. Qed.

(** A part of the subscriptions *)
Lemma inv_sub K O X O' : Inv K O X -> (forall t m, ed O' t m -> ed O t m) -> (forall t, NoDup (O' t)) -> (forall t, O t = [] -> O' t = []) -> Inv K O' X.
Proof.
  intros [L W U N S C D] H N' Z0. constructor; eauto.
  - intros t E. destruct (W _ E). auto.
  - intros x B. apply C. eapply below_ext; eauto.
Qed.
Lemma step_unsub fuel s m : inv s -> kind s m = Some true -> exists s', mstep fuel (MUnsub m) s = Ok s' /\ inv s'.
Proof.
  intros V K. assert (A : alive s m) by (unfold alive; congruence). destruct (alive_get _ _ A) as (n & Gn). destruct (mget_kind _ _ _ Gn) as (Kn & _). cbn [mstep]. rewrite Gn.
  replace (mir n) with true by congruence. eexists. split; [reflexivity|]. unfold exclude.
  apply (Inv_ext (kind s) (fun x => filter (fun k => negb (Nat.eqb k m)) (obs s x)) (elems s)); [apply on_obs_kind|intros x; apply on_obs_obs; reflexivity|apply on_obs_elems|].
  eapply inv_sub; eauto.
  - intros t k. unfold ed. rewrite filter_In. tauto.
  - intros t. apply NoDup_filter. apply (v_nodup _ _ _ V).
  - intros t ->. auto.
Qed.

Lemma included_edge s m : included m s = true <-> exists t, edge s t m.
Proof.
  unfold included. rewrite existsb_exists. split.
  - intros ([n|] & I & J); [|discriminate]. apply In_nth_error in I as (t & I). exists t. unfold edge, obs, mget. rewrite I. apply existsb_exists in J as (k & J & Q). apply Nat.eqb_eq in Q. now subst.
  - intros (t & E). unfold edge, obs, mget in E. destruct (nth_error (mns s) t) as [[n|]|] eqn:Q; try (destruct E; fail). exists (Some n). split; [eapply nth_error_In; eauto|].
    apply existsb_exists. exists m. split; auto. apply Nat.eqb_refl.
Qed.
Lemma fill_done fuel m : forall l s, inv s -> (forall t, ~ edge s t m) -> alive s m -> length (mns s) <= fuel -> NoDup l -> (forall v, In v l -> ~ In v (elems s m)) ->
  exists s', fill fuel m l s = Ok s' /\ inv s' /\ shape s s' /\ (forall z, In z (elems s' m) <-> In z l \/ In z (elems s m)) /\
  (forall x, ~ beq (edge s) m x -> elems s' x = elems s x).
Proof.
  induction l as [|v l IH]; intros s V NE A F N D; cbn [fill].
  - exists s. split; auto. split; auto. split; [apply shape_refl|]. split; auto. cbn; tauto.
  - inversion N as [|? ? Nv Nl]; subst. assert (G : good s m) by (apply inv_good; auto; now apply no_cycle).
    assert (R : right (KAdded v) (elems s m)) by (apply D; left; auto).
    assert (Dp : depth s fuel m) by (intros p P; transitivity (length (mns s)); auto; apply (good_depth s m); auto).
    destruct (tell_done (KAdded v) fuel m s G Dp R) as (s1 & l1 & E1 & (Sh & (N1 & C1) & X1) & V1).
    rewrite E1. cbn [rbind].
    assert (V2 : inv s1).
    { destruct Sh as (_ & HK & HO). eapply Inv_ext; [exact HK|exact HO|reflexivity|]. eapply (inv_act _ _ _ (KAdded v) m); eauto.
      - intros x B. rewrite X1. destruct (in_dec Nat.eq_dec x l1) as [|J]; auto. destruct J. apply V1. exact B.
      - intros x. rewrite X1. destruct (in_dec Nat.eq_dec x l1) as [J|]; auto. right. apply V1 in J. exact J. }
    assert (Xm : elems s1 m = v :: elems s m). { rewrite X1. destruct (in_dec Nat.eq_dec m l1) as [|J]; auto. destruct J. apply V1. left; auto. }
    destruct (IH s1) as (s2 & E2 & I2 & Sh2 & Xm2 & X2); auto.
    + intros t. rewrite (shape_edge s s1); auto.
    + unfold alive. destruct Sh as (_ & -> & _). auto.
    + destruct Sh as (-> & _). auto.
    + intros w I. rewrite Xm. intros [->|J]; [auto|]. eapply D; [right; exact I|auto].
    + exists s2. split; auto. split; auto. split; [eapply shape_trans; eauto|]. split.
      * intros z. rewrite Xm2, Xm. cbn. intuition.
      * intros x B. rewrite X2 by (rewrite (shape_beq s s1); auto). rewrite X1. destruct (in_dec Nat.eq_dec x l1) as [J|]; auto. apply V1 in J. tauto.
Qed.
(** A path that may use one more edge *)
Lemma below_more (E : nat -> nat -> Prop) t m x y : below (fun a b => E a b \/ a = t /\ b = m) x y -> below E x y \/ beq E x t /\ beq E m y.
Proof.
  intros H. induction H as [x y [H|(-> & ->)]|x y z [H|(-> & ->)] _ IH].
  - left. now apply B1.
  - right. split; left; auto.
  - destruct IH as [IH|(I & J)]; [left; eapply B2; eauto|]. right. split; auto. right. eapply edge_beq; eauto.
  - right. split; [left; auto|]. destruct IH as [IH|(I & J)]; [right; auto|auto].
Qed.
Lemma step_reflect fuel s m t : inv s -> kind s m = Some true -> alive s t -> elems s m = [] -> (forall t', ~ edge s t' m) -> length (mns s) <= fuel ->
  exists s', mstep fuel (MReflect m t) s = Ok s' /\ inv s' /\ edge s' t m.
Proof.
  intros V K At Xm NE F. assert (A : alive s m) by (unfold alive; congruence). destruct (alive_get _ _ A) as (n & Gn). destruct (mget_kind _ _ _ Gn) as (Kn & _).
  destruct (alive_get _ _ At) as (k & Gk). destruct (mget_kind _ _ _ Gk) as (_ & Ok0 & Xk). cbn [mstep]. rewrite Gn, Gk. replace (mir n) with true by congruence.
  destruct (fill_done fuel m (mxs k) s) as (s1 & E1 & V1 & Sh & Xm1 & X1); auto; [rewrite <- Xk; apply (v_set _ _ _ V)|rewrite Xm; auto|].
  rewrite E1. cbn [rbind].
  assert (NE1 : forall t', ~ edge s1 t' m) by (intros t'; rewrite (shape_edge s s1); auto).
  destruct (included m s1) eqn:In1; [apply included_edge in In1 as (t' & E); destruct (NE1 _ E)|].
  assert (At1 : alive s1 t) by (unfold alive; destruct Sh as (_ & -> & _); auto). destruct (alive_get _ _ At1) as (k1 & Gk1). rewrite Gk1. destruct (mget_kind _ _ _ Gk1) as (Kk1 & Ok1 & Xk1).
  eexists. split; [reflexivity|]. pose proof (mget_lt _ _ _ Gk1) as Lt. set (s2 := mset s1 t (Some (MNd (mir k1) (mxs k1) (mobs k1 ++ [m])))).
  assert (HK : forall x, kind s2 x = kind s1 x) by (intros x; unfold kind, s2; rewrite mget_mset by auto; destruct (Nat.eqb_spec x t) as [->|]; auto; rewrite Gk1; auto).
  assert (HX : forall x, elems s2 x = elems s1 x) by (intros x; unfold elems, s2; rewrite mget_mset by auto; destruct (Nat.eqb_spec x t) as [->|]; auto; rewrite Gk1; auto).
  assert (HO : forall x, obs s2 x = if Nat.eqb x t then obs s1 t ++ [m] else obs s1 x) by (intros x; unfold obs, s2; rewrite mget_mset by auto; destruct (Nat.eqb_spec x t) as [->|]; auto; rewrite Gk1; auto).
  assert (HE : forall a b, edge s2 a b <-> edge s1 a b \/ a = t /\ b = m).
  { intros a b. unfold edge. rewrite HO. destruct (Nat.eqb_spec a t) as [->|]; [rewrite in_app_iff; cbn; intuition|]. intuition. }
  (* the elements of t have not changed *)
  assert (Em : elems s t = [] /\ s1 = s \/ ~ beq (edge s) m t).
  { destruct (mxs k) as [|y r] eqn:Q; [left; cbn in E1; split; congruence|]. right. intros [<-|B]; [rewrite Xm in Xk; discriminate|].
    pose proof (v_empty _ _ _ _ _ V B Xm). congruence. }
  assert (Xt : forall z, In z (elems s1 m) <-> In z (elems s1 t)).
  { intros z. destruct Em as [(Et & ->)|Nt]; [now rewrite Et, Xm|]. rewrite Xm1, (X1 _ Nt), Xm, Xk. cbn. tauto. }
  split; [|apply HE; auto]. destruct V1 as [L1 W1 U1 N1 S1 C1 D1]. constructor.
  - intros a b E. apply HE in E as [E|(-> & ->)]; rewrite HK; eauto. destruct Sh as (_ & -> & _). auto.
  - intros a E. rewrite HK in E. destruct (W1 _ E) as (Oa & Xa). rewrite HO, HX. destruct (Nat.eqb_spec a t) as [->|]; auto. unfold alive in At1. congruence.
  - intros a a' b E E'. apply HE in E as [E|(-> & ->)]; apply HE in E' as [E'|(-> & Eb)]; eauto; subst; exfalso; eapply NE1; eauto.
  - intros a. rewrite HO. destruct (Nat.eqb_spec a t) as [->|]; auto. assert (Nm : ~ In m (obs s1 t)) by apply NE1. pose proof (N1 t) as Nt. revert Nm Nt. generalize (obs s1 t). intros l Nm Nt.
    induction Nt as [|y l Ny Nl IH]; cbn; [repeat constructor; auto|]. constructor; [rewrite in_app_iff; cbn; intros [|[->|[]]]; auto; apply Nm; left; auto|]. apply IH. intros I. apply Nm. right; auto.
  - intros a b E z. rewrite !HX. apply HE in E as [E|(-> & ->)]; auto.
  - intros x B. rewrite HX. assert (B' : below (fun a b => edge s1 a b \/ a = t /\ b = m) x x) by (eapply below_ext; [|exact B]; intros a b; apply HE).
    apply below_more in B' as [B'|(I & J)]; auto. assert (Q : beq (edge s1) m t) by (eapply beq_trans; eauto). apply (shape_beq s s1) in Q; auto.
    destruct Em as [(Et & ->)|Nt]; [|tauto]. destruct J as [<-|J]; auto. eapply v_empty; eauto.
  - intros x. rewrite HX. auto.
Qed.

Lemma step_move fuel s j : inv s -> alive s j -> exists s', mstep fuel (MMove j) s = Ok s' /\ inv s' /\ moved s s' j (length (mns s)).
Proof.
  intros V A. destruct (alive_get _ _ A) as (n & Gn). pose proof (mget_lt _ _ _ Gn) as Lj. cbn [mstep]. rewrite Gn. set (k := length (mns s)) in *.
  set (sA := MSt (mns s ++ [None]) (mcalls s)).
  assert (GA : forall x, mget sA x = mget s x).
  { intros x. unfold mget, sA. cbn. destruct (Nat.lt_ge_cases x k) as [L|L]; [rewrite nth_error_app1; auto|]. unfold k in *. rewrite nth_error_app2 by auto.
    replace (nth_error (mns s) x) with (@None (option mnode)) by (symmetry; now apply nth_error_None). destruct (x - length (mns s)) as [|[|d]]; auto. }
  set (s1 := reinsert j k sA).
  assert (G1 : forall x, mget s1 x = match mget s x with Some a => Some (MNd (mir a) (mxs a) (map (ren j k) (mobs a))) | None => None end) by (intros x; unfold s1, reinsert; rewrite on_obs_get, GA; auto).
  assert (L1 : length (mns s1) = S k) by (unfold s1, reinsert; rewrite on_obs_length; cbn; rewrite app_length; cbn; unfold k; lia).
  rewrite G1, Gn. cbn [mir mxs mobs].
  eexists. split; [reflexivity|]. match goal with |- inv ?x /\ _ => set (s' := x) end.
  assert (G' : forall x, mget s' x = if Nat.eqb x j then Some (MNd (mir n) [] []) else if Nat.eqb x k then Some (MNd (mir n) (mxs n) (map (ren j k) (mobs n))) else mget s1 x).
  { intros x. unfold s'. rewrite mget_mset by (rewrite mset_length, L1; lia). destruct (Nat.eqb x j); auto. rewrite mget_mset by lia. auto. }
  assert (Njk : j <> k) by lia.
  assert (Gk : mget s k = None) by (unfold mget; replace (nth_error (mns s) k) with (@None (option mnode)); auto; symmetry; apply nth_error_None; unfold k; auto).
  assert (M : moved s s' j k).
  { split; [reflexivity|]. split; [|split; [|split]].
    - intros x Nx. unfold kind. rewrite G'. destruct (Nat.eqb_spec x j) as [->|]; [now rewrite Gn|]. apply Nat.eqb_neq in Nx. rewrite Nx, G1. destruct (mget s x); auto.
    - unfold kind. rewrite G'. destruct (Nat.eqb_spec k j); [lia|]. rewrite Nat.eqb_refl, Gn. auto.
    - intros x. unfold obs. rewrite G'. destruct (Nat.eqb_spec x j) as [->|]; auto. destruct (Nat.eqb_spec x k) as [->|]; [now rewrite Gn|]. rewrite G1. destruct (mget s x); auto.
    - intros x. unfold elems. rewrite G'. destruct (Nat.eqb_spec x j) as [->|]; auto. destruct (Nat.eqb_spec x k) as [->|]; [now rewrite Gn|]. rewrite G1. destruct (mget s x); auto. }
  split; auto. destruct M as (_ & HK & HKk & HO & HX). eapply (inv_move _ _ _ j k); eauto.
  - unfold obs. now rewrite Gk.
  - intros t E. pose proof (v_live _ _ _ V _ _ E) as H. unfold kind in H. rewrite Gk in H. discriminate.
Qed.

Lemma clear_ok fuel s s1 i n : mget s1 i = Some n -> mxs n = elems s i -> (elems s i <> [] -> good s1 i) -> mcalls s1 = mcalls s -> length (mns s1) <= fuel ->
  (elems s i <> [] -> forall x, below (edge s1) i x <-> below (edge s) i x) -> (forall x, elems s1 x = elems s x) ->
  exists s2 l, (match mxs n with [] => Ok s1 | _ => each (tell fuel KClearing) (mobs n) s1 end) = Ok s2 /\ shape s1 s2 /\ cleared s s2 i l /\
  (forall x, elems s2 x = if in_dec Nat.eq_dec x l then [] else elems s x).
Proof.
  intros Gn Xn G C F B X. destruct (mget_kind _ _ _ Gn) as (_ & On & Xn1). destruct (mxs n) as [|y r] eqn:Q.
  - exists s1, []. split; auto. split; [apply shape_refl|]. split; [|auto]. split; [split; [constructor|cbn; auto]|auto].
  - assert (Ne : elems s i <> []) by (rewrite <- Xn; discriminate).
    destruct (notify_done fuel KClearing s1 i s1 (G Ne) F) as (s2 & l & E & (Sh & (N & K) & X2) & V); auto; [exists y; rewrite Xn1; left; auto|apply shape_refl|].
    rewrite On in E. exists s2, l. split; auto. split; auto. split.
    + split; [split; auto; rewrite K, C; auto|]. right. split; auto. intros x. rewrite V. auto.
    + intros x. rewrite X2, X. destruct (in_dec Nat.eq_dec x l); auto.
Qed.
Lemma cleared_below s s1 i l : inv s -> (forall x, elems s1 x = if in_dec Nat.eq_dec x l then [] else elems s x) -> cleared s s1 i l ->
  (forall x, elems s1 x = elems s x \/ elems s1 x = [] /\ beq (edge s) i x) /\ (forall x, below (edge s) i x -> elems s1 x = []).
Proof.
  intros V X (_ & C). split.
  - intros x. rewrite X. destruct (in_dec Nat.eq_dec x l) as [J|]; auto. right. split; auto. right. destruct C as [(_ & ->)|(_ & C)]; [destruct J|apply C; auto].
  - intros x B. rewrite X. destruct (in_dec Nat.eq_dec x l) as [J|J]; auto. destruct C as [(E & ->)|(_ & C)]; [eapply v_empty; eauto|]. destruct J. apply C; auto.
Qed.
Lemma full_acyclic s i : inv s -> elems s i <> [] -> ~ below (edge s) i i.
Proof. intros V N B. apply N. eapply v_cycle; eauto. Qed.

Lemma step_destroy fuel s i : inv s -> alive s i -> length (mns s) <= fuel ->
  exists s' l, mstep fuel (MDestroy i) s = Ok s' /\ inv s' /\ cleared s s' i l /\ kind s' i = None /\
  (forall x, elems s' x = if Nat.eqb x i then [] else if in_dec Nat.eq_dec x l then [] else elems s x) /\
  (forall x, obs s' x = if Nat.eqb x i then [] else filter (fun k => negb (Nat.eqb k i)) (obs s x)).
Proof.
  intros V A F. destruct (alive_get _ _ A) as (n & Gn). destruct (mget_kind _ _ _ Gn) as (_ & On & Xn). cbn [mstep]. rewrite Gn.
  destruct (clear_ok fuel s s i n) as (s1 & l & E & Sh & C & X); auto.
  { intros Ne. apply inv_good; auto. now apply full_acyclic. } { tauto. }
  rewrite E. cbn [rbind]. eexists; exists l; split; [reflexivity|]. match goal with |- inv ?x /\ _ => set (s' := x) end.
  assert (L1 : i < length (mns s1)) by (destruct Sh as (-> & _); eapply mget_lt; eauto).
  assert (G' : forall x, mget s' x = if Nat.eqb x i then None else match mget s1 x with Some a => Some (MNd (mir a) (mxs a) (filter (fun k => negb (Nat.eqb k i)) (mobs a))) | None => None end).
  { intros x. unfold s', exclude. rewrite on_obs_get, mget_mset by auto. destruct (Nat.eqb x i); auto. }
  destruct (cleared_below _ _ _ _ V X C) as (H1 & H2).
  assert (X' : forall x, elems s' x = if Nat.eqb x i then [] else elems s1 x) by (intros x; unfold elems; rewrite G'; destruct (Nat.eqb x i); auto; destruct (mget s1 x); auto).
  assert (O' : forall x, obs s' x = if Nat.eqb x i then [] else filter (fun k => negb (Nat.eqb k i)) (obs s x)).
  { intros x. destruct Sh as (_ & _ & HO). rewrite <- HO. unfold obs. rewrite G'. destruct (Nat.eqb x i); auto. destruct (mget s1 x); auto. }
  split; [|split; [exact C|split; [unfold kind; rewrite G', Nat.eqb_refl; auto|split; auto; intros x; rewrite X', X; auto]]].
  eapply (inv_cut _ _ _ i); [exact V| | | | |]; auto.
  - intros x Nx. destruct Sh as (_ & HK & _). rewrite <- HK. unfold kind. rewrite G'. apply Nat.eqb_neq in Nx. rewrite Nx. destruct (mget s1 x); auto.
  - rewrite X', Nat.eqb_refl. auto.
  - intros x. rewrite X'. destruct (Nat.eqb_spec x i) as [->|]; [right; split; [auto|left; auto]|]. apply H1.
  - intros x B. rewrite X'. destruct (Nat.eqb x i); auto.
Qed.


Lemma with_xs_get s i l n x : mget s i = Some n -> mget (with_xs s i l) x = if Nat.eqb x i then Some (MNd (mir n) l (mobs n)) else mget s x.
Proof. intros G. unfold with_xs. rewrite G. apply mget_mset. eapply mget_lt; eauto. Qed.
Lemma with_xs_length s i l : length (mns (with_xs s i l)) = length (mns s).
Proof. apply (with_xs_shape s i l). Qed.
Lemma filter_id i (l : list nat) : ~ In i l -> filter (fun k => negb (Nat.eqb k i)) l = l.
Proof.
  induction l as [|y l IH]; intros N; auto. cbn. destruct (Nat.eqb_spec y i) as [->|]; [destruct N; left; auto|]. cbn. f_equal. apply IH. intros I. apply N. right; auto.
Qed.
Lemma ren_id j k (l : list nat) : ~ In j l -> map (ren j k) l = l.
Proof.
  induction l as [|y l IH]; intros N; auto. cbn. rewrite IH by (intros I; apply N; right; auto). unfold ren. destruct (Nat.eqb_spec y j) as [->|]; auto. destruct N. left; auto.
Qed.
Lemma step_assign fuel s i j : inv s -> alive s i -> kind s i = kind s j -> i <> j -> (below (edge s) i j -> elems s i = []) -> length (mns s) <= fuel ->
  exists s' l, mstep fuel (MAssign i j) s = Ok s' /\ inv s' /\ assigned s s' i j l.
Proof.
  intros V Ai Kij Nij P F. assert (Aj : alive s j) by (unfold alive; rewrite <- Kij; auto). destruct (alive_get _ _ Ai) as (n & Gn). destruct (alive_get _ _ Aj) as (n' & Gn').
  destruct (mget_kind _ _ _ Gn) as (Kn & On & Xn). destruct (mget_kind _ _ _ Gn') as (Kn' & On' & Xn'). assert (Em : mir n' = mir n) by congruence.
  cbn [mstep]. rewrite Gn, Gn', Em, Bool.eqb_reflx. set (s1 := if mir n then reinsert j i (exclude i s) else s).
  assert (Nji : Nat.eqb i j = false) by now apply Nat.eqb_neq. assert (Nij' : Nat.eqb j i = false) by (apply Nat.eqb_neq; auto).
  assert (K1 : forall x, kind s1 x = kind s x) by (intros x; unfold s1; destruct (mir n); auto; unfold reinsert, exclude; now rewrite !on_obs_kind).
  assert (X1 : forall x, elems s1 x = elems s x) by (intros x; unfold s1; destruct (mir n); auto; unfold reinsert, exclude; now rewrite !on_obs_elems).
  assert (O1 : forall x, obs s1 x = map (ren j i) (filter (fun k => negb (Nat.eqb k i)) (obs s x))).
  { intros x. unfold s1. destruct (mir n) eqn:Q; [unfold reinsert, exclude; now rewrite !on_obs_obs|].
    rewrite filter_id, ren_id; auto; apply source_root; auto; congruence. }
  assert (L1 : length (mns s1) = length (mns s)) by (unfold s1; destruct (mir n); auto; unfold reinsert, exclude; now rewrite !on_obs_length).
  assert (C1 : mcalls s1 = mcalls s) by (unfold s1; destruct (mir n); auto).
  assert (E1 : forall t m, edge s1 t m <-> exists m0, edge s t m0 /\ m0 <> i /\ m = ren j i m0).
  { intros t m. unfold edge. rewrite O1, in_map_iff. split.
    - intros (m0 & <- & I). apply filter_In in I as (I & J). exists m0. split; auto. split; auto. intros ->. rewrite Nat.eqb_refl in J. discriminate.
    - intros (m0 & I & N0 & ->). exists m0. split; auto. apply filter_In. split; auto. apply Nat.eqb_neq in N0. now rewrite N0. }
  assert (Ai1 : alive s1 i) by (unfold alive; rewrite K1; auto). destruct (alive_get _ _ Ai1) as (n1 & Gn1). destruct (mget_kind _ _ _ Gn1) as (_ & On1 & Xn1). rewrite Gn1.
  (* the observers of i are the same as before, unless it is empty *)
  assert (KE : elems s i <> [] -> forall t m, beq (edge s) i t -> edge s1 t m <-> edge s t m).
  { intros Ne t m B. assert (Nb : ~ below (edge s) i j) by (intros Q; auto). pose proof (full_acyclic _ _ V Ne) as Nc. rewrite E1. split.
    - intros (m0 & E & N0 & ->). unfold ren. destruct (Nat.eqb_spec m0 j) as [->|]; auto. destruct Nb. eapply beq_edge; eauto.
    - intros E. exists m. split; auto. split; [intros ->; apply Nc; eapply beq_edge; eauto|]. unfold ren. destruct (Nat.eqb_spec m j) as [->|]; auto. destruct Nb. eapply beq_edge; eauto. }
  assert (KB : elems s i <> [] -> forall x, below (edge s1) i x <-> below (edge s) i x).
  { intros Ne. specialize (KE Ne).
    assert (Q1 : forall t x, below (edge s1) t x -> beq (edge s) i t -> below (edge s) t x).
    { intros t x B. induction B as [t x E|t y x E B IH]; intros Q; apply KE in E; auto; [now apply B1|]. eapply B2; [exact E|]. apply IH. right. eapply beq_edge; eauto. }
    assert (Q2 : forall t x, below (edge s) t x -> beq (edge s) i t -> below (edge s1) t x).
    { intros t x B. induction B as [t x E|t y x E B IH]; intros Q; [apply B1; apply KE; auto|]. eapply B2; [apply KE; eauto|]. apply IH. right. eapply beq_edge; eauto. }
    intros x. split; intros B; [apply Q1|apply Q2]; auto; left; auto. }
  assert (G1 : elems s i <> [] -> good s1 i).
  { intros Ne. assert (KQ : forall x, beq (edge s1) i x <-> beq (edge s) i x) by (intros x; unfold beq; rewrite (KB Ne); tauto).
    assert (Nc := full_acyclic _ _ V Ne). assert (G0 : good s i) by (apply inv_good; auto). constructor.
    - intros t t' m E E'. apply E1 in E as (a & E & Na & Ra). apply E1 in E' as (b & E' & Nb & Rb). assert (a = b).
      { subst m. unfold ren in Rb. destruct (Nat.eqb_spec a j), (Nat.eqb_spec b j); congruence. }
      subst b. exact (v_uniq _ _ _ V _ _ _ E E').
    - intros x B. apply KQ in B. unfold alive. rewrite K1. apply (g_alive _ _ G0); auto.
    - intros x B. rewrite O1. assert (Nx := v_nodup _ _ _ V x). apply (NoDup_filter (fun k => negb (Nat.eqb k i))) in Nx. 
      assert (Ni : ~ In i (filter (fun k => negb (Nat.eqb k i)) (obs s x))) by (rewrite filter_In, Nat.eqb_refl; intros (_ & H); discriminate).
      revert Nx Ni. generalize (filter (fun k => negb (Nat.eqb k i)) (obs s x)). intros l Nx Ni. induction Nx as [|y l Ny Nl IH]; cbn; constructor.
      + rewrite in_map_iff. intros (z & R & I). unfold ren in R. destruct (Nat.eqb_spec y j), (Nat.eqb_spec z j); subst; auto; apply Ni; cbn; auto.
      + apply IH. intros I. apply Ni. right; auto.
    - intros x y B E z. rewrite !X1. apply KQ in B. apply (KE Ne) in E; auto. apply (v_step _ _ _ V); auto.
    - rewrite (KB Ne). auto. }
  destruct (clear_ok fuel s s1 i n1) as (s2 & l & E2 & Sh2 & C2 & X2); auto; [rewrite <- Xn1; auto|rewrite L1; auto|].
  assert (E2' : match mxs n with [] => Ok s1 | _ :: _ => each (tell fuel KClearing) (mobs n1) s1 end = Ok s2) by (rewrite <- E2; replace (mxs n1) with (mxs n); auto; congruence).
  replace (match mxs n with [] => Ok s1 | _ :: _ => each (tell fuel KClearing) (mobs n1) s1 end) with (Ok s2). cbn [rbind].
  assert (Jl : ~ In j l).
  { destruct C2 as (_ & [(_ & ->)|(Ne & C2)]); [intros []|]. rewrite C2. intros B. auto. }
  assert (K2 : forall x, kind s2 x = kind s x) by (intros x; destruct Sh2 as (_ & -> & _); auto).
  assert (O2 : forall x, obs s2 x = obs s1 x) by apply Sh2. assert (L2 : length (mns s2) = length (mns s)) by (destruct Sh2 as (-> & _); auto).
  assert (Ai2 : alive s2 i) by (unfold alive; rewrite K2; auto). assert (Aj2 : alive s2 j) by (unfold alive; rewrite K2; auto).
  destruct (alive_get _ _ Ai2) as (a & Ga). destruct (alive_get _ _ Aj2) as (b & Gb). destruct (mget_kind _ _ _ Ga) as (Ka & _ & _). destruct (mget_kind _ _ _ Gb) as (Kb & Ob & Xb).
  set (s3 := with_xs s2 i []). assert (G3 : forall x, mget s3 x = if Nat.eqb x i then Some (MNd (mir a) [] (mobs a)) else mget s2 x) by (intros x; apply with_xs_get; auto).
  rewrite G3, Nij', Gb. set (s4 := with_xs (with_xs s3 i (mxs b)) j []).
  assert (G4 : forall x, mget s4 x = if Nat.eqb x j then Some (MNd (mir b) [] (mobs b)) else if Nat.eqb x i then Some (MNd (mir a) (mxs b) (mobs a)) else mget s2 x).
  { assert (G3i : mget s3 i = Some (MNd (mir a) [] (mobs a))) by (rewrite G3, Nat.eqb_refl; auto).
    assert (G3' : forall x, mget (with_xs s3 i (mxs b)) x = if Nat.eqb x i then Some (MNd (mir a) (mxs b) (mobs a)) else mget s2 x).
    { intros x. rewrite (with_xs_get _ _ _ _ _ G3i). destruct (Nat.eqb_spec x i) as [->|Nx]; auto. rewrite G3. apply Nat.eqb_neq in Nx. now rewrite Nx. }
    intros x. unfold s4. rewrite (with_xs_get _ _ _ b) by (rewrite G3', Nij'; auto). destruct (Nat.eqb x j); auto. }
  assert (L4 : length (mns s4) = length (mns s)) by (unfold s4, s3; rewrite !with_xs_length; auto).
  rewrite G4, Nji, Nat.eqb_refl. cbn [mir mxs mobs]. set (s5 := mset s4 i (Some (MNd (mir a) (mxs b) []))).
  assert (Li : i < length (mns s4)) by (rewrite L4; eapply mget_lt; eauto). assert (Lj : j < length (mns s4)) by (rewrite L4; eapply mget_lt; eauto).
  assert (G5 : forall x, mget s5 x = if Nat.eqb x i then Some (MNd (mir a) (mxs b) []) else mget s4 x) by (intros x; apply mget_mset; auto).
  rewrite G5, Nij', G4, Nat.eqb_refl. cbn [mir mxs mobs]. set (s6 := mset s5 j (Some (MNd (mir b) [] []))).
  assert (G6 : forall x, mget s6 x = if Nat.eqb x j then Some (MNd (mir b) [] []) else mget s5 x) by (intros x; apply mget_mset; unfold s5; rewrite mset_length; auto).
  rewrite G6, Nji, G5, Nat.eqb_refl. cbn [mir mxs mobs]. eexists; exists l; split; [reflexivity|]. match goal with |- inv ?x /\ _ => set (s' := x) end.
  assert (G' : forall x, mget s' x = if Nat.eqb x j then Some (MNd (mir b) [] []) else if Nat.eqb x i then Some (MNd (mir a) (mxs b) (mobs b)) else mget s2 x).
  { intros x. unfold s'. rewrite mget_mset by (unfold s6, s5; rewrite !mset_length; auto). destruct (Nat.eqb_spec x i) as [->|Nx]; [now rewrite Nji|].
    rewrite G6. destruct (Nat.eqb_spec x j) as [->|Nx']; auto. rewrite G5. apply Nat.eqb_neq in Nx, Nx'. rewrite Nx, G4, Nx', Nx. auto. }
  assert (A : assigned s s' i j l).
  { split; [|split; [|split]].
    - destruct C2 as ((N2 & C2) & C2'). split; [split; auto|auto]. rewrite <- C2. unfold s', s6, s5, s4, s3, mset. cbn [mcalls]. rewrite !with_xs_calls. auto.
    - intros x. unfold kind. rewrite G'. destruct (Nat.eqb_spec x j) as [->|]; [rewrite Gn'; cbn; congruence|]. destruct (Nat.eqb_spec x i) as [->|]; [rewrite Gn; cbn; congruence|]. apply (K2 x).
    - intros x. unfold elems at 1. rewrite G'. destruct (Nat.eqb_spec x j) as [->|]; auto. destruct (Nat.eqb_spec x i) as [->|]; [|apply (X2 x)]. cbn [mxs].
      rewrite <- Xb, X2. destruct (in_dec Nat.eq_dec j l); tauto.
    - intros x. unfold obs at 1. rewrite G'. destruct (Nat.eqb_spec x j) as [->|]; auto. destruct (Nat.eqb_spec x i) as [->|]; [cbn [mobs]; rewrite <- Ob, O2; apply O1|]. rewrite <- O1. apply (O2 x). }
  split; auto. destruct A as (_ & HK & HX & HO). destruct (cleared_below _ _ _ _ V X2 C2) as (H1 & H2).
  set (OA x := if Nat.eqb x i then [] else filter (fun k => negb (Nat.eqb k i)) (obs s x)). set (XA x := if Nat.eqb x i then [] else elems s2 x).
  assert (VA : Inv (kind s) OA XA).
  { eapply (inv_cut _ _ _ i); [exact V| | | | |]; auto; unfold XA.
    - now rewrite Nat.eqb_refl.
    - intros x. destruct (Nat.eqb_spec x i) as [->|]; [right; split; [auto|left; auto]|]. apply H1.
    - intros x B. destruct (Nat.eqb x i); auto. }
  eapply (inv_move _ _ _ j i); [exact VA| | | | | | |]; auto.
  - unfold OA. now rewrite Nat.eqb_refl.
  - intros t. unfold ed, OA. destruct (Nat.eqb t i); [intros []|]. rewrite filter_In, Nat.eqb_refl. intros (_ & H). discriminate.
  - rewrite HK. auto.
  - intros x. rewrite HO. destruct (Nat.eqb_spec x j) as [->|]; auto. unfold OA. destruct (Nat.eqb_spec x i) as [->|Nx]; [now rewrite Nij'|]. apply Nat.eqb_neq in Nx. now rewrite Nx.
  - intros x. rewrite HX. destruct (Nat.eqb_spec x j) as [->|]; auto. unfold XA. destruct (Nat.eqb_spec x i) as [->|Nx].
    + rewrite Nij', X2. destruct (in_dec Nat.eq_dec j l); tauto.
    + apply Nat.eqb_neq in Nx. rewrite Nx. rewrite X2. auto.
Qed.

(** Links in a ring: the notification never returns. *)
Section Ring.
Variables (s0 : mstate) (i : nat).
Hypothesis one_parent : forall t t' m, edge s0 t m -> edge s0 t' m -> t = t'.
Definition ring (x : nat) : Prop := beq (edge s0) i x /\ below (edge s0) x i.
Definition kept (s s' : mstate) : Prop := shape s0 s' /\ forall x, ring x -> elems s' x = elems s x.
Lemma ring_up k c : edge s0 k c -> ring c -> ring k.
Proof.
  intros E (B & C). assert (L : below (edge s0) c c) by (eapply below_beq; eauto).
  destruct (below_last _ _ _ L) as (q & Q & E'). rewrite (one_parent _ _ _ E E'). split; [eapply beq_trans; eauto|]. eapply B2; eauto.
Qed.
Lemma ring_next m : ring m -> exists c, edge s0 m c /\ ring c.
Proof.
  intros (B & C). assert (D := C). destruct (below_first _ _ _ C) as (c & E & Q). exists c. split; auto. split; [right; eapply beq_edge; eauto|].
  destruct Q as [->|Q]; auto. destruct B as [<-|B]; auto. eapply below_trans; eauto.
Qed.
Lemma kept_refl s : shape s0 s -> kept s s.
Proof. split; auto. Qed.
Lemma kept_trans a b c : kept a b -> kept b c -> kept a c.
Proof. intros (_ & A) (S & B). split; auto. intros x R. rewrite B, A; auto. Qed.
Definition aside (s : mstate) (r : res mstate) : Prop := match r with Ok s' => kept s s' | UB => True | Throw _ => False end.
Lemma each_aside f : (forall k s, shape s0 s -> ~ ring k -> aside s (f k s)) -> forall l s, shape s0 s -> (forall k, In k l -> ~ ring k) -> aside s (each f l s).
Proof.
  intros H l. induction l as [|k l IH]; intros s S N; cbn; [now apply kept_refl|].
  assert (Hk := H k s S (N k (or_introl eq_refl))). destruct (f k s) as [s1| |]; cbn in *; auto. assert (Hl := IH s1 (proj1 Hk) (fun x I => N x (or_intror I))).
  destruct (each f l s1); cbn in *; auto. eapply kept_trans; eauto.
Qed.
Lemma tell_aside : forall f k s, shape s0 s -> ~ ring k -> aside s (tell f KClearing k s).
Proof.
  induction f as [|f IH]; intros k s S N; cbn; auto. set (s1 := MSt (mns s) ((k, KClearing) :: mcalls s)).
  assert (S1 : kept s s1) by (split; [exact (shape_trans _ _ _ S (call_shape s _))|reflexivity]).
  destruct (mget s1 k) as [n|] eqn:G; cbn; auto. destruct (mxs n); cbn; auto.
  assert (A := each_aside _ IH (mobs n) s1 (proj1 S1)). assert (M : forall c, In c (mobs n) -> ~ ring c).
  { intros c I R. apply N. apply (ring_up k c); auto. apply (shape_edge _ _ _ _ (proj1 S1)). unfold edge, obs. now rewrite G. }
  specialize (A M). destruct (each (tell f KClearing) (mobs n) s1) as [s2| |]; cbn in *; auto. eapply kept_trans; [exact S1|]. eapply kept_trans; [exact A|].
  split; [exact (shape_trans _ _ _ (proj1 A) (with_xs_shape s2 k []))|]. intros x R. destruct (mget s2 k) eqn:G2; [|unfold with_xs; now rewrite G2].
  rewrite with_xs_elems by (eapply get_alive; eauto). destruct (Nat.eqb_spec x k) as [Q|]; auto. subst; tauto.
Qed.
Definition full (s : mstate) : Prop := shape s0 s /\ forall x, ring x -> elems s x <> [].
Lemma full_kept s s' : full s -> kept s s' -> full s'.
Proof. intros (_ & A) (S & B). split; auto. intros x R. rewrite B; auto. Qed.
Lemma ub_stable (r : res mstate) : ~ ~ r = UB -> r = UB.
Proof. destruct r; auto; intros H; destruct H; discriminate. Qed.
Lemma each_ring f : (forall k s, full s -> ring k -> f k s = UB) -> (forall k s, shape s0 s -> ~ ring k -> aside s (f k s)) ->
  forall l s, full s -> (exists k, In k l /\ ring k) -> each f l s = UB.
Proof.
  intros H A l. induction l as [|k l IH]; intros s F (c & I & R); [destruct I|]. apply ub_stable. intros N.
  assert (D : ~ ~ (ring k \/ ~ ring k)) by tauto. apply D. clear D. intros [K|K]; apply N; cbn; [now rewrite H|].
  assert (Q := A k s (proj1 F) K). destruct (f k s) as [s1| |]; cbn in *; auto; [|tauto]. apply IH; auto; [eapply full_kept; eauto|].
  exists c. split; auto. destruct I as [<-|I]; tauto.
Qed.
Lemma tell_ring : forall f m s, full s -> ring m -> tell f KClearing m s = UB.
Proof.
  induction f as [|f IH]; intros m s F R; cbn; auto. set (s1 := MSt (mns s) ((m, KClearing) :: mcalls s)).
  assert (F1 : full s1) by (apply (full_kept s); auto; split; [exact (shape_trans _ _ _ (proj1 F) (call_shape s _))|reflexivity]).
  destruct (mget s1 m) as [n|] eqn:G; auto. assert (X := proj2 F1 m R). unfold elems in X. rewrite G in X. destruct (mxs n); [tauto|].
  rewrite each_ring; auto; [apply tell_aside|]. destruct (ring_next _ R) as (c & E & C). exists c. split; auto.
  apply (shape_edge _ _ _ _ (proj1 F1)) in E. unfold edge, obs in E. now rewrite G in E.
Qed.
End Ring.
(** the observers of an object that takes the place of its own mirror *)
Lemma assign_ring s i j : inv s -> alive s i -> kind s i = kind s j -> i <> j -> below (edge s) i j -> elems s i <> [] ->
  forall fuel, mstep fuel (MAssign i j) s = UB.
Proof.
  intros V Ai Kij Nij P Ne fuel. assert (Aj : alive s j) by (unfold alive; rewrite <- Kij; auto). destruct (alive_get _ _ Ai) as (n & Gn). destruct (alive_get _ _ Aj) as (n' & Gn').
  destruct (mget_kind _ _ _ Gn) as (Kn & On & Xn). destruct (mget_kind _ _ _ Gn') as (Kn' & On' & Xn'). assert (Em : mir n' = mir n) by congruence.
  assert (Mt : mir n = true). { destruct (below_last _ _ _ P) as (q & _ & E). assert (K := v_live _ _ _ V _ _ E). congruence. }
  cbn [mstep]. rewrite Gn, Gn', Em, Bool.eqb_reflx, Mt. set (s1 := reinsert j i (exclude i s)).
  assert (K1 : forall x, kind s1 x = kind s x) by (intros x; unfold s1, reinsert, exclude; now rewrite !on_obs_kind).
  assert (X1 : forall x, elems s1 x = elems s x) by (intros x; unfold s1, reinsert, exclude; now rewrite !on_obs_elems).
  assert (O1 : forall x, obs s1 x = map (ren j i) (filter (fun k => negb (Nat.eqb k i)) (obs s x))).
  { intros x. unfold s1, reinsert, exclude. now rewrite !on_obs_obs. }
  assert (E1 : forall t m, edge s1 t m <-> exists m0, edge s t m0 /\ m0 <> i /\ m = ren j i m0).
  { intros t m. unfold edge. rewrite O1, in_map_iff. split.
    - intros (m0 & <- & I). apply filter_In in I as (I & J). exists m0. split; auto. split; auto. intros ->. rewrite Nat.eqb_refl in J. discriminate.
    - intros (m0 & I & N0 & ->). exists m0. split; auto. apply filter_In. split; auto. apply Nat.eqb_neq in N0. now rewrite N0. }
  assert (U1 : forall t t' m, edge s1 t m -> edge s1 t' m -> t = t').
  { intros t t' m E E'. apply E1 in E as (a & E & Na & Ra). apply E1 in E' as (b & E' & Nb & Rb). assert (a = b).
    { subst m. unfold ren in Rb. destruct (Nat.eqb_spec a j), (Nat.eqb_spec b j); congruence. }
    subst b. exact (v_uniq _ _ _ V _ _ _ E E'). }
  assert (Nc := full_acyclic _ _ V Ne).
  assert (Ri : below (edge s1) i i).
  { assert (W : forall t x, below (edge s) t x -> x = j -> beq (edge s) i t -> below (edge s1) t i).
    { intros t x B. induction B as [t x E|t y x E B IH]; intros Q Bt; subst x.
      - apply B1, E1. exists j. split; auto. split; auto. unfold ren. now rewrite Nat.eqb_refl.
      - assert (By : below (edge s) i y) by (eapply beq_edge; eauto). destruct (Nat.eqb_spec y j) as [H|H].
        + apply B1, E1. exists y. unfold ren. subst y. rewrite Nat.eqb_refl. auto.
        + eapply B2; [|apply IH; [auto|right; auto]]. apply E1. exists y. split; auto. split; [intros ->; auto|]. unfold ren. apply Nat.eqb_neq in H. now rewrite H. }
    apply (W i j); auto. left; auto. }
  assert (F : full s1 i s1).
  { split; [apply shape_refl|]. intros x (B & _). rewrite X1.
    assert (W : forall t y, below (edge s1) t y -> elems s t <> [] -> elems s y <> []).
    { assert (W1 : forall t m, edge s1 t m -> elems s t <> [] -> elems s m <> []).
      { intros t m E N. apply E1 in E as (m0 & E & _ & ->). assert (St := v_step _ _ _ V _ _ E). unfold ren. destruct (Nat.eqb m0 j); auto.
        intros Q. destruct (elems s t) as [|z l]; [tauto|]. specialize (St z). rewrite Q in St. apply St. left; auto. }
      intros t y Q. induction Q; eauto. }
    destruct B as [<-|B]; eauto. }
  assert (Ai1 : alive s1 i) by (unfold alive; rewrite K1; auto). destruct (alive_get _ _ Ai1) as (n1 & Gn1). destruct (mget_kind _ _ _ Gn1) as (_ & On1 & _). rewrite Gn1.
  destruct (mxs n) eqn:Q; [congruence|]. assert (R : ring s1 i i) by (split; [left|]; auto). destruct (ring_next _ _ _ R) as (c & E & C).
  rewrite (each_ring s1 i); auto; [apply tell_ring; auto|apply tell_aside; auto|]. exists c. split; auto. unfold edge in E. rewrite On1 in E. auto.
Qed.

(** Everything that is reached *)
Lemma step_inv fuel o s : inv s -> valid s o -> proper s o -> length (mns s) <= fuel -> exists s', mstep fuel o s = Ok s' /\ inv s'.
Proof.
  intros V W P F. destruct o; cbn in W, P.
  - now apply step_new.
  - destruct (step_insert fuel s i v) as (s' & E & I & _); eauto.
  - destruct (step_erase fuel s i v) as (s' & E & I & _); eauto.
  - destruct (step_clear fuel s i) as (s' & E & I & _); eauto.
  - destruct W, P. destruct (step_reflect fuel s m t) as (s' & E & I & _); eauto.
  - now apply step_unsub.
  - destruct (step_move fuel s j) as (s' & E & I & _); eauto.
  - destruct W, P. destruct (step_assign fuel s i j) as (s' & l & E & I & _); eauto.
  - destruct (step_destroy fuel s i) as (s' & l & E & I & _); eauto.
Qed.
Lemma init_inv : inv minit.
Proof.
  assert (G : forall x, mget minit x = None) by (intros [|x]; reflexivity). assert (NE : forall t m, ~ edge minit t m) by (intros t m; unfold edge, obs; rewrite G; auto).
  constructor.
  - intros t m E. destruct (NE _ _ E).
  - intros t _. unfold obs, elems. rewrite G. auto.
  - intros t t' m E. destruct (NE _ _ E).
  - intros t. unfold obs. rewrite G. constructor.
  - intros t m E. destruct (NE _ _ E).
  - intros x _. unfold elems. now rewrite G.
  - intros x. unfold elems. rewrite G. constructor.
Qed.
Lemma reach_inv s : reach s -> inv s.
Proof. intros R. induction R as [|fuel s o s' R IH W P F E]; [apply init_inv|]. destruct (step_inv fuel o s IH W P F) as (s2 & E2 & I). rewrite E in E2. now inversion E2; subst. Qed.

(** No proper program has undefined behaviour, overflows the stack or throws. *)
Theorem mirmove_safe : forall s o fuel, reach s -> valid s o -> proper s o -> length (mns s) <= fuel -> exists s', mstep fuel o s = Ok s'.
Proof. intros s o fuel R W P F. destruct (step_inv fuel o s (reach_inv _ R) W P F) as (s' & E & _). eauto. Qed.
(** Every mirror has the elements of what it observes, whatever has been moved. *)
Theorem mirmove_in_step : forall s, reach s -> in_step s.
Proof. intros s R. exact (v_step _ _ _ (reach_inv _ R)). Qed.
(** An object is in one list at most, and it is a mirror that is alive. *)
Theorem mirmove_one_list : forall s t t' m, reach s -> edge s t m -> edge s t' m -> t = t' /\ kind s m = Some true /\ NoDup (obs s t).
Proof. intros s t t' m R E E'. pose proof (reach_inv _ R) as V. split; [exact (v_uniq _ _ _ V _ _ _ E E')|]. split; [exact (v_live _ _ _ V _ _ E)|exact (v_nodup _ _ _ V t)]. Qed.
(** A change of a set is told to every mirror below, directly or through other mirrors, once; and to nobody else. *)
Theorem mirmove_told : forall s o fuel s' i c, reach s -> valid s o -> length (mns s) <= fuel -> mstep fuel o s = Ok s' -> news s o = Some (i, c) ->
  (exists l, told s s' c l /\ forall m, In m l <-> below (edge s) i m) /\ (forall x, obs s' x = obs s x) /\
  (forall x, x = i \/ below (edge s) i x -> forall z, In z (elems s' x) <-> after c (elems s x) z) /\
  (forall x, x <> i -> ~ below (edge s) i x -> elems s' x = elems s x).
Proof.
  intros s o fuel s' i c R W F E N. pose proof (reach_inv _ R) as V.
  assert (C : changed s s' c i).
  { destruct o; cbn in N, W; try discriminate.
    - destruct (in_dec Z.eq_dec v (elems s i0)); inversion N; subst. destruct (step_insert fuel s i v V W F) as (s2 & E2 & _ & C). rewrite E in E2. inversion E2; subst. tauto.
    - destruct (in_dec Z.eq_dec v (elems s i0)); inversion N; subst. destruct (step_erase fuel s i v V W F) as (s2 & E2 & _ & C). rewrite E in E2. inversion E2; subst. tauto.
    - destruct (step_clear fuel s i0 V W F) as (s2 & E2 & _ & C). rewrite E in E2. inversion E2; subst. destruct (elems s i0); inversion N; subst. destruct C as [(? & _)|(_ & C)]; [discriminate|auto]. }
  destruct C as (l & Sh & T & Vl & X). split; [eauto|]. split; [apply Sh|]. split.
  - intros x Q z. rewrite X. destruct (in_dec Nat.eq_dec x (i :: l)) as [J|J].
    + destruct c; cbn; [intuition|unfold zdel; rewrite filter_In|tauto]. rewrite negb_true_iff, Z.eqb_neq. tauto.
    + destruct J. destruct Q as [->|Q]; [left; auto|right; apply Vl; auto].
  - intros x Nx B. rewrite X. destruct (in_dec Nat.eq_dec x (i :: l)) as [[->|J]|]; auto; [congruence|]. apply Vl in J. tauto.
Qed.
Theorem mirmove_same : forall s o fuel s', reach s -> valid s o -> length (mns s) <= fuel -> mstep fuel o s = Ok s' -> news s o = None ->
  match o with MInsert _ _ | MErase _ _ | MClear _ => s' = s | _ => True end.
Proof.
  intros s o fuel s' R W F E N. pose proof (reach_inv _ R) as V. destruct o; cbn in N, W; auto.
  - destruct (in_dec Z.eq_dec v (elems s i)); [|discriminate]. destruct (step_insert fuel s i v V W F) as (s2 & E2 & _ & C). rewrite E in E2. inversion E2; subst. tauto.
  - destruct (in_dec Z.eq_dec v (elems s i)); [discriminate|]. destruct (step_erase fuel s i v V W F) as (s2 & E2 & _ & C). rewrite E in E2. inversion E2; subst. tauto.
  - destruct (step_clear fuel s i V W F) as (s2 & E2 & _ & C). rewrite E in E2. inversion E2; subst. destruct (elems s i); [|discriminate]. tauto.
Qed.
Theorem mirmove_move : forall s j fuel s', reach s -> alive s j -> mstep fuel (MMove j) s = Ok s' -> moved s s' j (length (mns s)).
Proof. intros s j fuel s' R A E. destruct (step_move fuel s j (reach_inv _ R) A) as (s2 & E2 & _ & M). rewrite E in E2. now inversion E2; subst. Qed.
Theorem mirmove_assign : forall s i j fuel s', reach s -> valid s (MAssign i j) -> proper s (MAssign i j) -> length (mns s) <= fuel -> mstep fuel (MAssign i j) s = Ok s' ->
  exists l, assigned s s' i j l.
Proof.
  intros s i j fuel s' R (A & K) (N & P) F E. destruct (step_assign fuel s i j (reach_inv _ R) A K N P F) as (s2 & l & E2 & _ & M). rewrite E in E2. inversion E2; subst. eauto.
Qed.
(** When an object is destroyed all the mirrors below are empty, and those that observed it observe nothing. *)
Theorem mirmove_destroy : forall s i fuel s', reach s -> alive s i -> length (mns s) <= fuel -> mstep fuel (MDestroy i) s = Ok s' ->
  (exists l, cleared s s' i l) /\ ~ alive s' i /\ (forall x, below (edge s) i x -> elems s' x = []) /\
  (forall t m, edge s' t m <-> edge s t m /\ t <> i /\ m <> i) /\ (forall x, x <> i -> ~ below (edge s) i x -> elems s' x = elems s x).
Proof.
  intros s i fuel s' R A F E. pose proof (reach_inv _ R) as V. destruct (step_destroy fuel s i V A F) as (s2 & l & E2 & _ & C & K & X & O). rewrite E in E2. inversion E2; subst.
  split; [eauto|]. split; [unfold alive; congruence|]. split; [|split].
  - intros x B. rewrite X. destruct (Nat.eqb x i); auto. destruct (in_dec Nat.eq_dec x l) as [|J]; auto. destruct C as (_ & [(Ei & ->)|(_ & C)]); [eapply v_empty; eauto|]. destruct J. apply C; auto.
  - intros t m. unfold edge. rewrite O. destruct (Nat.eqb_spec t i) as [->|Nt]; [cbn; tauto|]. rewrite filter_In, negb_true_iff, Nat.eqb_neq. tauto.
  - intros x Nx B. rewrite X. apply Nat.eqb_neq in Nx. rewrite Nx. destruct (in_dec Nat.eq_dec x l) as [J|]; auto. destruct C as (_ & [(_ & ->)|(_ & C)]); [destruct J|]. apply C in J. tauto.
Qed.

(** An object that is not empty is never assigned from a mirror that is below it: no stack is enough. *)
Theorem mirmove_ring : forall s i j fuel, reach s -> valid s (MAssign i j) -> i <> j -> below (edge s) i j -> elems s i <> [] -> mstep fuel (MAssign i j) s = UB.
Proof. intros s i j fuel R (A & K) N B E. apply assign_ring; auto. now apply reach_inv. Qed.

(** The provisos are needed. *)
(** A set 0 with the element 5, its mirror 1 and the mirror 2 of the mirror *)
Definition chain : list mop := [MNew false; MNew true; MNew true; MInsert 0 5%Z; MReflect 1 0; MReflect 2 1].
Definition chain_state : mstate :=
  MSt [Some (MNd false [5%Z] [1]); Some (MNd true [5%Z] [2]); Some (MNd true [5%Z] [])] [(2, KAdded 5%Z); (1, KAdded 5%Z)].
Ltac no_edges := let t := fresh in let H := fresh in
  intros t H; unfold edge, obs, mget in H; destruct t as [|[|[|[|[|[|t]]]]]]; cbn in H; intuition (discriminate || lia).
Fixpoint ok_run (l : list mop) (s : mstate) : Prop :=
  match l with
  | [] => True
  | o :: r => valid s o /\ proper s o /\ length (mns s) <= 10 /\ match mstep 10 o s with Ok s' => ok_run r s' | _ => False end
  end.
Lemma run_reach : forall l s s', reach s -> ok_run l s -> mrun 10 l s = Ok s' -> reach s'.
Proof.
  induction l as [|o l IH]; intros s s' R K E; cbn in *; [congruence|]. destruct K as (W & P & F & K). destruct (mstep 10 o s) as [s1| |] eqn:E1; try tauto.
  apply (IH s1); auto. eapply RS; eauto.
Qed.
Ltac run_ok := cbn; unfold alive; cbn; repeat split; auto; try discriminate; try lia; try no_edges.
Lemma chain_ok : reach chain_state.
Proof. apply (run_reach chain minit); [constructor| |reflexivity]. run_ok. Qed.
(** A mirror that is assigned from its own mirror calls itself for ever; *)
Theorem mirmove_assign_refuted : exists s i j, reach s /\ valid s (MAssign i j) /\ i <> j /\ below (edge s) i j /\ forall fuel, mstep fuel (MAssign i j) s = UB.
Proof.
  exists chain_state, 1, 2. split; [apply chain_ok|]. split; [cbn; unfold alive; cbn; split; [discriminate|auto]|]. split; [discriminate|]. split; [apply B1; cbn; auto|].
  intros fuel. apply mirmove_ring; [apply chain_ok|cbn; unfold alive; cbn; split; [discriminate|auto]|discriminate|apply B1; cbn; auto|discriminate].
Qed.
(** one that is assigned from itself loses its elements and observes nothing; *)
Theorem mirmove_self_refuted : exists s i s', reach s /\ valid s (MAssign i i) /\ mstep 10 (MAssign i i) s = Ok s' /\
  elems s i <> [] /\ elems s' i = [] /\ (exists t, edge s t i) /\ forall t, ~ edge s' t i.
Proof.
  exists chain_state, 1. eexists. split; [apply chain_ok|]. split; [cbn; unfold alive; cbn; split; [discriminate|auto]|]. split; [reflexivity|]. split; [discriminate|]. split; [reflexivity|].
  split; [exists 0; cbn; auto|]. no_edges.
Qed.
(** one that has elements throws when it reflects them again; *)
Theorem mirmove_again_refuted : exists s s' m t, reach s /\ mstep 10 (MUnsub m) s = Ok s' /\ reach s' /\ valid s' (MReflect m t) /\
  (forall t', ~ edge s' t' m) /\ mstep 10 (MReflect m t) s' = Throw LogicError.
Proof.
  exists chain_state. eexists. exists 1, 0. split; [apply chain_ok|]. split; [reflexivity|]. split.
  { apply (run_reach [MUnsub 1] chain_state); [apply chain_ok| |reflexivity]. run_ok. }
  split; [cbn; unfold alive; cbn; split; [auto|discriminate]|]. split; [no_edges|reflexivity].
Qed.
(** ... or has elements that the set does not have; *)
Theorem mirmove_more_refuted : exists s s' m t, reach s /\ valid s (MReflect m t) /\ (forall t', ~ edge s t' m) /\ mstep 10 (MReflect m t) s = Ok s' /\ ~ in_step s'.
Proof.
  exists (MSt [Some (MNd false [5%Z] []); Some (MNd true [5%Z] []); Some (MNd false [] [])] [(1, KAdded 5%Z)]). eexists. exists 1, 2. split.
  { apply (run_reach [MNew false; MNew true; MInsert 0 5%Z; MReflect 1 0; MUnsub 1; MNew false] minit); [constructor| |reflexivity]. run_ok. }
  split; [cbn; unfold alive; cbn; split; [auto|discriminate]|]. split; [no_edges|]. split; [reflexivity|].
  intros H. specialize (H 2 1). cbn in H. destruct (H (or_introl eq_refl) 5%Z) as (H1 & _). destruct H1. left; auto.
Qed.
(** and to subscribe one twice is undefined. *)
Theorem mirmove_twice_refuted : exists s m t, reach s /\ valid s (MReflect m t) /\ elems s m = [] /\ mstep 10 (MReflect m t) s = UB.
Proof.
  exists (MSt [Some (MNd false [] [1]); Some (MNd true [] [])] []), 1, 0. split.
  { apply (run_reach [MNew false; MNew true; MReflect 1 0] minit); [constructor| |reflexivity]. run_ok. }
  split; [cbn; unfold alive; cbn; split; [auto|discriminate]|]. split; reflexivity.
Qed.

(** The chain again: the mirror 1 is moved to 3, the set to 4, and 2 is assigned from 3. *)
Example ex_mirmove :
  match mrun 10 (chain ++ [MMove 1; MMove 0; MInsert 4 6%Z; MAssign 2 3; MErase 4 5%Z; MDestroy 1]) minit with
  | Ok s =>
    mns s = [Some (MNd false [] []); None; Some (MNd true [6%Z] []); Some (MNd true [] []); Some (MNd false [6%Z] [2])] /\
    rev (mcalls s) = [(1, KAdded 5%Z); (2, KAdded 5%Z); (3, KAdded 6%Z); (2, KAdded 6%Z); (2, KRemoving 5%Z)]
  | _ => False
  end.
Proof. vm_compute. auto. Qed.
