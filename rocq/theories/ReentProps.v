(** Observers that modify the set while they are notified. *)
From Verif Require Import Common ObsThrowModel ReentModel GroupObsSpec ReentSpec.
From Coq Require Import ZifyBool ZifyNat.

Definition hides (p : nat) (z : Z) (f : frame) : Prop :=
  match f with
  | FActs _ => False
  | FAdd _ v k => v = z /\ k <= p
  | FRem _ v k => v = z /\ p < k
  | FClr k => p < k
  end.
Definition fvals (st : list frame) : list Z := flat_map (fun f => match f with FAdd _ v _ | FRem _ v _ => [v] | _ => [] end) st.
Definition is_clr (f : frame) : bool := match f with FClr _ => true | _ => false end.
Definition is_acts (f : frame) : bool := match f with FActs _ => true | _ => false end.

Record inv (s : rstate) : Prop := {
  v_vals : NoDup (map snd (rxs s));
  v_ids : NoDup (map fst (rxs s));
  v_next : forall id v, In (id, v) (rxs s) -> id < rnext s;
  v_frames : forall id v k, In (FAdd id v k) (rstack s) \/ In (FRem id v k) (rstack s) -> In (id, v) (rxs s);
  v_distinct : NoDup (fvals (rstack s));
  v_clr : existsb is_clr (rstack s) = true -> length (filter (fun f => negb (is_acts f)) (rstack s)) <= 1;
  v_know : forall p n, nth_error (rsubs s) p = Some n -> forall z, know n z <-> in_set s z /\ forall f, In f (rstack s) -> ~ hides p z f
}.

Lemma has_in v xs : has v xs = true <-> In v (map snd xs).
Proof. unfold has. rewrite existsb_exists, in_map_iff. split; intros (p & A & B); exists p; [rewrite Z.eqb_eq in B|rewrite Z.eqb_eq]; auto. Qed.
Lemma live_in id xs : live id xs = true <-> In id (map fst xs).
Proof. unfold live. rewrite existsb_exists, in_map_iff. split; intros (p & A & B); exists p; [rewrite Nat.eqb_eq in B|rewrite Nat.eqb_eq]; auto. Qed.
Lemma zmem v ms : existsb (Z.eqb v) ms = true <-> In v ms.
Proof. rewrite existsb_exists. split; [intros (x & A & B); apply Z.eqb_eq in B; now subst|intros A; exists v; rewrite Z.eqb_eq; auto]. Qed.
Lemma nodup_key {A B} (xs : list (A * B)) a b b' : NoDup (map fst xs) -> In (a, b) xs -> In (a, b') xs -> b = b'.
Proof.
  induction xs as [|[x y] xs IH]; cbn; [tauto|]. intros N. inversion N; subst. intros [E|I] [E'|I']; auto; try congruence.
  - injection E as -> ->. destruct H1. apply in_map_iff. exists (a, b'). auto.
  - injection E' as -> ->. destruct H1. apply in_map_iff. exists (a, b). auto.
Qed.
Lemma nodup_val {A B} (xs : list (A * B)) a a' b : NoDup (map snd xs) -> In (a, b) xs -> In (a', b) xs -> a = a'.
Proof.
  induction xs as [|[x y] xs IH]; cbn; [tauto|]. intros N. inversion N; subst. intros [E|I] [E'|I']; auto; try congruence.
  - injection E as -> ->. destruct H1. apply in_map_iff. exists (a', b). auto.
  - injection E' as -> ->. destruct H1. apply in_map_iff. exists (a, b). auto.
Qed.
Lemma fvals_in v st : In v (fvals st) <-> under_way v st.
Proof.
  unfold fvals, under_way. rewrite in_flat_map. split.
  - intros (f & F & V). destruct f; cbn in V; try tauto; destruct V as [<-|[]]; eauto.
  - intros (id & k & [F|F]); [exists (FAdd id v k)|exists (FRem id v k)]; cbn; auto.
Qed.
Lemma acts_len r : (forall f, In f r -> exists l, f = FActs l) -> filter (fun f => negb (is_acts f)) r = [].
Proof. induction r as [|f r IH]; cbn; auto. intros H. destruct (H f (or_introl eq_refl)) as (l & ->). cbn. apply IH. intros g G. apply H. auto. Qed.
Lemma len_acts r f : length (filter (fun f => negb (is_acts f)) r) <= 0 -> In f r -> exists l, f = FActs l.
Proof.
  intros L I. destruct f; eauto; exfalso; match goal with H : In ?x r |- _ => assert (Q : In x (filter (fun f => negb (is_acts f)) r)) by (apply filter_In; auto) end;
    destruct (filter _ r); cbn in *; auto; lia.
Qed.

(** What an observer knows after a call *)
Definition knows_after (c : zcall) (q : Prop) (z : Z) : Prop :=
  match c with KAdded v => z = v \/ q | KRemoving v => z <> v /\ q | KClearing => False end.
Lemma knows_after_iff c q q' z : (q <-> q') -> (knows_after c q z <-> knows_after c q' z).
Proof. destruct c; cbn; tauto. Qed.
Lemma react_ok c n : (match c with KAdded v => ~ know n v | KRemoving v => know n v | KClearing => True end) ->
  exists n' l, react c n = Ok (n', l) /\ forall z, know n' z <-> knows_after c (know n z) z.
Proof.
  destruct n as [ms|log plan]; cbn [know react]; intros H.
  - destruct c as [v|v|].
    + destruct (existsb (Z.eqb v) ms) eqn:E; [apply zmem in E; contradiction|]. eexists _, _. split; [reflexivity|]. intros z. cbn. intuition.
    + apply zmem in H. rewrite H. eexists _, _. split; [reflexivity|]. intros z. cbn [know knows_after]. rewrite filter_In. destruct (Z.eqb_spec z v); cbn; intuition congruence.
    + eexists _, _. split; [reflexivity|]. cbn. tauto.
  - eexists _, _. split; [reflexivity|]. intros z. destruct c; cbn; tauto.
Qed.

Ltac frames := intros id0 v0 k0 [H|H]; cbn [In] in H; intuition (try congruence).

(** A call of an observer keeps the invariant: the frame f' replaces f at the top. *)
Lemma deliver_inv s c k n f f' r : inv s -> rstack s = f :: r -> nth_error (rsubs s) k = Some n ->
  (match c, f, f' with
   | KAdded v, FAdd id v1 k1, FAdd id' v2 k2 | KRemoving v, FRem id v1 k1, FRem id' v2 k2 => v = v1 /\ v = v2 /\ id = id' /\ k1 = k /\ k2 = S k
   | KClearing, FClr k1, FClr k2 => k1 = k /\ k2 = S k
   | _, _, _ => False
   end) ->
  exists s', deliver c k n f' s r = Ok s' /\ inv s'.
Proof.
  intros V ST N M. destruct V as [Vv Vi Vn Vf Vd Vc Vk]. rewrite ST in *. pose proof (Vk k n N) as KN.
  assert (OTHER : forall v, In v (fvals [f]) -> forall g, In g r -> forall p, ~ hides p v g).
  { intros v F g G p Hg. cbn in F. rewrite app_nil_r in F.
    assert (NC : existsb is_clr (f :: r) = false -> False).
    { intros NC. destruct g; cbn in Hg; auto; try (destruct Hg as (-> & _); cbn in Vd; destruct f; cbn in F; try tauto; destruct F as [<-|[]]; inversion Vd; subst; apply H1; apply fvals_in; unfold under_way; eauto).
      assert (existsb is_clr (f :: r) = true); [|congruence]. cbn. apply orb_true_iff. right. apply existsb_exists. exists (FClr k0). auto. }
    destruct (existsb is_clr (f :: r)) eqn:NC'; auto. specialize (Vc eq_refl). destruct f; cbn in F; try tauto; cbn in Vc; apply (len_acts r g) in G; try lia; destruct G as (l & ->); exact Hg. }
  assert (PRE : match c with KAdded v => ~ know n v | KRemoving v => know n v | KClearing => True end).
  { destruct c as [v|v|]; auto; destruct f; try tauto; destruct f'; try tauto; destruct M as (<- & <- & <- & <- & ->).
    - rewrite KN. intros (_ & H). apply (H _ (or_introl eq_refl)). cbn. auto.
    - rewrite KN. split; [unfold in_set; apply in_map_iff; exists (id, v); split; auto; eapply Vf; right; left; reflexivity|].
      intros g [<-|G]; [cbn; lia|]. apply OTHER; cbn; auto. }
  destruct (react_ok c n PRE) as (n' & l & E & KA). unfold deliver. rewrite E. cbn [rbind]. eexists. split; [reflexivity|].
  assert (IN : forall g, In g (match l with [] => f' :: r | _ => FActs l :: f' :: r end) <-> (g = f' \/ In g r) \/ (l <> [] /\ g = FActs l)).
  { intros g. destruct l; cbn; [|intuition (try congruence)]. split; intros; intuition. }
  assert (FV : fvals (match l with [] => f' :: r | _ => FActs l :: f' :: r end) = fvals (f :: r)).
  { destruct c, f; try tauto; destruct f'; try tauto; destruct M as (? & M); subst; try (destruct M as (<- & <- & <- & ->)); destruct l; reflexivity. }
  constructor; cbn [rxs rnext rsubs rstack]; auto.
  - intros id0 v0 k0 H. rewrite !IN in H.
    assert (H' : (FAdd id0 v0 k0 = f' \/ FRem id0 v0 k0 = f') \/ In (FAdd id0 v0 k0) r \/ In (FRem id0 v0 k0) r) by (intuition congruence).
    destruct H' as [H'|H'].
    + destruct c, f; try tauto; destruct f'; try tauto; try (destruct M as (<- & <- & <- & <- & ->)); destruct H' as [H'|H']; try discriminate; injection H' as -> -> ->; eapply Vf; cbn; eauto.
    + apply (Vf id0 v0 k0). cbn. tauto.
  - now rewrite FV.
  - intros X. assert (L : length (filter (fun f => negb (is_acts f)) (match l with [] => f' :: r | _ => FActs l :: f' :: r end)) = length (filter (fun f => negb (is_acts f)) (f :: r))).
    { destruct l, c, f; try tauto; destruct f'; try tauto; reflexivity. }
    rewrite L. apply Vc. rewrite <- X. destruct l, c, f; try tauto; destruct f'; try tauto; reflexivity.
  - intros p m P z. unfold in_set. cbn [rxs]. destruct (Nat.eq_dec p k) as [->|NE].
    + rewrite nth_error_set_nth_eq in P by (apply nth_error_Some; congruence). injection P as <-. rewrite KA, (knows_after_iff c _ _ z (KN z)). unfold knows_after, in_set. split.
      * intros H. split.
        -- destruct c as [v|v|]; [|tauto|tauto]. destruct H as [->|H]; [|tauto]. destruct f; try tauto; destruct f'; try tauto; destruct M as (<- & <- & <- & <- & ->). apply in_map_iff. exists (id, v). split; auto. eapply Vf. left. left. reflexivity.
        -- intros g G. rewrite IN in G. destruct G as [[->|G]|(_ & ->)]; [| |cbn; tauto].
           ++ destruct c as [v|v|]; [| |tauto]; destruct f; try tauto; destruct f'; try tauto; destruct M as (<- & <- & <- & <- & ->); cbn; [lia|]. intros (-> & _). tauto.
           ++ destruct c as [v|v|]; [| |tauto].
              ** destruct H as [->|(_ & H)]; [|apply H; cbn; auto]. apply OTHER; auto. destruct f; try tauto; destruct f'; try tauto; destruct M as (<- & <- & <- & <- & ->). cbn. auto.
              ** destruct H as (_ & _ & H). apply H. cbn. auto.
      * intros (Z0 & H). destruct c as [v|v|].
        -- destruct (Z.eq_dec z v) as [->|NZ]; [auto|]. right. split; auto. intros g [<-|G]; [|apply H; rewrite IN; auto]. destruct f; try tauto; destruct f'; try tauto; destruct M as (<- & <- & <- & <- & ->). cbn. intros (-> & _). tauto.
        -- split; [|split; auto].
           ++ intros ->. destruct f; try tauto; destruct f'; try tauto; destruct M as (<- & <- & <- & <- & ->). apply (H (FRem id v (S k0))); [rewrite IN; auto|cbn; lia].
           ++ intros g [<-|G]; [|apply H; rewrite IN; auto]. destruct f; try tauto; destruct f'; try tauto; destruct M as (<- & <- & <- & <- & ->). cbn. lia.
        -- destruct f; try tauto; destruct f'; try tauto. destruct M as (-> & ->). apply (H (FClr (S k))); [rewrite IN; auto|cbn; lia].
    + rewrite nth_error_set_nth_neq in P by auto. rewrite (Vk p m P z). unfold in_set. split; intros (Z0 & H); split; auto.
      * intros g G. rewrite IN in G. destruct G as [[->|G]|(_ & ->)]; [|apply H; cbn; auto|cbn; tauto].
        specialize (H f (or_introl eq_refl)). destruct c, f; try tauto; destruct f'; try tauto; try (destruct M as (<- & <- & <- & <- & ->)); try (destruct M as (-> & ->)); cbn in *; lia.
      * intros g [<-|G]; [|apply H; rewrite IN; auto].
        specialize (H f' (proj2 (IN f') (or_introl (or_introl eq_refl)))). destruct c, f; try tauto; destruct f'; try tauto; try (destruct M as (<- & <- & <- & <- & ->)); try (destruct M as (-> & ->)); cbn in *; lia.
Qed.

Lemma fvals_cons f r : fvals (f :: r) = fvals [f] ++ fvals r.
Proof. unfold fvals. cbn. now rewrite app_nil_r. Qed.
(** The invariant when the top of the stack is replaced by frames of the same set *)
Lemma inv_acts s l l' r : inv s -> rstack s = FActs l :: r -> inv (RSt (rxs s) (rnext s) (rsubs s) (FActs l' :: r)).
Proof.
  intros [Vv Vi Vn Vf Vd Vc Vk] ST. rewrite ST in *. constructor; cbn [rxs rnext rsubs rstack]; auto.
  - intros id v k [[H|H]|[H|H]]; try discriminate; apply (Vf id v k); cbn; auto.
  - intros p n P z. rewrite (Vk p n P z). unfold in_set. cbn [rxs]. split; intros (Z0 & H); split; auto; intros g [<-|G]; cbn; auto; apply H; cbn; auto.
Qed.
Lemma nth_sub_lt (s : rstate) k p n : nth_error (rsubs s) k = None -> nth_error (rsubs s) p = Some n -> p < k.
Proof. intros A B. apply nth_error_None in A. assert (p < length (rsubs s)) by (apply nth_error_Some; congruence). lia. Qed.

Lemma rtick_inv s : inv s -> proper s -> exists s', rtick s = Ok s' /\ inv s'.
Proof.
  intros V PR. unfold rtick, proper in *. destruct (rstack s) as [|f r] eqn:ST; [eauto|]. destruct f as [[|a l]|id v k|id v k|k].
  - eexists. split; [reflexivity|]. destruct V as [Vv Vi Vn Vf Vd Vc Vk]. rewrite ST in *. constructor; cbn [rxs rnext rsubs rstack]; auto.
    + intros id v k H. apply (Vf id v k). cbn. tauto.
    + intros p n P z. rewrite (Vk p n P z). unfold in_set. cbn [rxs]. split; intros (Z0 & H); split; auto; intros g G; [apply H; cbn; auto|destruct G as [<-|G]; cbn; auto; apply H; auto].
  - pose proof (inv_acts s _ l r V ST) as V'. destruct a as [v|v|].
    + destruct (has v (rxs s)) eqn:HV; [eexists; split; [reflexivity|auto]|]. eexists. split; [reflexivity|].
      assert (NV : ~ In v (map snd (rxs s))) by (rewrite <- has_in; congruence). destruct V' as [Vv Vi Vn Vf Vd Vc Vk]. cbn [rxs rnext rsubs rstack] in *.
      assert (FRESH : ~ In (rnext s) (map fst (rxs s))). { intros I. apply in_map_iff in I as ([i w] & E & I). apply Vn in I. cbn in E. lia. }
      assert (NF : ~ under_way v (FActs l :: r)). { intros (i & k & I). apply Vf in I. apply NV. apply in_map_iff. exists (i, v). auto. }
      constructor; cbn [rxs rnext rsubs rstack]; auto.
      * cbn. constructor; auto.
      * cbn. constructor; auto.
      * intros i w [I|I]; [injection I as <- <-; lia|]. apply Vn in I. lia.
      * intros i w k [[I|I]|[I|I]]; try discriminate; [injection I as <- <- <-; cbn; auto| |]; right; apply (Vf i w k); cbn; auto.
      * cbn. constructor; auto. intros I. apply NF, fvals_in. exact I.
      * intros X. exfalso. apply PR. cbn in X. apply existsb_exists in X as (g & G & X). destruct g; try discriminate. exists k. auto.
      * intros p n P z. rewrite (Vk p n P z). unfold in_set. cbn [rxs map snd In]. split.
        -- intros (Z0 & H). split; auto. intros g [<-|G]; [|apply H; cbn; auto]. cbn. intros (<- & _). auto.
        -- intros (Z0 & H). split; [|intros g G; apply H; cbn; auto]. destruct Z0 as [<-|Z0]; auto. destruct (H _ (or_introl eq_refl)). cbn. split; auto. lia.
    + destruct (find (fun p => Z.eqb (snd p) v) (rxs s)) as [[id w]|] eqn:F; [|eexists; split; [reflexivity|auto]]. eexists. split; [reflexivity|].
      apply find_some in F as (F1 & F2). cbn in F2. apply Z.eqb_eq in F2 as ->. destruct PR as (PC & PU). destruct V' as [Vv Vi Vn Vf Vd Vc Vk]. cbn [rxs rnext rsubs rstack] in *.
      constructor; cbn [rxs rnext rsubs rstack]; auto.
      * intros i w k [[I|I]|[I|I]]; try discriminate; [|injection I as <- <- <-; auto|]; apply (Vf i w k); cbn; auto.
      * cbn. constructor; auto. intros I. apply PU. now apply fvals_in in I.
      * intros X. exfalso. apply PC. cbn in X. apply existsb_exists in X as (g & G & X). destruct g; try discriminate. exists k. auto.
      * intros p n P z. rewrite (Vk p n P z). unfold in_set. cbn [rxs]. split; intros (Z0 & H); split; auto.
        -- intros g [<-|G]; [cbn; lia|apply H; auto].
        -- intros g G; apply H; cbn; auto.
    + destruct (rxs s) as [|x xs] eqn:EX; [eexists; split; [reflexivity|auto]|]. eexists. split; [reflexivity|].
      rewrite <- EX in *. clear x xs EX. destruct V' as [Vv Vi Vn Vf Vd Vc Vk]. cbn [rxs rnext rsubs rstack] in *. constructor; cbn [rxs rnext rsubs rstack]; auto.
      * intros i w k [[I|I]|[I|I]]; try discriminate; apply (Vf i w k); cbn; auto.
      * intros _. cbn. rewrite (acts_len r PR). cbn. lia.
      * intros p n P z. rewrite (Vk p n P z). unfold in_set. cbn [rxs]. split; intros (Z0 & H); split; auto.
        -- intros g [<-|G]; [cbn; lia|apply H; auto].
        -- intros g G; apply H; cbn; auto.
  - assert (LV : In (id, v) (rxs s)) by (apply (v_frames _ V id v k); rewrite ST; cbn; auto).
    destruct (nth_error (rsubs s) k) as [n|] eqn:N.
    + assert (live id (rxs s) = true) as -> by (apply live_in, in_map_iff; exists (id, v); auto). eapply deliver_inv; eauto. cbn. auto.
    + eexists. split; [reflexivity|]. destruct V as [Vv Vi Vn Vf Vd Vc Vk]. rewrite ST in *. constructor; cbn [rxs rnext rsubs rstack]; auto.
      * intros i w j H. apply (Vf i w j). cbn. tauto.
      * cbn in Vd. inversion Vd; auto.
      * intros X. assert (L : length (filter (fun f => negb (is_acts f)) (FAdd id v k :: r)) <= 1) by (apply Vc; cbn; auto). cbn in L. lia.
      * intros p n P z. rewrite (Vk p n P z). pose proof (nth_sub_lt _ _ _ _ N P). unfold in_set. cbn [rxs]. split; intros (Z0 & H0); split; auto; intros g G; [apply H0; cbn; auto|destruct G as [<-|G]; [cbn; lia|apply H0; auto]].
  - assert (LV : In (id, v) (rxs s)) by (apply (v_frames _ V id v k); rewrite ST; cbn; auto).
    assert (LL : live id (rxs s) = true) by (apply live_in, in_map_iff; exists (id, v); auto). rewrite LL.
    destruct (nth_error (rsubs s) k) as [n|] eqn:N; [eapply deliver_inv; eauto; cbn; auto|].
    eexists. split; [reflexivity|]. destruct V as [Vv Vi Vn Vf Vd Vc Vk]. rewrite ST in *.
    assert (SUB : forall i w, In (i, w) (drop_node id (rxs s)) <-> In (i, w) (rxs s) /\ w <> v).
    { intros i w. unfold drop_node. rewrite filter_In. cbn. destruct (Nat.eqb_spec i id) as [->|NE]; cbn; split; intros (A & B); split; auto.
      - discriminate.
      - exfalso. apply B. eapply nodup_key; eauto.
      - intros ->. apply NE. eapply nodup_val; eauto. }
    assert (VALS : forall z, In z (map snd (drop_node id (rxs s))) <-> In z (map snd (rxs s)) /\ z <> v).
    { intros z. rewrite !in_map_iff. split; [intros ([i w] & <- & I)|intros (([i w] & <- & I) & NZ)].
      - apply SUB in I as (I & J). split; [exists (i, w); auto|auto].
      - exists (i, w). split; auto. apply SUB. auto. }
    constructor; cbn [rxs rnext rsubs rstack]; auto.
    + clear - Vv. unfold drop_node. induction (rxs s) as [|[i w] xs IH]; cbn in *; [constructor|]. inversion Vv; subst. destruct (negb (i =? id)); cbn; auto. constructor; auto.
      intros I. apply H1. apply in_map_iff in I as (p & E & I). apply filter_In in I as (I & _). apply in_map_iff. eauto.
    + clear - Vi. unfold drop_node. induction (rxs s) as [|[i w] xs IH]; cbn in *; [constructor|]. inversion Vi; subst. destruct (negb (i =? id)); cbn; auto. constructor; auto.
      intros I. apply H1. apply in_map_iff in I as (p & E & I). apply filter_In in I as (I & _). apply in_map_iff. eauto.
    + intros i w I. apply SUB in I as (I & _). eauto.
    + intros i w j H. apply SUB. split; [apply (Vf i w j); cbn; tauto|]. intros ->. cbn in Vd. inversion Vd; subst. apply H2. apply fvals_in. exists i, j. tauto.
    + cbn in Vd. inversion Vd; auto.
    + intros X. assert (L : length (filter (fun f => negb (is_acts f)) (FRem id v k :: r)) <= 1) by (apply Vc; cbn; auto). cbn in L. lia.
    + intros p n P z. rewrite (Vk p n P z). pose proof (nth_sub_lt _ _ _ _ N P). unfold in_set. cbn [rxs]. rewrite VALS. split.
      * intros (Z0 & H0). split; [split; auto|intros g G; apply H0; cbn; auto]. intros ->. apply (H0 _ (or_introl eq_refl)). cbn. auto.
      * intros ((Z0 & NZ) & H0). split; auto. intros g [<-|G]; [cbn; intuition congruence|apply H0; auto].
  - destruct (nth_error (rsubs s) k) as [n|] eqn:N; [eapply deliver_inv; eauto; cbn; auto|].
    eexists. split; [reflexivity|]. destruct V as [Vv Vi Vn Vf Vd Vc Vk]. rewrite ST in *. specialize (Vc eq_refl). cbn in Vc.
    assert (Q : forall f, In f r -> exists l, f = FActs l) by (intros f; apply len_acts; lia).
    constructor; cbn [rxs rnext rsubs rstack].
    + constructor.
    + constructor.
    + intros i w [].
    + intros i w j [H|H]; apply Q in H as (l & H); discriminate.
    + exact Vd.
    + intros _. rewrite (acts_len r Q). cbn. lia.
    + intros p n P z. split; [|intros ([] & _)]. rewrite (Vk p n P z). intros (_ & B). exfalso. apply (B _ (or_introl eq_refl)). cbn. eapply nth_sub_lt; eauto.
Qed.

Lemma start_inv subs l : Forall fresh subs -> inv (rstart subs l).
Proof.
  intros F. unfold rstart. constructor; cbn [rxs rnext rsubs rstack].
  - constructor.
  - constructor.
  - intros id v [].
  - intros id v k [[H|[]]|[H|[]]]; discriminate.
  - constructor.
  - discriminate.
  - intros p n P z. split; [|intros ([] & _)]. intros H. exfalso. rewrite Forall_forall in F. apply nth_error_In, F in P. destruct n; cbn in *; subst; destruct H.
Qed.
Lemma reach_inv subs l s : Forall fresh subs -> reach (rstart subs l) s -> inv s.
Proof. intros F R. induction R; [now apply start_inv|]. destruct (rtick_inv s IHR H) as (s1 & E & V). congruence. Qed.

(** Nothing is undefined and no mirror throws as long as the observers are proper. *)
Theorem reent_safe : forall subs l s, Forall fresh subs -> reach (rstart subs l) s -> proper s -> exists s', rtick s = Ok s'.
Proof. intros subs l s F R P. destruct (rtick_inv s (reach_inv _ _ _ F R) P) as (s' & E & _). eauto. Qed.

(** When no notification is under way all the observers know exactly the elements of the set. *)
Theorem reent_in_step : forall subs l s, Forall fresh subs -> reach (rstart subs l) s -> quiet (rstack s) -> in_step s.
Proof.
  intros subs l s F R Q p n P z. rewrite (v_know _ (reach_inv _ _ _ F R) p n P z). split; [tauto|]. intros H. split; auto. intros f Hf. apply Q in Hf as (a & ->). cbn. auto.
Qed.

(** And in the middle of notifications: an observer knows an element of the set unless it is being told of it right now, and it
    never knows anything else. *)
Theorem reent_meanwhile : forall subs l s p n z, Forall fresh subs -> reach (rstart subs l) s -> nth_error (rsubs s) p = Some n ->
  (know n z -> in_set s z) /\ (in_set s z -> ~ under_way z (rstack s) -> ~ clearing (rstack s) -> know n z).
Proof.
  intros subs l s p n z F R P. pose proof (v_know _ (reach_inv _ _ _ F R) p n P z) as K. split; [tauto|]. intros Z0 U C. apply K. split; auto.
  intros f Hf. destruct f; cbn; auto; [intros (-> & _)|intros (-> & _)|intros _].
  - apply U. exists id, k. auto.
  - apply U. exists id, k. auto.
  - apply C. exists k. auto.
Qed.

(** Every program ends: what is done is bounded by the plans. *)
Definition weigh (n : nat) (l : list action) : nat := length l * (2 * n + 3).
Definition f_size (n : nat) (f : frame) : nat :=
  match f with FActs l => 1 + weigh n l | FAdd _ _ k | FRem _ _ k | FClr k => 2 * (n - k) + 1 end.
Definition n_size (n : nat) (o : rnode) : nat := match o with RMirror _ => 0 | RUser _ plan => fold_right (fun l a => weigh n l + a) 0 plan end.
Definition sum {A} (f : A -> nat) (l : list A) : nat := fold_right (fun x a => f x + a) 0 l.
Definition size (s : rstate) : nat := let n := length (rsubs s) in sum (f_size n) (rstack s) + sum (n_size n) (rsubs s).
Lemma sum_set {A} (f : A -> nat) l : forall k x y, nth_error l k = Some x -> sum f (set_nth l k y) + f x = sum f l + f y.
Proof. induction l as [|z l IH]; intros [|k] x y; cbn; try discriminate; [intros [= ->]; lia|]. intros H. specialize (IH _ _ y H). unfold sum in IH. lia. Qed.
Lemma react_size m c n n' l : react c n = Ok (n', l) -> n_size m n' + weigh m l = n_size m n.
Proof.
  destruct n as [ms|log plan]; cbn [react].
  - destruct c as [v|v|]; try destruct (existsb (Z.eqb v) ms); intros [= <- <-]; reflexivity.
  - intros [= <- <-]. destruct plan; [reflexivity|]. cbn [n_size tl hd fold_right]. lia.
Qed.
Lemma deliver_size c k n f f' s r s' : nth_error (rsubs s) k = Some n -> rstack s = f :: r ->
  (forall m, k < m -> f_size m f' + 2 = f_size m f) -> deliver c k n f' s r = Ok s' -> length (rsubs s') = length (rsubs s) /\ size s' < size s.
Proof.
  intros N ST FS. unfold deliver. destruct (react c n) as [[n' l]| |] eqn:E; cbn [rbind]; try discriminate. intros [= <-]. cbn [rsubs]. rewrite set_nth_length. split; auto.
  unfold size. cbn [rsubs rstack]. rewrite set_nth_length. set (m := length (rsubs s)). pose proof (react_size m _ _ _ _ E) as RS.
  assert (KM : k < m) by (apply nth_error_Some; congruence). specialize (FS m KM). pose proof (sum_set (n_size m) _ _ _ n' N) as SS. rewrite ST. assert (SC : forall g t, sum (f_size m) (g :: t) = f_size m g + sum (f_size m) t) by reflexivity.
  destruct l as [|a l]; rewrite !SC; [change (weigh m []) with 0 in RS|change (f_size m (FActs (a :: l))) with (1 + weigh m (a :: l))]; lia.
Qed.
Lemma sum_cons {A} (f : A -> nat) x l : sum f (x :: l) = f x + sum f l.
Proof. reflexivity. Qed.
Lemma weigh_cons n a l : weigh n (a :: l) = 2 * n + 3 + weigh n l.
Proof. reflexivity. Qed.
Ltac sz ST := unfold size; cbn [rsubs rstack]; rewrite ST, ?sum_cons; cbn [f_size]; rewrite ?weigh_cons; lia.
Lemma rtick_size s s' : rtick s = Ok s' -> rstack s <> [] -> length (rsubs s') = length (rsubs s) /\ size s' < size s.
Proof.
  unfold rtick. destruct (rstack s) as [|f r] eqn:ST; [congruence|]. intros E _. destruct f as [[|a l]|id v k|id v k|k].
  - injection E as <-. split; auto. sz ST.
  - destruct a as [v|v|].
    + destruct (has v (rxs s)); injection E as <-; (split; [auto|]); sz ST.
    + destruct (find _ (rxs s)) as [[id w]|]; injection E as <-; (split; [auto|]); sz ST.
    + destruct (rxs s); injection E as <-; (split; [auto|]); sz ST.
  - destruct (nth_error (rsubs s) k) as [n|] eqn:N.
    + destruct (live id (rxs s)); [|discriminate]. eapply deliver_size; eauto. intros m. cbn. lia.
    + injection E as <-. split; auto. sz ST.
  - destruct (nth_error (rsubs s) k) as [n|] eqn:N.
    + destruct (live id (rxs s)); [|discriminate]. eapply deliver_size; eauto. intros m. cbn. lia.
    + destruct (live id (rxs s)); [|discriminate]. injection E as <-. split; auto. sz ST.
  - destruct (nth_error (rsubs s) k) as [n|] eqn:N.
    + eapply deliver_size; eauto. intros m. cbn. lia.
    + injection E as <-. split; auto. sz ST.
Qed.
Lemma rticks_end : forall m s, size s <= m -> match rticks m s with Ok s' => rstack s' = [] | _ => True end.
Proof.
  induction m as [|m IH]; intros s L; cbn [rticks].
  - destruct (rstack s) as [|f r] eqn:ST; auto. exfalso. unfold size in L. rewrite ST in L. cbn in L. destruct f; cbn in L; lia.
  - destruct (rtick s) as [s1| |] eqn:E; cbn [rbind]; auto. destruct (rstack s) as [|f r] eqn:ST.
    + unfold rtick in E. rewrite ST in E. injection E as <-. clear - ST. assert (H : forall m, rticks m s = Ok s) by (induction m0; cbn; auto; unfold rtick; now rewrite ST). now rewrite H.
    + apply IH. apply rtick_size in E as (_ & E); [|congruence]. lia.
Qed.
Theorem reent_ends : forall s, exists m, match rticks m s with Ok s' => rstack s' = [] | _ => True end.
Proof. intros s. exists (size s). now apply rticks_end. Qed.

Lemma reach_trans s0 s1 s2 : reach s0 s1 -> reach s1 s2 -> reach s0 s2.
Proof. intros A B. induction B; auto. eapply RS; eauto. Qed.
Lemma rticks_reach m : forall s, (forall s', reach s s' -> proper s') -> inv s -> exists s', rticks m s = Ok s' /\ reach s s'.
Proof.
  induction m as [|m IH]; intros s P V; cbn [rticks]; [exists s; split; [auto|constructor]|].
  destruct (rtick_inv s V (P s (R0 s))) as (s1 & E & V1). rewrite E. cbn [rbind].
  assert (R1 : reach s s1) by (eapply RS; [apply R0|apply P, R0|exact E]).
  destruct (IH s1) as (s2 & E2 & R2); auto; [intros s' R'; apply P; eapply reach_trans; eauto|]. exists s2. split; auto. eapply reach_trans; eauto.
Qed.
(** A program with proper observers ends, and all the observers are in step then. *)
Theorem reent_total : forall subs l, Forall fresh subs -> (forall s, reach (rstart subs l) s -> proper s) ->
  exists m s, rticks m (rstart subs l) = Ok s /\ rstack s = [] /\ in_step s.
Proof.
  intros subs l F P. exists (size (rstart subs l)). destruct (rticks_reach (size (rstart subs l)) _ P (start_inv _ _ F)) as (s & E & R). exists s. split; auto.
  pose proof (rticks_end (size (rstart subs l)) (rstart subs l) (Nat.le_refl _)) as H. rewrite E in H. split; auto. eapply reent_in_step; eauto. rewrite H. intros f [].
Qed.

(** The restrictions are needed.  A program that ends has observers that are not in step, or the behaviour is undefined, or a mirror
    throws: *)
Definition ends (subs : list rnode) (l : list action) (q : res rstate -> Prop) : Prop := q (rticks 100 (rstart subs l)).
(** an observer erases the element that it is told of; *)
Theorem reent_erase_refuted : exists subs l, Forall fresh subs /\ ends subs l (fun r => r = Throw LogicError).
Proof. exists [RUser [] [[AErase 1%Z]]; RMirror []], [AInsert 1%Z]. split; [repeat constructor|]. vm_compute. reflexivity. Qed.
(** ... if the other observers do not throw it is undefined for them; *)
Theorem reent_dangling_refuted : exists subs l, Forall fresh subs /\ ends subs l (fun r => r = UB).
Proof. exists [RUser [] [[AErase 1%Z]]; RUser [] []], [AInsert 1%Z]. split; [repeat constructor|]. vm_compute. reflexivity. Qed.
(** an observer erases the element of which it is told that it is being removed: erased twice; *)
Theorem reent_twice_refuted : exists subs l, Forall fresh subs /\ (exists o, subs = [o]) /\ ends subs l (fun r => r = UB).
Proof. exists [RUser [] [[]; [AErase 1%Z]]], [AInsert 1%Z; AErase 1%Z]. split; [repeat constructor|]. split; [eauto|]. vm_compute. reflexivity. Qed.
(** an observer inserts while the set is being cleared: a mirror shows for ever what the set does not contain. *)
Theorem reent_clear_refuted : exists subs l, Forall fresh subs /\ ends subs l (fun r => match r with Ok s => rstack s = [] /\ ~ in_step s | _ => False end).
Proof.
  exists [RMirror []; RUser [] [[]; [AInsert 2%Z]]], [AInsert 1%Z; AClear]. split; [repeat constructor|]. vm_compute. split; auto. intros H. destruct (H 0 _ eq_refl 2%Z) as (H1 & _). destruct H1. auto.
Qed.

(** ... and if the element is inserted again the mirror throws, although this insertion has no fault. *)
Theorem reent_later_refuted : exists subs l, Forall fresh subs /\
  ends subs l (fun r => match r with Ok s => rstack s = [] | _ => False end) /\ ends subs (l ++ [AInsert 2%Z]) (fun r => r = Throw LogicError).
Proof. exists [RMirror []; RUser [] [[]; [AInsert 2%Z]]], [AInsert 1%Z; AClear]. split; [repeat constructor|]. vm_compute. auto. Qed.

(** An observer between two mirrors inserts 2 when it is told of 1, and when it is told of 2 it inserts 4 and erases 3. *)
Example ex_reent :
  match rticks 100 (rstart [RMirror []; RUser [] [[]; [AInsert 2]; [AInsert 4; AErase 3]]; RMirror []]%Z [AInsert 3; AInsert 1; AErase 4]%Z) with
  | Ok s => rstack s = [] /\ map snd (rxs s) = [2; 1]%Z /\
            rsubs s = [RMirror [2; 1]; RUser [KRemoving 4; KRemoving 3; KAdded 4; KAdded 2; KAdded 1; KAdded 3] []; RMirror [1; 2]]%Z
  | _ => False
  end.
Proof. vm_compute. auto. Qed.
(** Its observers are proper: at each of its steps, and so in all the states that it reaches. *)
Fixpoint proper_run (n : nat) (s : rstate) : Prop :=
  match n with
  | 0 => rstack s = []
  | S m => proper s /\ match rtick s with Ok s' => proper_run m s' | _ => False end
  end.
Lemma proper_run_reach n : forall s s', proper_run n s -> reach s s' -> proper s'.
Proof.
  assert (INV : forall n s, proper_run n s -> proper s).
  { intros [|m] s; cbn; [intros H; unfold proper; now rewrite H|tauto]. }
  assert (STEP : forall n s s', proper_run n s -> rtick s = Ok s' -> exists m, proper_run m s').
  { intros [|m] s s'; cbn; [intros H; unfold rtick; rewrite H; intros [= <-]; exists 0; auto|]. intros (_ & H) E. rewrite E in H. eauto. }
  intros s s' H R. assert (Q : exists m, proper_run m s') by (induction R; [eauto|destruct IHR as (m & Q); auto; eapply STEP; eauto]). destruct Q as (m & Q). eauto.
Qed.
Example ex_reent_proper : forall s,
  reach (rstart [RMirror []; RUser [] [[]; [AInsert 2]; [AInsert 4; AErase 3]]; RMirror []]%Z [AInsert 3; AInsert 1; AErase 4]%Z) s -> proper s.
Proof.
  intros s. apply (proper_run_reach 33). vm_compute.
  repeat match goal with |- _ /\ _ => split end; auto; intros H; repeat match goal with H : exists _, _ |- _ => destruct H | H : _ \/ _ |- _ => destruct H end; auto; discriminate.
Qed.
