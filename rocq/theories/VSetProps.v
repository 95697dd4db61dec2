(** Properties C01-C07 of awl::vector_set. *)
From Verif Require Import Common VSetModel VSetProg VSetSpec VSetTree VSetRotate VSetInsert VSetLookup VSetList VSetOps VSetProofs VSetBalance.
From Coq Require Import ZifyBool ZifyNat Sorted.

(** [os] is a program within the API contract (VSetSpec.v defines it: existing
    variables, valid iterators, indices below size for operator[]) that does not
    assign a set to itself, and after it variable [i] exists. *)
Definition legal {T K} (lt : T -> T -> bool) (ltKT : K -> T -> bool) (ltTK : T -> K -> bool) (os : list (vop T K)) (i : nat) : Prop :=
  exists se vs ss, srun lt ltKT ltTK sinit os = Some (se, vs, true) /\ se i = Some ss.
(** Running [os] and then the call [q] finishes, and [q] answers [o]. *)
Definition answer {T K} (lt : T -> T -> bool) (ltKT : K -> T -> bool) (ltTK : T -> K -> bool) (os : list (vop T K)) (q : vop T K) (o : vobs T) : Prop :=
  exists e vs, vrun lt ltKT ltTK vinit (os ++ [q]) = Ok (e, vs ++ [o]).

Lemma vsrun_app {T K} (lt : T -> T -> bool) (ltKT : K -> T -> bool) (ltTK : T -> K -> bool) os1 os2 : forall e e1 vs1 b1 e2 vs2 b2,
  srun lt ltKT ltTK e os1 = Some (e1, vs1, b1) -> srun lt ltKT ltTK e1 os2 = Some (e2, vs2, b2) ->
  srun lt ltKT ltTK e (os1 ++ os2) = Some (e2, vs1 ++ vs2, b1 && b2).
Proof.
  induction os1 as [|o os1 IH]; intros e e1 vs1 b1 e2 vs2 b2 H1 H2; cbn [srun app] in *.
  - injection H1 as <- <- <-. exact H2.
  - destruct (sstep lt ltKT ltTK e o) as [[e3 v]|]; [|discriminate].
    destruct (srun lt ltKT ltTK e3 os1) as [[[e4 vs4] b4]|] eqn:E4; [|discriminate]. injection H1 as <- <- <-.
    rewrite (IH _ _ _ _ _ _ _ E4 H2). cbn [app]. now rewrite andb_assoc.
Qed.

Lemma answer_spec {T K} (lt : T -> T -> bool) (ltKT : K -> T -> bool) (ltTK : T -> K -> bool) (SW : strict_weak lt) (KO : keys_ok lt ltKT ltTK)
  os se vs q se' v :
  srun lt ltKT ltTK sinit os = Some (se, vs, true) -> supported q = true -> sstep lt ltKT ltTK se q = Some (se', v) ->
  answer lt ltKT ltTK os q v.
Proof.
  intros H Hs Hq. destruct (vrun_sim lt ltKT ltTK SW KO (os ++ [q]) vinit sinit se' (vs ++ [v]) (envrel_init lt)) as (e & He & _).
  - replace true with (true && true) by reflexivity. eapply vsrun_app; [exact H|]. cbn [srun]. rewrite Hq, Hs. reflexivity.
  - exists e, vs. exact He.
Qed.

(** C05 (and the ground of C01-C04).  Every program over any number of vector_set
    variables that respects the API contract runs without undefined behaviour (no
    access to a null or freed node, no loop that runs out of the nodes ever
    created) and every call returns what the sorted-list specification says. *)
Theorem vset_refines_sorted_list :
  forall (T K : Type) (lt : T -> T -> bool) (ltKT : K -> T -> bool) (ltTK : T -> K -> bool),
    strict_weak lt -> keys_ok lt ltKT ltTK ->
    forall (os : list (vop T K)) se vs, srun lt ltKT ltTK sinit os = Some (se, vs, true) ->
    exists e, vrun lt ltKT ltTK vinit os = Ok (e, vs).
Proof.
  intros T K lt ltKT ltTK SW KO os se vs H.
  destruct (vrun_sim lt ltKT ltTK SW KO os _ _ _ _ (envrel_init lt) H) as (e & He & _). eauto.
Qed.
Print Assumptions vset_refines_sorted_list.

Lemma nat_sw : strict_weak Nat.ltb.
Proof. split; intros; lia. Qed.
Lemma sw_keys {T} (lt : T -> T -> bool) : strict_weak lt -> keys_ok lt lt lt.
Proof.
  intros SW. split.
  - intros k x. apply (lt_asym lt SW).
  - intros k x y. apply (sw_trans lt SW).
  - intros k x y. apply (sw_trans lt SW).
  - intros k x y H. unfold eqvK. rewrite andb_true_iff, !negb_true_iff. intros [H1 H2].
    destruct (lt k y) eqn:E1; [reflexivity|]. exfalso.
    pose proof (sw_incomp lt SW x k y H2 E1). congruence.
Qed.

Example vset_refines_sorted_list_case :
  exists e, srun Nat.ltb Nat.ltb Nat.ltb sinit
    [VNew 0; VInsert 0 5; VInsert 0 3; VInsert 0 8; VInsert 0 5; VEmplace 0 4; VEraseKey 0 5; VIter 0;
     VLower 0 5; VIndexOfKey 0 8; VCopy 1 0; VEraseIt 0 1; VEq 0 1; VRIter 0; VRIter 1; VPrev 0 None]
    = Some (e, [BUnit; BIterBool (Some 0) true; BIterBool (Some 1) true; BIterBool (Some 2) true; BIterBool (Some 0) false;
                BIterBool (Some 3) true; BNat 1; BList [3;4;8]; BIter (Some 2); BNat 2; BUnit; BUnit; BBool false;
                BList [8;4]; BList [8;4;3]; BIter (Some 2)], true).
Proof. eexists. reflexivity. Qed.

(** *** C05: nothing leaks and nothing is freed early *)

(** After every legal program the live nodes of every set are exactly one per
    element, named by the iterators the caller holds; clear() (and so the
    destructor) frees every node. *)
Theorem vset_live_nodes_are_elements :
  forall (T K : Type) (lt : T -> T -> bool) (ltKT : K -> T -> bool) (ltTK : T -> K -> bool),
    strict_weak lt -> keys_ok lt ltKT ltTK ->
    forall (os : list (vop T K)) se vs, srun lt ltKT ltTK sinit os = Some (se, vs, true) ->
    exists e, vrun lt ltKT ltTK vinit os = Ok (e, vs) /\
    forall i, match se i with
              | Some ss => exists s s', e i = Some s /\ (forall a v, val s a = Some v <-> In (a, v) (snd ss)) /\
                             NoDup (map fst (snd ss)) /\ clear s = Ok (s', tt) /\ (forall a, val s' a = None)
              | None => e i = None
              end.
Proof.
  intros T K lt ltKT ltTK SW KO os se vs H.
  destruct (vrun_sim lt ltKT ltTK SW KO os _ _ _ _ (envrel_init lt) H) as (e & He & R). exists e. split; auto.
  intros i. destruct (se i) as [ss|] eqn:Ei; [|eapply envrel_none; eauto].
  destruct (envrel_some _ _ _ _ _ R Ei) as (s & Es & Rs). destruct (clear_rel lt s ss Rs) as (s' & Ec & _ & Hn).
  exists s, s'. destruct Rs as (t & Rt). repeat split; auto; try apply Rt.
  eapply vrel_nodup. eapply RelT_vrel; eauto.
Qed.
Print Assumptions vset_live_nodes_are_elements.

(** *** C01 *)
Inductive setop (T : Type) := AInsert (v : T) | AEmplace (v : T) | AErase (v : T) | AClear.
Arguments AInsert {T}. Arguments AEmplace {T}. Arguments AErase {T}. Arguments AClear {T}.
Definition call {T} (o : setop T) : vop T T :=
  match o with AInsert v => VInsert 0 v | AEmplace v => VEmplace 0 v | AErase v => VEraseKey 0 v | AClear => VClear 0 end.

Section C01.
Context {T : Type} (lt : T -> T -> bool).
Definition equivalent (x y : T) : bool := negb (lt x y) && negb (lt y x).
(** Is something equivalent to [x] in the set after this history (newest first)? *)
Fixpoint member (hist : list (setop T)) (x : T) : bool :=
  match hist with
  | [] => false
  | AInsert v :: h | AEmplace v :: h => equivalent v x || member h x
  | AErase v :: h => negb (equivalent v x) && member h x
  | AClear :: _ => false
  end.
(** The reported flags: 'inserted' if not a member before, 'erased' if a member before. *)
Fixpoint flags (hist todo : list (setop T)) : list (option bool) :=
  match todo with
  | [] => []
  | o :: todo' =>
      match o with
      | AInsert v | AEmplace v => Some (negb (member hist v))
      | AErase v => Some (member hist v)
      | AClear => None
      end :: flags (o :: hist) todo'
  end.
Definition flag (o : vobs T) : option bool :=
  match o with BIterBool _ b => Some b | BNat 1 => Some true | BNat 0 => Some false | _ => None end.
Definition adds (o : setop T) : list T := match o with AInsert v | AEmplace v => [v] | _ => [] end.

Context (SW : strict_weak lt).

Lemma eqv_refl x : equivalent x x = true.
Proof. unfold equivalent. now rewrite (sw_irrefl lt SW). Qed.
Lemma eqv_sym x y : equivalent x y = equivalent y x.
Proof. unfold equivalent. apply andb_comm. Qed.
Lemma eqv_trans x y z : equivalent x y = true -> equivalent y z = true -> equivalent x z = true.
Proof.
  unfold equivalent. rewrite !andb_true_iff, !negb_true_iff. intros [H1 H2] [H3 H4].
  split; eapply (sw_incomp lt SW); eauto.
Qed.
Lemma eqv_cong x y z : equivalent x y = true -> equivalent x z = equivalent y z.
Proof.
  intros H. destruct (equivalent y z) eqn:E1.
  - now apply (eqv_trans _ y).
  - destruct (equivalent x z) eqn:E2; auto. rewrite eqv_sym in H. rewrite <- E1. symmetry. now apply (eqv_trans _ x).
Qed.

Lemma existsb_filter_split {A} (p q : A -> bool) l :
  existsb q (filter p l) || existsb q (filter (fun x => negb (p x)) l) = existsb q l.
Proof.
  induction l as [|x l IH]; auto. simpl. destruct (p x); simpl; rewrite <- IH;
    destruct (q x), (existsb q (filter p l)), (existsb q (filter (fun y => negb (p y)) l)); reflexivity.
Qed.
Lemma existsb_map {A B} (f : A -> B) p l : existsb p (map f l) = existsb (fun x => p (f x)) l.
Proof. induction l; simpl; auto. now rewrite IHl. Qed.

Lemma sins_existsb h v l x : existsb (equivalent x) (elems (sins lt h v l)) = equivalent v x || existsb (equivalent x) (elems l).
Proof.
  unfold elems, sins. rewrite !existsb_map, existsb_app. simpl. rewrite orb_assoc, (orb_comm _ (equivalent x v)), <- orb_assoc.
  rewrite existsb_filter_split. now rewrite (eqv_sym x v).
Qed.

(** Erasing the one element equivalent to [k]. *)
Lemma erase_existsb l a y x k : sorted lt (elems l) -> NoDup (map fst l) -> lookup (eqvK lt lt k) l = Some (a, y) ->
  existsb (equivalent x) (elems (filter (fun e => negb (fst e =? a)) l)) = negb (equivalent k x) && existsb (equivalent x) (elems l).
Proof.
  intros Hs Hn Hl. unfold lookup in Hl. apply find_some in Hl as [Hin Hk]. simpl in Hk.
  assert (Hk' : equivalent k y = true) by exact Hk.
  apply in_split in Hin as (l1 & l2 & ->). unfold elems in *. rewrite map_app in *. simpl in Hs, Hn.
  apply sorted_mid in Hs as [H1 H2]. apply NoDup_remove_2 in Hn. rewrite in_app_iff in Hn.
  assert (F1 : filter (fun e => negb (fst e =? a)) l1 = l1).
  { apply filter_all, Forall_forall. intros [b w] Hb. simpl. destruct (Nat.eqb_spec b a); auto. subst. exfalso. apply Hn. left. apply in_map_iff. exists (a, w). auto. }
  assert (F2 : filter (fun e => negb (fst e =? a)) l2 = l2).
  { apply filter_all, Forall_forall. intros [b w] Hb. simpl. destruct (Nat.eqb_spec b a); auto. subst. exfalso. apply Hn. right. apply in_map_iff. exists (a, w). auto. }
  rewrite filter_app. simpl. rewrite Nat.eqb_refl. simpl. rewrite F1, F2, !map_app, !existsb_app. simpl.
  rewrite (eqv_sym x y), <- (eqv_cong k y x Hk').
  destruct (equivalent k x) eqn:Ex; simpl; [|reflexivity].
  assert (Hxy : equivalent x y = true) by (rewrite eqv_sym in Ex; now apply (eqv_trans _ k)).
  unfold equivalent in Hxy. rewrite andb_true_iff, !negb_true_iff in Hxy. destruct Hxy as [X1 X2].
  assert (G1 : existsb (equivalent x) (map snd l1) = false).
  { apply existsb_none. eapply Forall_impl; [|exact H1]. simpl. intros w Hw. unfold equivalent.
    destruct (lt x w) eqn:E1; auto. destruct (lt w x) eqn:E2; auto. simpl. rewrite <- Hw. eapply (sw_incomp lt SW); eauto. }
  assert (G2 : existsb (equivalent x) (map snd l2) = false).
  { apply existsb_none. eapply Forall_impl; [|exact H2]. simpl. intros w Hw. unfold equivalent.
    destruct (lt x w) eqn:E1; auto. destruct (lt w x) eqn:E2; auto. simpl. rewrite <- Hw. eapply (sw_incomp lt SW); eauto. }
  now rewrite G1, G2.
Qed.

Lemma lookup_exists (p : T -> bool) l : match lookup p l with Some e => In e l /\ p (snd e) = true | None => True end /\
  existsb p (elems l) = match lookup p l with Some _ => true | None => false end.
Proof.
  unfold lookup, elems. destruct (find (fun e => p (snd e)) l) as [e|] eqn:E1.
  - apply find_some in E1 as [H1 H2]. split; auto. apply existsb_exists. exists (snd e). split; auto. now apply in_map.
  - split; auto. apply existsb_none, Forall_forall. intros x Hx. apply in_map_iff in Hx as (e & <- & He). apply (List.find_none _ _ E1 _ He).
Qed.

(** One call keeps the correspondence with the history. *)
Definition state_of (hist : list (setop T)) (ss : @sset T) : Prop :=
  (forall x, existsb (equivalent x) (elems (snd ss)) = member hist x) /\
  (forall x, In x (elems (snd ss)) -> In x (flat_map adds hist)).

Lemma call_ok e se ss hist o : envrel lt e se -> se 0 = Some ss -> state_of hist ss ->
  exists e' se' ss' v, vstep lt lt lt e (call o) = Ok (e', v) /\ envrel lt e' se' /\ se' 0 = Some ss' /\ state_of (o :: hist) ss' /\
    [flag v] = flags hist [o].
Proof.
  intros R H0 (HM & HA).
  assert (Hgo : exists ss' v, sstep lt lt lt se (call o) = Some (upd se 0 (Some ss'), v) /\ state_of (o :: hist) ss' /\ [flag v] = flags hist [o]).
  { destruct (envrel_some _ _ _ _ _ R H0) as (s & _ & (t & Rt)).
    pose proof (r_sorted _ _ _ _ Rt) as Hsort. pose proof (vrel_nodup _ _ _ _ (RelT_vrel _ _ _ _ Rt)) as Hnd. clear Rt s t.
    assert (Hins : forall b v, exists ss' r, sinsert lt b v ss = (ss', r) /\ snd r = negb (member hist v) /\
       (forall x, existsb (equivalent x) (elems (snd ss')) = equivalent v x || member hist x) /\
       (forall x, In x (elems (snd ss')) -> x = v \/ In x (flat_map adds hist))).
    { intros b v. unfold sinsert. destruct (lookup_exists (eqvT lt v) (snd ss)) as [L1 L2].
      assert (Hm : member hist v = match lookup (eqvT lt v) (snd ss) with Some _ => true | None => false end).
      { rewrite <- L2, <- HM. reflexivity. }
      destruct (lookup (eqvT lt v) (snd ss)) as [[h w]|].
      - eexists _, _. split; [reflexivity|]. cbn [fst snd]. rewrite Hm. split; [reflexivity|]. split.
        + intros x. replace (snd (if b then S (fst ss) else fst ss, snd ss)) with (snd ss) by reflexivity. rewrite HM.
          destruct (equivalent v x) eqn:Ex; auto. simpl. rewrite <- Hm, <- !HM.
          clear - SW Ex. induction (elems (snd ss)) as [|y l IH]; simpl; auto. rewrite IH. f_equal. symmetry. now apply eqv_cong.
        + auto.
      - eexists _, _. split; [reflexivity|]. cbn [fst snd]. rewrite Hm. split; [reflexivity|]. split.
        + intros x. now rewrite sins_existsb, HM.
        + intros x. unfold elems, sins. rewrite in_map_iff. intros ([h w] & <- & Hw). simpl.
          rewrite in_app_iff in Hw. simpl in Hw. rewrite !filter_In in Hw.
          destruct Hw as [[Hw _]|[Hw|[Hw _]]]; [right|left; congruence|right]; apply HA; apply in_map_iff; exists (h, w); auto. }
    destruct o as [v|v|v|]; cbn [call sstep]; rewrite H0.
    - destruct (Hins false v) as (ss' & r & -> & H1 & H2 & H3). eexists _, _. split; [reflexivity|]. split; [split|].
      + exact H2.
      + intros x Hx. simpl. destruct (H3 _ Hx); auto.
      + simpl. now rewrite H1.
    - destruct (Hins true v) as (ss' & r & -> & H1 & H2 & H3). eexists _, _. split; [reflexivity|]. split; [split|].
      + exact H2.
      + intros x Hx. simpl. destruct (H3 _ Hx); auto.
      + simpl. now rewrite H1.
    - destruct (lookup_exists (eqvK lt lt v) (snd ss)) as [L1 L2].
      assert (Hm : member hist v = match lookup (eqvK lt lt v) (snd ss) with Some _ => true | None => false end).
      { rewrite <- L2, <- HM. reflexivity. }
      destruct (lookup (eqvK lt lt v) (snd ss)) as [[h w]|] eqn:El; eexists _, _; (split; [reflexivity|]).
      + split; [split|].
        * intros x. cbn [serase snd]. rewrite (erase_existsb _ _ _ x _ Hsort Hnd El). now rewrite HM.
        * intros x Hx. simpl. apply HA. unfold elems in *. cbn [serase snd] in Hx. rewrite in_map_iff in *. destruct Hx as (p & Hp & Hx).
          apply filter_In in Hx as [Hx _]. eauto.
        * simpl. now rewrite Hm.
      + split; [split|].
        * intros x. simpl. rewrite HM. destruct (equivalent v x) eqn:Ex; auto. simpl. rewrite <- Hm, <- !HM.
          clear - SW Ex. induction (elems (snd ss)) as [|y l IH]; simpl; auto. rewrite IH. f_equal. symmetry. now apply eqv_cong.
        * exact HA.
        * simpl. now rewrite Hm.
    - eexists _, _. split; [reflexivity|]. split; [split|]; simpl; auto. contradiction. }
  destruct Hgo as (ss' & v & Es & H1 & H2).
  destruct (vstep_sim lt lt lt SW (sw_keys _ SW) e se (call o) (upd se 0 (Some ss')) v R) as (e' & Ev & R'); [destruct o; reflexivity|exact Es|].
  exists e', (upd se 0 (Some ss')), ss', v. auto.
Qed.

Lemma calls_ok os : forall hist e se ss, envrel lt e se -> se 0 = Some ss -> state_of hist ss ->
  exists e' se' ss' vs, vrun lt lt lt e (map call os) = Ok (e', vs) /\ envrel lt e' se' /\ se' 0 = Some ss' /\ state_of (rev os ++ hist) ss' /\
    map flag vs = flags hist os.
Proof.
  induction os as [|o os IH]; intros hist e se ss R H0 HS.
  - exists e, se, ss, []. auto.
  - destruct (call_ok e se ss hist o R H0 HS) as (e1 & se1 & ss1 & v & E1 & R1 & H1 & S1 & F1).
    destruct (IH _ _ _ _ R1 H1 S1) as (e2 & se2 & ss2 & vs & E2 & R2 & H2 & S2 & F2).
    exists e2, se2, ss2, (v :: vs). cbn [map vrun]. rewrite E1. cbn [rbind]. rewrite E2. cbn [rbind]. split; auto. split; auto. split; auto.
    split; [simpl; now rewrite <- app_assoc|]. cbn [map flags]. cbn [flags] in F1. injection F1 as ->. now rewrite F2.
Qed.
Lemma vrun_app {K} (lt1 : K -> T -> bool) (lt2 : T -> K -> bool) os1 os2 : forall e e1 vs1, vrun lt lt1 lt2 e os1 = Ok (e1, vs1) ->
  vrun lt lt1 lt2 e (os1 ++ os2) = let* (e2, vs2) := vrun lt lt1 lt2 e1 os2 in Ok (e2, vs1 ++ vs2).
Proof.
  induction os1 as [|o os1 IH]; intros e e1 vs1 H; cbn [vrun app] in *.
  - injection H as <- <-. destruct (vrun lt lt1 lt2 e os2) as [[]| |]; reflexivity.
  - destruct (vstep lt lt1 lt2 e o) as [[e3 v]| |]; try discriminate. cbn [rbind] in *.
    destruct (vrun lt lt1 lt2 e3 os1) as [[e4 vs4]| |] eqn:E4; try discriminate. cbn [rbind] in H. injection H as <- <-.
    rewrite (IH _ _ _ E4). destruct (vrun lt lt1 lt2 e4 os2) as [[]| |]; reflexivity.
Qed.
End C01.

(** C01.  A set built by any sequence of insert, emplace, erase(key) and clear
    iterates over a strictly increasing list whose members are exactly the keys
    inserted and not since erased; every call reports whether it changed the set. *)
Theorem vset_is_sorted_set :
  forall (T : Type) (lt : T -> T -> bool), strict_weak lt -> forall os : list (setop T),
  exists e vs xs,
    vrun lt lt lt vinit (VNew 0 :: map call os ++ [VIter 0]) = Ok (e, BUnit :: vs ++ [BList xs]) /\
    map flag vs = flags lt [] os /\
    StronglySorted (fun x y => lt x y = true) xs /\
    (forall x, existsb (equivalent lt x) xs = member lt (rev os) x) /\
    (forall x, In x xs -> In x (flat_map adds os)).
Proof.
  intros T lt SW os.
  assert (R0 : envrel lt (upd vinit 0 (Some empty_st)) (upd sinit 0 (Some (0, [])))) by (apply envrel_upd; [exact (envrel_init lt)|apply empty_rel]).
  destruct (calls_ok lt SW os [] _ _ (0, []) R0) as (e' & se' & ss' & vs & E1 & R1 & H1 & (S1 & S2) & F1); [apply upd_eq|split; simpl; auto|].
  rewrite app_nil_r in *.
  destruct (vstep_sim lt lt lt SW (sw_keys _ SW) e' se' (VIter 0) se' (BList (elems (snd ss'))) R1) as (e2 & E2 & R2); auto.
  { cbn [sstep]. now rewrite H1. }
  exists e2, vs, (elems (snd ss')). split; [|split; [exact F1|split; [|split; [exact S1|]]]].
  - change (VNew 0 :: map call os ++ [VIter 0]) with ([VNew 0] ++ (map (@call T) os ++ [VIter 0])).
    erewrite vrun_app by reflexivity. erewrite vrun_app by exact E1. cbn [vrun]. rewrite E2. reflexivity.
  - destruct (envrel_some _ _ _ _ _ R1 H1) as (s & _ & (t & Rt)). apply Rt.
  - intros x Hx. apply S2 in Hx. rewrite in_flat_map in *. destruct Hx as (o & Ho & Hx). exists o. split; auto. now apply in_rev.
Qed.
Print Assumptions vset_is_sorted_set.

Example vset_is_sorted_set_case :
  exists e, vrun Nat.ltb Nat.ltb Nat.ltb vinit
    (VNew 0 :: map call [AInsert 5; AInsert 3; AEmplace 5; AInsert 9; AErase 3; AErase 4; AInsert 1] ++ [VIter 0])
  = Ok (e, BUnit :: [BIterBool (Some 0) true; BIterBool (Some 1) true; BIterBool (Some 0) false; BIterBool (Some 3) true; BNat 1; BNat 0; BIterBool (Some 4) true]
           ++ [BList [1;5;9]])
  /\ member Nat.ltb (rev [AInsert 5; AInsert 3; AEmplace 5; AInsert 9; AErase 3; AErase 4; AInsert 1]) 9 = true.
Proof. eexists. split; vm_compute; reflexivity. Qed.

(** *** C02-C04 *)
Section Queries.
Context {T K : Type} (lt : T -> T -> bool) (ltKT : K -> T -> bool) (ltTK : T -> K -> bool).
Context (SW : strict_weak lt) (KO : keys_ok lt ltKT ltTK).

Lemma legal_facts os i : legal lt ltKT ltTK os i -> exists se vs n l,
  srun lt ltKT ltTK sinit os = Some (se, vs, true) /\ se i = Some (n, l) /\ sorted lt (elems l) /\ NoDup (map fst l) /\
  forall k, exists l1 mid l2, l = l1 ++ mid ++ l2 /\
    Forall (fun e => ltKT k (snd e) = false /\ ltTK (snd e) k = true) l1 /\
    Forall (fun e => ltKT k (snd e) = true /\ ltTK (snd e) k = false) l2 /\
    Forall (fun e => ltKT k (snd e) = false /\ ltTK (snd e) k = false) mid /\ length mid <= 1.
Proof.
  intros (se & vs & [n l] & H & Hi). exists se, vs, n, l. split; auto. split; auto.
  destruct (vrun_sim lt ltKT ltTK SW KO os _ _ _ _ (envrel_init lt) H) as (e & He & R).
  destruct (envrel_some _ _ _ _ _ R Hi) as (s & _ & (t & Rt)). pose proof (RelT_vrel _ _ _ _ Rt) as V. cbn [snd] in V.
  split; [apply Rt|]. split; [eapply vrel_nodup; eauto|]. intros k.
  destruct (search_ok lt _ _ _ _ _ (keyp_key lt ltKT ltTK KO k) V) as (l1 & mid & l2 & E1 & H1 & H2 & H3 & H4 & _). exists l1, mid, l2. auto.
Qed.
Lemma hpos_nodup l1 (a : nat) (v : T) l2 : NoDup (map fst (l1 ++ (a, v) :: l2)) -> hpos a (l1 ++ (a, v) :: l2) = Some (length l1).
Proof.
  intros H. unfold hpos. apply (pos_app (fun e => fst e =? a)); [|apply Nat.eqb_refl]. rewrite map_app in H. simpl in H. apply NoDup_remove_2 in H.
  apply Forall_forall. intros [b w] Hb. simpl. destruct (Nat.eqb_spec b a); auto. subst. exfalso. apply H. rewrite in_app_iff. left.
  apply in_map_iff. exists (a, w). auto.
Qed.
Lemma count_less k l1 mid l2 :
  Forall (fun e : nat * T => ltKT k (snd e) = false /\ ltTK (snd e) k = true) l1 ->
  Forall (fun e => ltKT k (snd e) = true /\ ltTK (snd e) k = false) l2 ->
  Forall (fun e => ltKT k (snd e) = false /\ ltTK (snd e) k = false) mid ->
  length (filter (fun y => ltTK y k) (elems (l1 ++ mid ++ l2))) = length l1.
Proof.
  intros H1 H2 H3. unfold elems. rewrite !map_app, !filter_app, !app_length, filter_all, !filter_none.
  - rewrite map_length. simpl. lia.
  - apply Forall_map. eapply Forall_impl; [|exact H2]. simpl. tauto.
  - apply Forall_map. eapply Forall_impl; [|exact H3]. simpl. tauto.
  - apply Forall_map. eapply Forall_impl; [|exact H1]. simpl. tauto.
Qed.
Lemma nth_rank xs : sorted lt xs -> forall n v, nth_error xs n = Some v -> length (filter (fun y => lt y v) xs) = n.
Proof.
  intros Hs n v H. apply nth_error_split in H as (l1 & l2 & -> & <-). apply sorted_mid in Hs as [H1 H2].
  rewrite filter_app. simpl. rewrite (sw_irrefl lt SW), app_length, filter_all, filter_none; auto.
  eapply Forall_impl; [|exact H2]. intros w Hw. apply (lt_asym lt SW); exact Hw.
Qed.
End Queries.

(** C02.  at(n) is the n-th smallest element or throws; index_of and find2 return
    the number of smaller elements; size() counts the elements. *)
Theorem vset_order_statistics :
  forall (T K : Type) (lt : T -> T -> bool) (ltKT : K -> T -> bool) (ltTK : T -> K -> bool),
    strict_weak lt -> keys_ok lt ltKT ltTK ->
    forall os i, legal lt ltKT ltTK os i ->
    let ans := answer lt ltKT ltTK os in
    exists xs, ans (VIter i) (BList xs) /\ StronglySorted (fun x y => lt x y = true) xs /\
    ans (VSize i) (BNat (length xs)) /\ ans (VEmpty i) (BBool (match xs with [] => true | _ => false end)) /\
    (forall n, n < length xs -> exists v, In v xs /\ length (filter (fun y => lt y v) xs) = n /\
                 ans (VAt i n) (BElt v) /\ ans (VIndex i n) (BElt v)) /\
    (forall n, length xs <= n -> ans (VAt i n) (BExn OutOfRange)) /\
    (forall k x, In x xs -> eqvK ltKT ltTK k x = true ->
       let r := length (filter (fun y => ltTK y k) xs) in
       exists h, ans (VFind i k) (BIter (Some h)) /\ ans (VDeref i h) (BElt x) /\ ans (VIndexOfIt i h) (BNat r) /\
         ans (VIndexOfKey i k) (BNat r) /\ ans (VFind2 i k) (BIterIdx (Some (h, r))) /\ ans (VFindByIndex i r) (BIter (Some h))) /\
    (forall k, (forall x, In x xs -> eqvK ltKT ltTK k x = false) ->
       ans (VIndexOfKey i k) (BExn OutOfRange) /\ ans (VFind2 i k) (BIterIdx None)).
Proof.
  intros T K lt ltKT ltTK SW KO os i Hl ans.
  destruct (legal_facts lt ltKT ltTK SW KO os i Hl) as (se & vs & n0 & l & Hr & Hi & Hs & Hn & Hk).
  assert (A : forall q v, supported q = true -> sstep lt ltKT ltTK se q = Some (se, v) -> ans q v).
  { intros q v Hq Hv. eapply answer_spec; eauto. }
  exists (elems l). split; [apply A; [reflexivity|cbn [sstep]; now rewrite Hi]|]. split; [exact Hs|].
  assert (Hlen : length (elems l) = length l) by (unfold elems; apply map_length).
  split; [apply A; [reflexivity|cbn [sstep]; rewrite Hi, Hlen; reflexivity]|].
  split; [apply A; [reflexivity|cbn [sstep]; rewrite Hi; cbn [snd]; destruct l; reflexivity]|].
  split; [|split; [|split]].
  - intros n Hlt. destruct (nth_error (elems l) n) as [v|] eqn:En; [|apply nth_error_None in En; lia].
    exists v. split; [eapply nth_error_In; eauto|]. split; [now apply (nth_rank lt SW)|].
    split; apply A; try reflexivity; cbn [sstep]; rewrite Hi; cbn [snd]; rewrite En; reflexivity.
  - intros n Hge. apply A; [reflexivity|]. cbn [sstep]. rewrite Hi. cbn [snd]. apply nth_error_None in Hge. now rewrite Hge.
  - intros k x Hx Hek r. destruct (Hk k) as (l1 & mid & l2 & El & H1 & H2 & H3 & H4).
    pose proof (spec_split ltKT ltTK k l1 mid l2 H1 H2 H3 H4) as (P1 & P2 & P3 & P4 & P5).
    pose proof (count_less ltKT ltTK k l1 mid l2 H1 H2 H3) as Hc.
    assert (Hmid : exists h, mid = [(h, x)]).
    { unfold elems in Hx. apply in_map_iff in Hx as ((h & w) & Hw & Hin). simpl in Hw. subst w. rewrite El in Hin.
      unfold eqvK in Hek. rewrite andb_true_iff, !negb_true_iff in Hek. destruct Hek as [X1 X2].
      rewrite !in_app_iff in Hin. destruct Hin as [Hin|[Hin|Hin]].
      - rewrite Forall_forall in H1. apply H1 in Hin. simpl in Hin. destruct Hin. congruence.
      - destruct mid as [|m [|? ?]]; simpl in *; try lia; try contradiction. destruct Hin as [->|[]]. eauto.
      - rewrite Forall_forall in H2. apply H2 in Hin. simpl in Hin. destruct Hin. congruence. }
    destruct Hmid as (h & ->). rewrite <- El in *. cbn [hd_error app] in *. exists h.
    assert (Hh : hpos h l = Some (length l1)) by (rewrite El; apply hpos_nodup; now rewrite <- El).
    assert (Hnth : nth_error l (length l1) = Some (h, x)) by (rewrite El; apply nth_error_mid).
    assert (Hr' : r = length l1) by exact Hc. clearbody r. subst r.
    repeat split; apply A; try reflexivity; cbn [sstep]; rewrite Hi; cbn [snd]; rewrite ?P1, ?P3, ?Hh, ?Hnth; try reflexivity.
    unfold elems. rewrite nth_error_map, Hnth. reflexivity.
  - intros k Hno. destruct (Hk k) as (l1 & mid & l2 & El & H1 & H2 & H3 & H4).
    pose proof (spec_split ltKT ltTK k l1 mid l2 H1 H2 H3 H4) as (P1 & P2 & P3 & P4 & P5). rewrite <- El in *.
    destruct mid as [|[h x] mid].
    + split; apply A; try reflexivity; cbn [sstep]; rewrite Hi; cbn [snd]; rewrite ?P1, ?P3; reflexivity.
    + inversion H3 as [|? ? [X1 X2] _]; subst. simpl in X1, X2. exfalso.
      assert (eqvK ltKT ltTK k x = true) by (unfold eqvK; now rewrite X1, X2). rewrite Hno in H; [discriminate|].
      unfold elems. rewrite !map_app. cbn [map snd]. rewrite !in_app_iff. right. left. now left.
Qed.
Print Assumptions vset_order_statistics.

(** C03.  find/contains succeed exactly when an equivalent element is present;
    lower_bound is the first element not less than the key, upper_bound the first
    element greater than it, or end(). *)
Theorem vset_lookup_and_bounds :
  forall (T K : Type) (lt : T -> T -> bool) (ltKT : K -> T -> bool) (ltTK : T -> K -> bool),
    strict_weak lt -> keys_ok lt ltKT ltTK ->
    forall os i, legal lt ltKT ltTK os i ->
    let ans := answer lt ltKT ltTK os in
    exists xs, ans (VIter i) (BList xs) /\ forall k,
    ans (VContains i k) (BBool (existsb (eqvK ltKT ltTK k) xs)) /\
    ((exists h x, In x xs /\ eqvK ltKT ltTK k x = true /\ ans (VFind i k) (BIter (Some h)) /\ ans (VDeref i h) (BElt x)) \/
     ((forall x, In x xs -> eqvK ltKT ltTK k x = false) /\ ans (VFind i k) (BIter None))) /\
    ((exists h x xs1 xs2, xs = xs1 ++ x :: xs2 /\ (forall y, In y xs1 -> ltTK y k = true) /\ ltTK x k = false /\
        ans (VLower i k) (BIter (Some h)) /\ ans (VDeref i h) (BElt x)) \/
     ((forall x, In x xs -> ltTK x k = true) /\ ans (VLower i k) (BIter None))) /\
    ((exists h x xs1 xs2, xs = xs1 ++ x :: xs2 /\ (forall y, In y xs1 -> ltKT k y = false) /\ ltKT k x = true /\
        ans (VUpper i k) (BIter (Some h)) /\ ans (VDeref i h) (BElt x)) \/
     ((forall x, In x xs -> ltKT k x = false) /\ ans (VUpper i k) (BIter None))).
Proof.
  intros T K lt ltKT ltTK SW KO os i Hl ans.
  destruct (legal_facts lt ltKT ltTK SW KO os i Hl) as (se & vs & n0 & l & Hr & Hi & Hs & Hn & Hk).
  assert (A : forall q v, supported q = true -> sstep lt ltKT ltTK se q = Some (se, v) -> ans q v).
  { intros q v Hq Hv. eapply answer_spec; eauto. }
  assert (D : forall l1 h x l2, l = l1 ++ (h, x) :: l2 -> ans (VDeref i h) (BElt x)).
  { intros l1 h x l2 El. apply A; [reflexivity|]. cbn [sstep]. rewrite Hi. cbn [snd]. rewrite El in *. rewrite hpos_nodup by auto.
    unfold elems. rewrite nth_error_map, nth_error_mid. reflexivity. }
  exists (elems l). split; [apply A; [reflexivity|cbn [sstep]; now rewrite Hi]|]. intros k.
  split; [apply A; [reflexivity|cbn [sstep]; now rewrite Hi]|].
  destruct (Hk k) as (l1 & mid & l2 & El & H1 & H2 & H3 & H4).
  pose proof (spec_split ltKT ltTK k l1 mid l2 H1 H2 H3 H4) as (P1 & P2 & P3 & P4 & P5). rewrite <- El in P1, P2, P3, P4, P5.
  assert (Q : forall q o, supported q = true -> sstep lt ltKT ltTK se q = Some (se, BIter o) -> ans q (BIter o)) by auto.
  assert (Hin : forall (P : T -> Prop) (m : list (nat * T)), Forall (fun e => P (snd e)) m -> forall y, In y (elems m) -> P y).
  { intros P m Hm y Hy. unfold elems in Hy. apply in_map_iff in Hy as (e & <- & He). rewrite Forall_forall in Hm. auto. }
  split; [|split].
  - destruct mid as [|[h x] mid].
    + right. split; [|apply A; [reflexivity|cbn [sstep]; rewrite Hi; cbn [snd]; now rewrite P1]].
      rewrite El. apply Hin. rewrite !Forall_app. split; [|split; [constructor|]]; (eapply Forall_impl; [|eassumption]); intros e [X1 X2]; unfold eqvK; now rewrite X1, X2.
    + left. exists h, x. inversion H3 as [|? ? [X1 X2] _]; subst. simpl in X1, X2. split; [|split; [|split]].
      * unfold elems. rewrite !map_app. cbn [map snd]. rewrite !in_app_iff. right. left. now left.
      * unfold eqvK. now rewrite X1, X2.
      * apply A; [reflexivity|]. cbn [sstep]. rewrite Hi. cbn [snd]. now rewrite P1.
      * eapply D. cbn [app]. reflexivity.
  - assert (H23 : Forall (fun e => ltTK (snd e) k = false) (mid ++ l2)).
    { rewrite Forall_app. split; (eapply Forall_impl; [|eassumption]); intros ? [? ?]; auto. }
    destruct (mid ++ l2) as [|[h x] m] eqn:Em.
    + right. split; [|apply A; [reflexivity|cbn [sstep]; rewrite Hi; cbn [snd]; now rewrite P4]].
      rewrite El, app_nil_r. apply Hin. eapply Forall_impl; [|exact H1]. intros ? [? ?]; auto.
    + left. exists h, x, (elems l1), (elems m). inversion H23; subst. split; [unfold elems; now rewrite map_app|]. split; [|split; [auto|split]].
      * apply Hin. eapply Forall_impl; [|exact H1]. intros ? [? ?]; auto.
      * apply A; [reflexivity|]. cbn [sstep]. rewrite Hi. cbn [snd]. now rewrite P4.
      * eapply D. reflexivity.
  - assert (H13 : Forall (fun e => ltKT k (snd e) = false) (l1 ++ mid)).
    { rewrite Forall_app. split; (eapply Forall_impl; [|eassumption]); intros ? [? ?]; auto. }
    destruct l2 as [|[h x] m].
    + right. split; [|apply A; [reflexivity|cbn [sstep]; rewrite Hi; cbn [snd]; now rewrite P5]].
      rewrite El, app_nil_r. apply Hin. exact H13.
    + left. exists h, x, (elems (l1 ++ mid)), (elems m). inversion H2 as [|? ? [X1 X2] _]; subst. split; [unfold elems; now rewrite !map_app, app_assoc|]. split; [|split; [auto|split]].
      * apply Hin. exact H13.
      * apply A; [reflexivity|]. cbn [sstep]. rewrite Hi. cbn [snd]. now rewrite P5.
      * eapply D. rewrite app_assoc. reflexivity.
Qed.
Print Assumptions vset_lookup_and_bounds.

(** Keys that compare with elements by their tens. *)
Definition tens_lt (k x : nat) : bool := k <? x / 10.
Definition lt_tens (x k : nat) : bool := x / 10 <? k.
Example vset_queries_case :
  legal Nat.ltb Nat.ltb Nat.ltb [VNew 0; VInsert 0 4; VInsert 0 2; VInsert 0 6; VInsert 0 8; VEraseKey 0 4] 0 /\
  answer Nat.ltb Nat.ltb Nat.ltb [VNew 0; VInsert 0 4; VInsert 0 2; VInsert 0 6; VInsert 0 8; VEraseKey 0 4] (VLower 0 3) (BIter (Some 2)) /\
  answer Nat.ltb Nat.ltb Nat.ltb [VNew 0; VInsert 0 4; VInsert 0 2; VInsert 0 6; VInsert 0 8; VEraseKey 0 4] (VFind2 0 8) (BIterIdx (Some (3, 2))).
Proof.
  split; [|split].
  - do 3 eexists. split; reflexivity.
  - eexists _, [_;_;_;_;_;_]. vm_compute. reflexivity.
  - eexists _, [_;_;_;_;_;_]. vm_compute. reflexivity.
Qed.

(** C03 fails for keys that match several elements (a comparator allowed by
    std::set, e.g. a prefix): lower_bound can return an element that is not the
    first match, upper_bound an element that still matches. *)
Theorem vset_bounds_of_prefix_key_refuted :
  (forall k x, tens_lt k x = true -> lt_tens x k = false) /\
  (forall k x y, tens_lt k x = true -> (x <? y) = true -> tens_lt k y = true) /\
  (forall k x y, (x <? y) = true -> lt_tens y k = true -> lt_tens x k = true) /\
  exists e vs, vrun Nat.ltb tens_lt lt_tens vinit
     [VNew 0; VInsert 0 10; VInsert 0 11; VInsert 0 12; VLower 0 1; VDeref 0 1; VUpper 0 1; VDeref 0 2]
  = Ok (e, vs ++ [BIter (Some 1); BElt 11; BIter (Some 2); BElt 12]) /\
  lt_tens 10 1 = false /\ tens_lt 1 12 = false.
Proof.
  unfold tens_lt, lt_tens. split; [intros; lia|]. split; [|split].
  - intros k x y H1 H2. assert (x / 10 <= y / 10) by (apply Nat.div_le_mono; lia). lia.
  - intros k x y H1 H2. assert (x / 10 <= y / 10) by (apply Nat.div_le_mono; lia). lia.
  - eexists _, [_;_;_;_]. split; [vm_compute; reflexivity|]. split; reflexivity.
Qed.
Print Assumptions vset_bounds_of_prefix_key_refuted.

(** C04.  Backward iteration is the reverse of forward iteration, and the n-th
    element of the forward iteration is at(n). *)
Theorem vset_iteration_orders_agree :
  forall (T K : Type) (lt : T -> T -> bool) (ltKT : K -> T -> bool) (ltTK : T -> K -> bool),
    strict_weak lt -> keys_ok lt ltKT ltTK ->
    forall os i, legal lt ltKT ltTK os i ->
    let ans := answer lt ltKT ltTK os in
    exists xs, ans (VIter i) (BList xs) /\ ans (VRIter i) (BList (rev xs)) /\
    (forall n v, nth_error xs n = Some v -> ans (VAt i n) (BElt v) /\
       exists h, ans (VFindByIndex i n) (BIter (Some h)) /\ ans (VDeref i h) (BElt v) /\
         (forall m, S n < length xs -> ans (VFindByIndex i (S n)) (BIter (Some m)) -> ans (VNext i h) (BIter (Some m)) /\ ans (VPrev i (Some m)) (BIter (Some h)))) /\
    (forall v, hd_error xs = Some v -> ans (VFront i) (BElt v)) /\
    (forall v, hd_error (rev xs) = Some v -> ans (VBack i) (BElt v)).
Proof.
  intros T K lt ltKT ltTK SW KO os i Hl ans.
  destruct (legal_facts lt ltKT ltTK SW KO os i Hl) as (se & vs & n0 & l & Hr & Hi & Hs & Hn & Hk).
  assert (A : forall q v, supported q = true -> sstep lt ltKT ltTK se q = Some (se, v) -> ans q v).
  { intros q v Hq Hv. eapply answer_spec; eauto. }
  assert (U : forall q v w, ans q v -> ans q w -> v = w).
  { intros q v w (e1 & v1 & E1) (e2 & v2 & E2). rewrite E1 in E2. injection E2 as _ E2. apply app_inj_tail in E2. tauto. }
  exists (elems l). split; [apply A; [reflexivity|cbn [sstep]; now rewrite Hi]|].
  split; [apply A; [reflexivity|cbn [sstep]; now rewrite Hi]|]. split; [|split].
  - intros n v Hv. split; [apply A; [reflexivity|cbn [sstep]; rewrite Hi; cbn [snd]; now rewrite Hv]|].
    unfold elems in Hv. rewrite nth_error_map in Hv. destruct (nth_error l n) as [[h w]|] eqn:En; [|discriminate]. injection Hv as ->.
    exists h. split; [apply A; [reflexivity|cbn [sstep]; rewrite Hi; cbn [snd]; now rewrite En]|].
    apply nth_error_split in En as (l1 & l2 & El & Hlen).
    assert (Hh : hpos h l = Some n) by (rewrite El, <- Hlen; apply hpos_nodup; now rewrite <- El).
    split.
    + apply A; [reflexivity|]. cbn [sstep]. rewrite Hi. cbn [snd]. rewrite Hh. unfold elems.
      rewrite nth_error_map, El, <- Hlen, nth_error_mid. reflexivity.
    + intros m Hm Hans.
      assert (Hans2 : ans (VFindByIndex i (S n)) (BIter (handle (nth_error l (S n))))) by (apply A; [reflexivity|cbn [sstep]; now rewrite Hi]).
      pose proof (U _ _ _ Hans Hans2) as He.
      destruct (nth_error l (S n)) as [[m' w']|] eqn:En; [|discriminate]. injection He as <-.
      split.
      * apply A; [reflexivity|]. cbn [sstep]. rewrite Hi. cbn [snd]. rewrite Hh, En. reflexivity.
      * apply nth_error_split in En as (k1 & k2 & El2 & Hlen2).
        assert (Hm' : hpos m l = Some (S n)) by (rewrite El2, <- Hlen2; apply hpos_nodup; now rewrite <- El2).
        apply A; [reflexivity|]. cbn [sstep]. rewrite Hi. cbn [snd]. rewrite Hm'. rewrite El, <- Hlen, nth_error_mid. reflexivity.
  - intros v Hv. apply A; [reflexivity|]. cbn [sstep]. rewrite Hi. cbn [snd]. now rewrite Hv.
  - intros v Hv. apply A; [reflexivity|]. cbn [sstep]. rewrite Hi. cbn [snd]. now rewrite Hv.
Qed.
Print Assumptions vset_iteration_orders_agree.

(** *** C07 *)

(** Does this call possibly change variable [i]? *)
Definition changes {T K} (i : nat) (o : vop T K) : bool :=
  match o with
  | VNew j | VDestroy j | VInsert j _ | VEmplace j _ | VEraseKey j _ | VEraseIt j _ | VClear j | VCopy j _ | VAssign j _ => i =? j
  | VMove a b | VMoveAssign a b => (i =? a) || (i =? b)
  | _ => false
  end.
Lemma vstep_unchanged {T K} (lt : T -> T -> bool) (ltKT : K -> T -> bool) (ltTK : T -> K -> bool) i e o e' v :
  changes i o = false -> sstep lt ltKT ltTK e o = Some (e', v) -> e' i = e i.
Proof.
  intros Hc H.
  destruct o as [j|j k|j k|j k|j k|j|j w|j w|j w|j w|j| | | | | | | | | | | | | | | | | | |j h|]; cbn [sstep changes] in *;
    repeat match goal with
    | H : match ?x with _ => _ end = Some _ |- _ => destruct x eqn:?; try discriminate H
    end; repeat match goal with H : Some _ = Some _ |- _ => injection H as ?; subst end;
    try reflexivity; unfold upd; repeat (rewrite orb_false_iff in *);
    repeat match goal with |- context [if ?a then _ else _] => destruct a eqn:? end; try reflexivity; try (exfalso; lia); try congruence.
Qed.
Lemma vsrun_unchanged {T K} (lt : T -> T -> bool) (ltKT : K -> T -> bool) (ltTK : T -> K -> bool) i os : forall e e' vs b,
  forallb (fun o => negb (changes i o)) os = true -> srun lt ltKT ltTK e os = Some (e', vs, b) -> e' i = e i.
Proof.
  induction os as [|o os IH]; intros e e' vs b Hc H; cbn [srun forallb] in *.
  - now injection H as <- _ _.
  - apply andb_true_iff in Hc as [H1 H2]. apply negb_true_iff in H1.
    destruct (sstep lt ltKT ltTK e o) as [[e1 v]|] eqn:E1; [|discriminate]. destruct (srun lt ltKT ltTK e1 os) as [[[e2 vs2] b2]|] eqn:E2; [|discriminate].
    injection H as <- _ _. rewrite (IH _ _ _ _ H2 E2). eapply vstep_unchanged; eauto.
Qed.
Lemma vsrun_split {T K} (lt : T -> T -> bool) (ltKT : K -> T -> bool) (ltTK : T -> K -> bool) os1 os2 : forall e e2 vs b,
  srun lt ltKT ltTK e (os1 ++ os2) = Some (e2, vs, b) ->
  exists e1 vs1 vs2 b1 b2, srun lt ltKT ltTK e os1 = Some (e1, vs1, b1) /\ srun lt ltKT ltTK e1 os2 = Some (e2, vs2, b2) /\ vs = vs1 ++ vs2 /\ b = b1 && b2.
Proof.
  induction os1 as [|o os1 IH]; intros e e2 vs b H; cbn [srun app] in *.
  - exists e, [], vs, true, b. auto.
  - destruct (sstep lt ltKT ltTK e o) as [[e1 v]|]; [|discriminate]. destruct (srun lt ltKT ltTK e1 (os1 ++ os2)) as [[[e3 vs3] b3]|] eqn:E3; [|discriminate].
    injection H as <- <- <-. destruct (IH _ _ _ _ E3) as (e4 & vs1 & vs2 & b1 & b2 & -> & E5 & -> & ->).
    exists e4, (v :: vs1), vs2, (supported o && b1), b2. repeat split; auto. now rewrite andb_assoc.
Qed.

(** A copy made by the copy constructor or by assignment to another set equals the
    source at that moment, and whatever happens afterwards to other sets (including
    changes to and destruction of the source) leaves it so. *)
Theorem vset_copy_independent :
  forall (T K : Type) (lt : T -> T -> bool) (ltKT : K -> T -> bool) (ltTK : T -> K -> bool),
    strict_weak lt -> keys_ok lt ltKT ltTK ->
    forall (os : list (vop T K)) i j cp os2, i <> j -> (cp = VCopy i j \/ cp = VAssign i j) ->
    legal lt ltKT ltTK os j -> legal lt ltKT ltTK (os ++ cp :: os2) i ->
    forallb (fun o => negb (changes i o)) os2 = true ->
    exists xs, answer lt ltKT ltTK os (VIter j) (BList xs) /\
      answer lt ltKT ltTK (os ++ [cp]) (VEq i j) (BBool true) /\
      answer lt ltKT ltTK (os ++ cp :: os2) (VIter i) (BList xs).
Proof.
  intros T K lt ltKT ltTK SW KO os i j cp os2 Hij Hcp (se & vs & [n l] & Hr & Hj) (se2 & vs2 & ss2 & Hr2 & Hi2) Hc.
  exists (elems l). split; [eapply (answer_spec lt ltKT ltTK SW KO); [exact Hr|reflexivity|]; cbn [sstep]; rewrite Hj; reflexivity|].
  pose proof (vsrun_split _ _ _ _ _ _ _ _ _ Hr2) as (e1 & vs1 & vs3 & b1 & b3 & E1 & E2 & E3 & Eb). rewrite Hr in E1. injection E1 as <- <- <-.
  cbn [srun] in E2. destruct (sstep lt ltKT ltTK se cp) as [[e2 v]|] eqn:Ec; [|discriminate].
  destruct (srun lt ltKT ltTK e2 os2) as [[[e3 vs4] b4]|] eqn:E4; [|discriminate]. injection E2 as <- <- <-.
  cbn [andb] in Eb. symmetry in Eb. apply andb_true_iff in Eb as [Hsup ->].
  assert (H2 : exists m, e2 i = Some (m, combine (seq (m - length (elems l)) (length (elems l))) (elems l)) /\ length (elems l) <= m /\ e2 j = Some (n, l)).
  { destruct Hcp as [-> | ->]; cbn [sstep] in Ec.
    - destruct (se i); [discriminate|]. rewrite Hj in Ec. injection Ec as <- _. rewrite upd_eq, upd_neq by auto. unfold renumber. cbn [snd Nat.add].
      exists (length (elems l)). rewrite Nat.sub_diag. auto.
    - destruct (Nat.eqb_spec i j); [contradiction|]. destruct (se i) as [[d ld]|]; [|discriminate]. rewrite Hj in Ec. injection Ec as <- _.
      rewrite upd_eq, upd_neq by auto. unfold renumber. cbn [snd fst]. exists (d + length (elems l)). rewrite Nat.add_sub. split; auto. split; auto. lia. }
  destruct H2 as (m & Hm & Hle & Hj2).
  assert (Hel : elems (combine (seq (m - length (elems l)) (length (elems l))) (elems l)) = elems l).
  { clear. unfold elems at 1. generalize (m - length (elems l)). generalize (elems l) as xs. induction xs as [|x xs IH]; intros k; simpl; auto. now rewrite IH. }
  split.
  - assert (Hrc : srun lt ltKT ltTK sinit (os ++ [cp]) = Some (e2, vs ++ [v], true)).
    { change true with (true && true). eapply vsrun_app; [exact Hr|]. cbn [srun]. rewrite Ec, Hsup. reflexivity. }
    eapply (answer_spec lt ltKT ltTK SW KO); [exact Hrc|reflexivity|]. cbn [sstep]. rewrite Hm, Hj2. cbn [snd]. rewrite Hel.
    assert (He : list_eqv lt (elems l) (elems l) = true).
    { clear - SW. induction (elems l) as [|x xs IH]; simpl; auto. rewrite IH. unfold eqvT. now rewrite (sw_irrefl lt SW). }
    rewrite He. reflexivity.
  - eapply (answer_spec lt ltKT ltTK SW KO); [exact Hr2|reflexivity|]. cbn [sstep]. rewrite (vsrun_unchanged _ _ _ _ _ _ _ _ _ Hc E4), Hm. cbn [snd]. now rewrite Hel.
Qed.
Print Assumptions vset_copy_independent.

Example vset_copy_independent_case :
  legal Nat.ltb Nat.ltb Nat.ltb [VNew 0; VInsert 0 2; VInsert 0 1; VNew 1; VInsert 1 7] 0 /\
  legal Nat.ltb Nat.ltb Nat.ltb ([VNew 0; VInsert 0 2; VInsert 0 1; VNew 1; VInsert 1 7] ++ VAssign 1 0 :: [VInsert 0 9; VEraseKey 0 1; VDestroy 0]) 1 /\
  answer Nat.ltb Nat.ltb Nat.ltb ([VNew 0; VInsert 0 2; VInsert 0 1; VNew 1; VInsert 1 7] ++ VAssign 1 0 :: [VInsert 0 9; VEraseKey 0 1; VDestroy 0]) (VIter 1) (BList [1;2]).
Proof.
  split; [|split].
  - do 3 eexists. split; reflexivity.
  - do 3 eexists. split; reflexivity.
  - eexists _, [_;_;_;_;_;_;_;_;_]. vm_compute. reflexivity.
Qed.

(** C07 fails for x = x: whatever was in the set, it is empty afterwards. *)
Theorem vset_self_assign_refuted :
  forall (T K : Type) (lt : T -> T -> bool) (ltKT : K -> T -> bool) (ltTK : T -> K -> bool),
    strict_weak lt -> keys_ok lt ltKT ltTK ->
    forall (os : list (vop T K)) i, legal lt ltKT ltTK os i -> answer lt ltKT ltTK (os ++ [VAssign i i]) (VIter i) (BList []).
Proof.
  intros T K lt ltKT ltTK SW KO os i (se & vs & ss & Hr & Hi).
  destruct (vrun_sim lt ltKT ltTK SW KO os _ _ _ _ (envrel_init lt) Hr) as (e & He & R).
  destruct (envrel_some _ _ _ _ _ R Hi) as (s & Es & Rs). destruct (clear_rel lt s ss Rs) as (s' & Ec & Rc & Hn).
  assert (Hl : to_list s' = Ok (s', [])).
  { destruct (Rel_parts _ _ _ Rc) as (t & F & Hi' & L & Al & Nd & Vl & Hlen & V). cbn [snd map elems] in *.
    apply (to_list_ok s' [] [] L Al Vl). simpl. lia. }
  eexists _, (vs ++ [BUnit]). rewrite <- app_assoc. cbn [app].
  erewrite vrun_app by exact He. cbn [vrun vstep]. rewrite Es. rewrite Ec. cbn [rbind]. rewrite upd_eq. rewrite Hl. cbn [rbind insert_all ret].
  unfold on. rewrite upd_eq, Hl. cbn [rbind]. rewrite <- app_assoc. reflexivity.
Qed.
Print Assumptions vset_self_assign_refuted.

Example vset_self_assign_case :
  exists e, vrun Nat.ltb Nat.ltb Nat.ltb vinit [VNew 0; VInsert 0 2; VInsert 0 1; VAssign 0 0; VSize 0]
          = Ok (e, [BUnit; BIterBool (Some 0) true; BIterBool (Some 1) true; BUnit; BNat 0]).
Proof. eexists. vm_compute. reflexivity. Qed.

(** *** C06 *)

(** Bounds on the search loops: the loop of
    FindNodeByKey (find, contains, insert, emplace, erase, find2, index_of), or
    that of FindNodeByIndex (at, operator[], find_by_index), evaluates its condition
    at most [n+1] times, i.e. follows at most [n] child pointers, and gives the
    answer of the unbounded search. *)
Definition search_within {T} (s : st T) (ltk gtk : T -> bool) (n : nat) : Prop :=
  exists x, find_loop (S n) ltk gtk (fun _ b => ret b) (fun _ b => ret b) (root s) tt s = Ok (s, (x, tt)) /\
            find_node ltk gtk s = Ok (s, x).
Definition index_within {T} (s : st T) (i n : nat) : Prop :=
  exists x, index_loop (S n) (root s) i s = Ok (s, x) /\ find_by_index_node i s = Ok (s, x).
Definition no_erase {T} (os : list (setop T)) : bool :=
  forallb (fun o => match o with AErase _ => false | _ => true end) os.

Lemma grow_ok {T} (lt : T -> T -> bool) (SW : strict_weak lt) os : no_erase os = true -> forall e s t ss, e 0 = Some s -> RelT lt s t ss -> bal t ->
  exists e' vs s' t' ss', vrun lt lt lt e (map call os) = Ok (e', vs) /\ e' 0 = Some s' /\ RelT lt s' t' ss' /\ bal t'.
Proof.
  induction os as [|o os IH]; intros Ho e s t ss He R B; cbn [no_erase forallb] in Ho.
  - exists e, [], s, t, ss. auto.
  - apply andb_true_iff in Ho as [H1 H2].
    assert (G : exists s1 t1 ss1 v, vstep lt lt lt e (call o) = Ok (upd e 0 (Some s1), v) /\ RelT lt s1 t1 ss1 /\ bal t1).
    { destruct o as [v|v|v|]; try discriminate; cbn [call vstep]; unfold on; rewrite He.
      - pose proof (insert_relT lt SW s t ss v R) as G. destruct (sinsert lt false v ss) as [ss1 r]. destruct G as (s1 & t1 & -> & R1 & G1).
        exists s1, t1, ss1. eexists. split; [reflexivity|]. split; auto. eapply grows_bal; eauto.
      - pose proof (emplace_relT lt SW s t ss v R) as G. destruct (sinsert lt true v ss) as [ss1 r]. destruct G as (s1 & t1 & -> & R1 & G1).
        exists s1, t1, ss1. eexists. split; [reflexivity|]. split; auto. eapply grows_bal; eauto.
      - destruct (clear_rel lt s ss) as (s1 & -> & (t1 & R1) & _); [now exists t|]. exists s1, t1. eexists _, _. split; [reflexivity|]. split; [exact R1|].
        pose proof (r_ino _ _ _ _ R1) as Hi. simpl in Hi. destruct t1 as [|c l a r]; [split; simpl; eauto|]. simpl in Hi. destruct (ino l); discriminate. }
    destruct G as (s1 & t1 & ss1 & v & E1 & R1 & B1).
    destruct (IH H2 (upd e 0 (Some s1)) s1 t1 ss1) as (e' & vs & s' & t' & ss' & E2 & H3 & R2 & B2); [apply upd_eq|exact R1|exact B1|].
    exists e', (v :: vs), s', t', ss'. cbn [map vrun]. rewrite E1. cbn [rbind]. rewrite E2. cbn [rbind]. auto.
Qed.

(** C06a.  After any insertions (insert, emplace, clear), a search for any key
    under any comparator and any index looks at no more than 2*log2(n+1) nodes. *)
Theorem vset_depth_after_insertions :
  forall (T : Type) (lt : T -> T -> bool), strict_weak lt -> forall os : list (setop T), no_erase os = true ->
  exists e vs s n, vrun lt lt lt vinit (VNew 0 :: map call os) = Ok (e, vs) /\ e 0 = Some s /\ size s = Ok (s, n) /\
    (forall ltk gtk, search_within s ltk gtk (2 * Nat.log2 (n + 1))) /\
    (forall i, index_within s i (2 * Nat.log2 (n + 1))).
Proof.
  intros T lt SW os Ho.
  destruct (empty_rel lt) as (t0 & R0).
  assert (B0 : bal t0).
  { pose proof (r_ino _ _ _ _ R0) as Hi. simpl in Hi. destruct t0 as [|c l a r]; [split; simpl; eauto|]. simpl in Hi. destruct (ino l); discriminate. }
  destruct (grow_ok lt SW os Ho (upd vinit 0 (Some empty_st)) empty_st t0 _ (upd_eq _ _ _) R0 B0) as (e & vs & s & t & ss & E1 & H1 & R1 & B1).
  pose proof (c_foc _ _ (r_core _ _ _ _ R1)) as F. pose proof (bal_hgt _ B1) as Hh. rewrite sz_ino in Hh.
  exists e, (BUnit :: vs), s, (length (ino t)). split; [cbn [vrun vstep]; unfold vinit at 1; cbn [rbind]; now rewrite E1|]. split; auto. split; [now apply size_ok|].
  pose proof (fx _ _ _ F) as Hr. simpl in Hr.
  split.
  - intros ltk gtk. destruct (find_loop_ok s ltk gtk (fun _ (b : unit) => ret b) (fun _ b => ret b) (fun _ _ => True)) with (t := t) (f := S (2 * Nat.log2 (length (ino t) + 1))) (C := @nil frame) (b := tt)
      as (b & E2 & _); auto; try lia; try (intros; eexists; split; [reflexivity|exact I]).
    exists (ptr (fst (srch (dk s ltk gtk) t []))). rewrite Hr. destruct b. split; auto. now apply find_node_ok.
  - intros i. exists (nth_error (ino t) i). rewrite Hr. split; [eapply index_loop_ok; eauto; lia|]. now apply find_by_index_ok.
Qed.
Print Assumptions vset_depth_after_insertions.

(** 15 ascending insertions: 14 is found after 7 tests of the loop condition, not 5. *)
Example vset_depth_after_insertions_case :
  match vrun Nat.ltb Nat.ltb Nat.ltb vinit (VNew 0 :: map (fun v => VInsert 0 v) (seq 0 15)) with
  | Ok (e, _) => match e 0 with
      | Some s => let find f := match find_loop f (Nat.ltb 14) (fun x => x <? 14) (fun _ b => ret b) (fun _ b => ret b) (root s) tt s with
                                | Ok (_, (x, _)) => Some x | _ => None end in
                  (match size s with Ok (_, n) => n | _ => 0 end, find 5, find 7)
      | None => (0, None, None) end
  | _ => (0, None, None)
  end = (15, None, Some (Some 14)).
Proof. vm_compute. reflexivity. Qed.

(** C06b fails: for every m there is a history of insertions and erasures that
    leaves n >= m elements in a chain, where finding one of them takes n steps. *)
Theorem vset_depth_after_erasures_refuted :
  forall m, exists os e vs s n k, m <= n /\ S (2 * Nat.log2 (n + 1)) < n /\
    vrun Nat.ltb Nat.ltb Nat.ltb vinit os = Ok (e, vs) /\ e 0 = Some s /\ size s = Ok (s, n) /\
    (exists h, find_node (Nat.ltb k) (fun x => x <? k) s = Ok (s, Some h)) /\
    forall j, S j < n -> ~ search_within s (Nat.ltb k) (fun x => x <? k) j.
Proof.
  intros m0. set (m := m0 + 16).
  set (os1 := map (@AInsert nat) (seq 0 (2 ^ m - 1))).
  assert (R0 : envrel Nat.ltb (upd vinit 0 (Some empty_st)) (upd sinit 0 (Some (0, [])))) by (apply envrel_upd; [exact (envrel_init Nat.ltb)|apply empty_rel]).
  destruct (calls_ok Nat.ltb nat_sw os1 [] _ _ (0, []) R0) as (e1 & se1 & ss1 & vs1 & E1 & R1 & H1 & (S1 & S2) & _); [apply upd_eq|split; simpl; auto|].
  destruct (envrel_some _ _ _ _ _ R1 H1) as (s1 & Es1 & (t1 & Rt1)).
  assert (Hsz : 2 ^ m - 1 <= sz t1).
  { rewrite sz_ino, (r_ino _ _ _ _ Rt1), map_length. replace (length (snd ss1)) with (length (elems (snd ss1))) by (unfold elems; apply map_length).
    rewrite <- (seq_length (2 ^ m - 1) 0) at 1. apply NoDup_incl_length; [apply seq_NoDup|]. intros x Hx.
    specialize (S1 x). rewrite app_nil_r in S1.
    assert (Hm : member Nat.ltb (rev os1) x = true).
    { unfold os1. rewrite <- map_rev. apply in_rev in Hx. clear - Hx. induction (rev (seq 0 (2 ^ m - 1))) as [|y l IH]; simpl in *; [contradiction|].
      destruct Hx as [->|Hx]; [|rewrite IH by auto; apply orb_true_r]. unfold equivalent. now rewrite Nat.ltb_irrefl. }
    rewrite Hm in S1. apply existsb_exists in S1 as (y & Hy & Hxy). unfold equivalent in Hxy. assert (x = y) by lia. now subst. }
  assert (Hh : m <= hgt t1).
  { pose proof (hgt_sz_pow t1). assert (1 <= 2 ^ m) by (clear; induction m; simpl; lia). apply (Nat.pow_le_mono_r_iff 2); lia. }
  destruct (prune_path Nat.ltb t1 [] s1 ss1 Rt1) as (hs & s & t & ss & E2 & R2 & Z1 & Z2). cbn [plug] in R2.
  destruct (vrun_erases Nat.ltb Nat.ltb Nat.ltb hs _ _ _ Es1 E2) as (e2 & vs2 & E3 & H3).
  assert (Ht : t <> E) by (intros ->; simpl in Z2; unfold m in *; lia).
  destruct (deepest t Ht) as (c & l & a & r & C & Et & HC).
  pose proof (c_foc _ _ (r_core _ _ _ _ R2)) as F.
  assert (Hin : In a (map fst (snd ss))).
  { rewrite <- (r_ino _ _ _ _ R2), Et, ino_plug. cbn [ino]. rewrite !in_app_iff. right. left. right. now left. }
  apply in_map_iff in Hin as ((a' & k) & Ha & Hin). simpl in Ha. subst a'.
  pose proof (RelT_vrel _ _ _ _ R2) as V. pose proof (keyp_val Nat.ltb nat_sw k) as KP.
  set (g := dk s (fun x => k <? x) (fun x => x <? k)) in *.
  assert (Hs : exists c' l' r' C', srch g t [] = (N c' l' a r', C') /\ length C' = length C).
  { destruct (srch g t []) as [[|c' l' a' r'] C'] eqn:Es.
    - destruct (search_missed Nat.ltb _ _ _ _ _ _ KP V Es) as (l1 & l2 & El & _ & _ & _ & _ & _ & G1 & G2). rewrite El in Hin.
      apply in_app_or in Hin as [Hin|Hin]; [rewrite Forall_forall in G1; apply G1 in Hin|rewrite Forall_forall in G2; apply G2 in Hin]; simpl in Hin; lia.
    - destruct (search_found Nat.ltb _ _ _ _ _ _ _ _ _ _ KP V Es) as (l1 & v & l2 & El & _ & _ & _ & _ & G1 & G2). rewrite El in Hin.
      rewrite in_app_iff in Hin. destruct Hin as [Hin|[Hin|Hin]]; [rewrite Forall_forall in G1; apply G1 in Hin; simpl in Hin; lia| |rewrite Forall_forall in G2; apply G2 in Hin; simpl in Hin; lia].
      injection Hin as -> ->. exists c', l', r', C'. split; auto.
      pose proof (srch_plug g t []) as Hp. rewrite Es in Hp. cbn [fst snd plug] in Hp.
      assert (Hnd : forall b, tm t b <= 1) by (apply NoDup_tm; now apply (foc_nodup s)).
      pose proof (dep_plug C (N c l a r) a) as D1. rewrite <- Et in D1.
      pose proof (dep_plug C' (N c' l' a r') a) as D2. rewrite Hp in D2.
      simpl dep in D1, D2. rewrite Nat.eqb_refl in D1, D2. simpl tm in D1, D2. rewrite Nat.eqb_refl in D1, D2.
      specialize (D1 ltac:(lia) Hnd). specialize (D2 ltac:(lia) Hnd). lia. }
  destruct Hs as (c' & l' & r' & C' & Es & Hlen).
  exists (VNew 0 :: map call os1 ++ map (VEraseIt 0) hs), e2, (BUnit :: vs1 ++ vs2), s, (hgt t), k.
  split; [unfold m in *; lia|]. split.
  { assert (Hge : 16 <= hgt t) by (unfold m in *; lia). clear - Hge.
    assert (Hl : Nat.log2 (hgt t + 1) < hgt t / 2); [|pose proof (Nat.div_mod_eq (hgt t) 2); lia].
    apply Nat.log2_lt_pow2; [lia|]. remember (hgt t / 2) as q. assert (8 <= q) by (subst q; apply (Nat.div_le_mono 16 (hgt t) 2); lia).
    assert (hgt t < 2 * q + 2) by (subst q; pose proof (Nat.div_mod_eq (hgt t) 2); pose proof (Nat.mod_upper_bound (hgt t) 2); lia).
    enough (2 * q + 2 < 2 ^ q) by lia. clear - H. induction q as [|q IH]; [lia|]. destruct (Nat.eq_dec q 7) as [->|]; [simpl; lia|]. simpl. assert (8 <= q) by lia. specialize (IH H0). lia. }
  split.
  { change (VNew 0 :: map call os1 ++ map (VEraseIt 0) hs) with ([VNew 0] ++ (map (@call nat) os1 ++ map (VEraseIt 0) hs)).
    erewrite vrun_app by reflexivity. erewrite vrun_app by exact E1. rewrite E3. reflexivity. }
  split; [exact H3|]. split; [rewrite (size_ok _ _ F), <- sz_ino; do 2 f_equal; lia|].
  split; [exists a; rewrite (find_node_ok _ _ _ _ F); change (dk s (Nat.ltb k) (fun x => x <? k)) with g; now rewrite Es|].
  intros j Hj (x & Ex & _). pose proof (fx _ _ _ F) as Hr. simpl in Hr. rewrite Hr in Ex.
  rewrite (find_loop_fuel Nat.ltb s (Nat.ltb k) (fun x => x <? k) (fun _ (b : unit) => ret b)) with (C := @nil frame) in Ex; [discriminate| |exact F|].
  - intros y b st'. eexists. reflexivity.
  - change (dk s (Nat.ltb k) (fun x => x <? k)) with g. rewrite Es. cbn [snd length]. lia.
Qed.
Print Assumptions vset_depth_after_erasures_refuted.
