(** Observers of a foreign_set and of its groups that throw. *)
From Verif Require Import Common VSetSpec ObsSetModel ObsSetSpec ObsSetProofs ObsThrowModel ObsThrowProps GroupObsModel GroupObsSpec GroupObsProps GroupThrowModel GroupThrowSpec.
From Coq Require Import Sorting.Sorted Sorting.Permutation ZifyBool ZifyNat.

Section Proofs.
Context {T : Type} (pk fk : T -> Z).
Notation group := (group (T := T)).
Notation grouping := (grouping pk fk).
Notation same := (ObsSetProofs.same pk fk).
Notation inv := (GroupObsProps.inv pk fk).
Notation tst := (tst (T := T)).

(** Notify *)
Lemma notify_upto {C} bad (c : C) : forall os l l' x, NoDup os -> notify bad c os l = (l', x) -> exists d, upto bad os d x /\ told l l' c d.
Proof.
  induction os as [|i os IH]; intros l l' x N E; cbn in E.
  - inversion E; subst. exists []. split; [apply U_all; intros i []|]. intros i. reflexivity.
  - inversion N as [|? ? Ni Nos]; subst. destruct (bad i) eqn:B.
    + inversion E; subst. exists [i]. split; [apply (U_bad bad [] i os); auto; intros j []|]. intros j. unfold upd. destruct (in_dec Nat.eq_dec j [i]) as [[->|[]]|H]; [now rewrite Nat.eqb_refl|].
      destruct (Nat.eqb_spec j i) as [->|]; auto. destruct H; cbn; auto.
    + destruct (IH _ _ _ Nos E) as (d & U & L). exists (i :: d). split.
      * inversion U as [? A|a j b A Bj]; subst; [apply U_all; intros k [<-|I]; auto|]. apply (U_bad bad (i :: a) j b); auto. intros k [<-|I]; auto.
      * assert (Nd : ~ In i d). { inversion U as [? A|a j b A Bj]; subst; auto. intros I. apply Ni. apply in_app_or in I as [I|[<-|[]]]; apply in_or_app; cbn; auto. }
        intros j. rewrite L. unfold upd. destruct (Nat.eqb_spec j i) as [->|Nj].
        -- destruct (in_dec Nat.eq_dec i d); [tauto|]. destruct (in_dec Nat.eq_dec i (i :: d)) as [|H]; auto. destruct H; cbn; auto.
        -- destruct (in_dec Nat.eq_dec j d), (in_dec Nat.eq_dec j (i :: d)) as [H|H]; auto; [destruct H; cbn; auto|]. destruct H as [->|]; tauto.
Qed.
Lemma upto_good bad os d : upto bad os d false -> d = os /\ forall i, In i os -> bad i = false.
Proof. intros U. inversion U; subst; auto. Qed.
Lemma notify_all {C} bad (c : C) os l l' : notify bad c os l = (l', false) -> l' = fold_left (fun l i => upd l i (c :: l i)) os l.
Proof. revert l. induction os as [|i os IH]; intros l E; cbn in *; [congruence|]. destruct (bad i); [discriminate|]. auto. Qed.
Lemma destroy_all bad gs : forall l l', destroy_groups (T := T) bad gs l = Some l' -> l' = tell KClearing (observers gs) l /\ forall i, In i (observers gs) -> bad i = false.
Proof.
  induction gs as [|[g os] gs IH]; intros l l' E; cbn in E; [inversion E; subst; split; auto; intros i []|].
  destruct (notify bad KClearing os l) as [l1 []] eqn:Q; [discriminate|]. apply IH in E as (-> & A). rewrite (notify_all _ _ _ _ _ Q). split.
  - unfold tell, observers. cbn [map snd concat]. now rewrite fold_left_app.
  - cbn. intros i I. apply in_app_or in I as [I|I]; auto. revert l Q. clear - I. induction os as [|j os IH]; intros l Q; [destruct I|]. cbn in Q. destruct (bad j) eqn:B; [discriminate|]. destruct I as [<-|I]; eauto.
Qed.
Lemma notify_bad {C} bad (c : C) : forall os l, snd (notify bad c os l) = true -> exists i, In i os /\ bad i = true.
Proof. induction os as [|i os IH]; intros l E; cbn in E; [discriminate|]. destruct (bad i) eqn:B; [exists i; cbn; auto|]. destruct (IH _ E) as (j & I & J). exists j. cbn. auto. Qed.
Lemma destroy_bad bad gs : forall l, destroy_groups (T := T) bad gs l = None -> exists i, In i (observers gs) /\ bad i = true.
Proof.
  induction gs as [|[g os] gs IH]; intros l E; cbn in E; [discriminate|]. destruct (notify bad KClearing os l) as [l1 []] eqn:Q.
  - destruct (notify_bad bad (KClearing (T := T)) os l) as (i & I & B); [now rewrite Q|]. exists i. split; auto. unfold observers. cbn. apply in_or_app. auto.
  - destruct (IH _ E) as (i & I & B). exists i. split; auto. unfold observers. cbn. apply in_or_app. auto.
Qed.
Lemma tell_told (c : call (T := T)) os l : NoDup os -> told l (tell c os l) c os.
Proof. intros N i. rewrite (tell_in c os l N i). destruct (in_dec Nat.eq_dec i os) as [I|I]; [apply mem_true in I|apply mem_false in I]; now rewrite I. Qed.
Lemma tell_watch_told (c : gcall (T := T)) os l : NoDup os -> told l (tell_watch c os l) c os.
Proof. intros N i. rewrite (tell_watch_in c os l N i). destruct (in_dec Nat.eq_dec i os) as [I|I]; [apply mem_true in I|apply mem_false in I]; now rewrite I. Qed.

(** The groups and who observes them *)
Record st (s : tst) : Prop := {
  s_pk : NoDup (map pk (src s));
  s_grs : map fst (grs (fs s)) = grouping (src s);
  s_nodup : NoDup (observers (grs (fs s)));
  s_watch : NoDup (watch (fs s)) }.
Lemma pk_pw zs : NoDup (map pk zs) -> pw same zs.
Proof.
  induction zs as [|z zs IH]; intros N; cbn in *; auto. inversion N as [|? ? H K]; subst. split; auto. intros y Y. unfold ObsSetProofs.same.
  assert (pk y <> pk z) by (intros E; apply H; rewrite <- E; now apply in_map). lia.
Qed.
Lemma pk_eq zs y z : NoDup (map pk zs) -> In y zs -> In z zs -> pk y = pk z -> y = z.
Proof.
  induction zs as [|x zs IH]; intros N Y Z0 E; [destruct Y|]. cbn in N. inversion N as [|? ? H K]; subst. destruct Y as [->|Y], Z0 as [->|Z0]; auto.
  - destruct H. rewrite E. now apply in_map.
  - destruct H. rewrite <- E. now apply in_map.
Qed.
(** the same groups, whose observers have not missed anything *)
Lemma repair s : st s -> exists gl wl, inv (FSt (grs (fs s)) (watch (fs s)) gl wl) (src s).
Proof.
  intros [P G N W]. set (f i := match find (fun g : group => existsb (Nat.eqb i) (snd g)) (grs (fs s)) with Some g => rev (map (KAdded (T := T)) (fst g)) | None => [] end).
  exists f, (fun _ => rev (map (fun g : group => GAdded (fst g)) (grs (fs s)))). constructor; cbn [grs watch glog wlog]; auto.
  - now apply pk_pw.
  - intros g os i I Io z. unfold f. revert N I. generalize (grs (fs s)). intros gs. induction gs as [|[h oh] gs IH]; intros N I; [destruct I|]. cbn [find snd].
    destruct (existsb (Nat.eqb i) oh) eqn:Q.
    + apply mem_true in Q. destruct I as [I|I]; [inversion I; subst; apply (shows_start pk fk)|]. exfalso. apply nodup_app_inv in N as (_ & _ & D). apply (D i Q). eapply observers_in; eauto.
    + destruct I as [I|I]; [inversion I; subst; apply mem_false in Q; tauto|]. apply IH; auto. now apply nodup_app_inv in N as (_ & N & _).
  - intros i I z. unfold f. destruct (find _ _) as [[g os]|] eqn:Q; [|cbn; tauto]. apply find_some in Q as (Q & R). apply mem_true in R. exfalso. apply I. eapply observers_in; eauto.
  - intros i I k. rewrite wshows_start. rewrite <- keys_has.
    assert (X : (exists g : group, In g (grs (fs s)) /\ has_key fk (fst g) k) <-> exists g, In g (grouping (src s)) /\ has_key fk g k).
    { rewrite <- G. split; intros (g & A & B); [exists (fst g); split; auto; now apply in_map|]. apply in_map_iff in A as (h & <- & A). eauto. }
    rewrite X, keys_has. clear X. split.
    + intros (g & A & z & Z1 & Z2). rewrite grouping_grp in A. apply in_map_iff in A as (k' & <- & A). exists z. split; auto. unfold grp in Z1.
      apply (Permutation_in _ (isort_perm _ _)) in Z1. apply sel_in in Z1. tauto.
    + intros H. exists (grp pk fk (src s) k). rewrite grouping_grp. split; [apply in_map; apply keys_in; auto|]. destruct H as (z & Z1 & Z2). exists z. split; auto. unfold grp.
      eapply Permutation_in; [symmetry; apply isort_perm|now apply sel_in].
Qed.
Lemma of_group s g os : st s -> In (g, os) (grs (fs s)) -> exists k, (forall z, In z g <-> of_key fk (src s) k z) /\ exists z, In z g.
Proof. intros S I. destruct (repair _ S) as (gl & wl & V). exact (grouped_key _ _ _ _ _ _ V I). Qed.
Lemma of_observe s k os : st s -> observe fk s k os -> exists g, In (g, os) (grs (fs s)) /\ (forall z, In z g <-> of_key fk (src s) k z) /\ exists z, In z g.
Proof.
  intros S (g & I & z & Z1 & Z2). exists g. split; auto. destruct (of_group _ _ _ S I) as (k' & A & B). split; auto. assert (k' = k) as <- by (apply A in Z1; destruct Z1; congruence). auto.
Qed.
Lemma group_of s z : st s -> In z (src s) -> exists os, observe fk s (fk z) os.
Proof.
  intros S I. assert (G := s_grs _ S). assert (IG : In (grp pk fk (src s) (fk z)) (grouping (src s))) by (rewrite grouping_grp; apply in_map; apply keys_in; eauto).
  rewrite <- G in IG. apply in_map_iff in IG as ((g & os) & E & IG). cbn in E. exists os, g. split; auto. exists z. split; auto. rewrite E. unfold grp.
  eapply Permutation_in; [symmetry; apply isort_perm|now apply sel_in].
Qed.
Lemma in_group zs k z : In z (grp pk fk zs k) <-> In z zs /\ fk z = k.
Proof. unfold grp. rewrite <- sel_in. split; apply Permutation_in; [|symmetry]; apply isort_perm. Qed.
Lemma grouping_nodup zs : NoDup (grouping zs).
Proof.
  rewrite grouping_grp. assert (I := keys_inc fk zs). assert (K : forall k, In k (keys fk zs) -> exists z, In z zs /\ fk z = k) by (intros k; apply keys_in).
  induction I as [|k ks I IH F]; cbn; constructor; [|apply IH; intros; apply K; cbn; auto]. intros Q. apply in_map_iff in Q as (k' & E & Q).
  destruct (K k (or_introl eq_refl)) as (z & Z1 & Z2). assert (A : In z (grp pk fk zs k)) by now apply in_group. rewrite <- E in A. apply in_group in A as (_ & A).
  rewrite Forall_forall in F. specialize (F _ Q). lia.
Qed.
Lemma group_is s g os k : st s -> In (g, os) (grs (fs s)) -> has_key fk g k -> g = grp pk fk (src s) k.
Proof.
  intros S I (z & Z1 & Z2). assert (IG : In g (grouping (src s))) by (rewrite <- (s_grs _ S); apply in_map_iff; exists (g, os); auto).
  rewrite grouping_grp in IG. apply in_map_iff in IG as (k' & <- & _). apply in_group in Z1 as (_ & Z1). congruence.
Qed.
Lemma fst_one {A B} (l : list (A * B)) x y y' : NoDup (map fst l) -> In (x, y) l -> In (x, y') l -> y = y'.
Proof.
  induction l as [|[a b] l IH]; cbn; intros N I J; [tauto|]. inversion N as [|? ? H K]; subst. destruct I as [I|I], J as [J|J]; try congruence; auto.
  - inversion I; subst. destruct H. apply in_map_iff. exists (x, y'). auto.
  - inversion J; subst. destruct H. apply in_map_iff. exists (x, y). auto.
Qed.
Lemma one_group s k os os' : st s -> observe fk s k os -> observe fk s k os' -> os = os'.
Proof.
  intros S (g & I & H) (g' & I' & H'). assert (g' = g) as -> by (rewrite (group_is _ _ _ _ S I H), (group_is _ _ _ _ S I' H'); auto).
  eapply fst_one; eauto. rewrite (s_grs _ S). apply grouping_nodup.
Qed.
Lemma same_observer (gs : list group) g os g' os' i : NoDup (observers gs) -> In (g, os) gs -> In (g', os') gs -> In i os -> In i os' -> (g, os) = (g', os').
Proof.
  induction gs as [|[h o] gs IH]; intros N I J A B; [destruct I|]. apply nodup_app_inv in N as (_ & N & D). destruct I as [I|I], J as [J|J]; try congruence; auto.
  - inversion I; subst. destruct (D i A). eapply observers_in; eauto.
  - inversion J; subst. destruct (D i B). eapply observers_in; eauto.
Qed.
Lemma one_key s k k' os os' i : st s -> observe fk s k os -> observe fk s k' os' -> In i os -> In i os' -> k = k'.
Proof.
  intros S O O' A B. destruct (of_observe _ _ _ S O) as (g & I & M & z & Z0). destruct (of_observe _ _ _ S O') as (g' & I' & M' & _).
  assert (E := same_observer _ _ _ _ _ _ (s_nodup _ S) I I' A B). inversion E; subst. apply M in Z0 as W. apply M' in Z0. destruct W, Z0. congruence.
Qed.
Lemma observes_in s i : st s -> observes fk s i <-> In i (observers (grs (fs s))).
Proof.
  intros S. split.
  - intros (k & os & (g & I & _) & J). eapply observers_in; eauto.
  - intros I. unfold observers in I. apply in_concat in I as (o & I1 & I2). apply in_map_iff in I1 as ((g & o') & <- & I1). destruct (of_group _ _ _ S I1) as (k & A & z & Z0).
    exists k, o'. split; auto. exists g. split; auto. exists z. split; auto. now apply A in Z0 as (_ & ->).
Qed.
Lemma observe_mid (a b : list group) g g' os o k : (forall k, has_key fk g k <-> has_key fk g' k) ->
  (exists h, In (h, o) (a ++ (g', os) :: b) /\ has_key fk h k) <-> exists h, In (h, o) (a ++ (g, os) :: b) /\ has_key fk h k.
Proof.
  intros E. split; intros (h & I & H); apply in_app_or in I as [I|[I|I]].
  1,3,4,6: exists h; split; auto; apply in_or_app; cbn; auto.
  - inversion I; subst. exists g. split; [apply in_or_app; cbn; auto|]. now apply E.
  - inversion I; subst. exists g'. split; [apply in_or_app; cbn; auto|]. now apply E.
Qed.

(** insert *)
Lemma add_effect bad s v : st s -> exists s' x, tstep pk fk bad (TAdd v) s = Ok (s', x) /\ effect pk fk bad s (TAdd v) s' x /\ st s'.
Proof.
  intros S. cbn [tstep]. destruct (existsb (fun y => Z.eqb (pk y) (pk v)) (src s)) eqn:Q.
  { apply existsb_exists in Q as (z & Z1 & Z2). apply Z.eqb_eq in Z2. exists s, Returns. split; auto. split; auto. eapply E_present; eauto. }
  assert (Fr : forall z, In z (src s) -> pk z <> pk v).
  { intros z I E. assert (X : existsb (fun y => Z.eqb (pk y) (pk v)) (src s) = true) by (apply existsb_exists; exists z; split; auto; now apply Z.eqb_eq). congruence. }
  destruct (repair _ S) as (gl & wl & V). destruct (inv_progress _ _ _ _ v V) as (PA & _). destruct PA as (s1 & E1); [intros z I _; auto|]. cbn [fstep] in E1. assert (V1 := add_inv _ _ _ _ _ _ E1 V).
  assert (KD := keyed_grouping _ _ _ _ (s_grs _ S)). destruct (find_pos_ok fk (fk v) _ _ KD) as (o & F1 & _ & F3).
  assert (Pk : NoDup (map pk (v :: src s))). { cbn. constructor; [|apply (s_pk _ S)]. intros I. apply in_map_iff in I as (z & Z1 & Z2). now apply (Fr z). }
  unfold on_add in E1. cbn [grs watch glog wlog] in E1. unfold t_add. rewrite F1 in *. cbn [rbind] in *. destruct o as [n|].
  - destruct F3 as (a & g & os & b & EG & <- & GK). rewrite EG in E1. rewrite EG. 
    rewrite nth_split_eq in E1. rewrite nth_split_eq. destruct (vinsert (pk_lt pk) v g) as [g' []] eqn:VI; [|discriminate]. cbn [guard] in *. rewrite set_split in E1.
    destruct (notify bad (KAdded v) os (glog (fs s))) as [l x] eqn:N. injection E1 as E1. subst s1. cbn [guard rbind]. rewrite set_split.
    assert (Ig : In (g, os) (grs (fs s))) by (rewrite EG; apply in_or_app; cbn; auto). assert (IN := vinsert_in pk fk _ _ _ _ VI).
    destruct (of_group _ _ _ S Ig) as (k & M & z & Z0). assert (Kv : k = fk v). { destruct g as [|y g]; [discriminate|]. cbn in GK. injection GK as GK. destruct (proj1 (M y) (or_introl eq_refl)). congruence. } subst k.
    assert (Ob : observe fk s (fk v) os) by (exists g; split; auto; exists z; split; auto; apply M in Z0; apply Z0).
    assert (Nos : NoDup os). { assert (N0 := s_nodup _ S). rewrite EG, observers_split in N0. apply nodup_app_inv in N0 as (_ & N0 & _). now apply nodup_app_inv in N0 as (N0 & _). }
    destruct (notify_upto _ _ _ _ _ _ Nos N) as (d & U & Td).
    exists (TSt (v :: src s) (FSt (a ++ (g', os) :: b) (watch (fs s)) l (wlog (fs s)))), (thrown x). split; auto. split.
    + eapply E_join; eauto.
      * intros i. reflexivity.
      * split; auto. intros k o. unfold observe. cbn [fs grs]. rewrite EG. apply observe_mid. intros k'. unfold has_key. split; intros (y & Y1 & Y2); [exists y; split; auto; now apply IN; right|].
        apply IN in Y1 as [->|Y1]; [|eauto]. exists z. split; auto. apply M in Z0. destruct Z0. congruence.
      * intros y. cbn. intuition.
    + destruct V1 as [_ G1 N1 _ _ W1 _]. constructor; auto.
  - destruct (insert_gr fk ([v], []) (grs (fs s))) as [gs| |] eqn:IG; try discriminate. cbn [rbind] in *. injection E1 as E1. subst s1. destruct (notify bad (GAdded [v]) (watch (fs s)) (wlog (fs s))) as [w x] eqn:N.
    destruct (insert_gr_ok _ _ _ _ _ IG) as (_ & a & b & EG & ->). destruct (notify_upto _ _ _ _ _ _ (s_watch _ S) N) as (d & U & Td).
    exists (TSt (v :: src s) (FSt (a ++ ([v], []) :: b) (watch (fs s)) (glog (fs s)) w)), (thrown x). split; auto. split.
    + eapply E_new; eauto.
      * intros H. apply F3. now apply keys_has.
      * intros i. reflexivity.
      * intros k os. unfold observe. cbn [fs grs]. rewrite EG. split.
        -- intros (h & I & H). apply in_app_or in I as [I|[I|I]]; [left; exists h; split; auto; apply in_or_app; auto| |left; exists h; split; auto; apply in_or_app; auto].
           inversion I; subst. right. split; auto. destruct H as (y & [<-|[]] & <-). auto.
        -- intros [(h & I & H)|(-> & ->)]; [exists h; split; auto; apply in_app_or in I as [I|I]; apply in_or_app; cbn; auto|].
           exists [v]. split; [apply in_or_app; cbn; auto|]. exists v. cbn. auto.
      * intros y. cbn. intuition.
    + destruct V1 as [_ G1 N1 _ _ W1 _]. constructor; auto.
Qed.

(** erase *)
Lemma perm_filter zs v : NoDup (map pk zs) -> In v zs -> Permutation zs (v :: filter (fun y => negb (Z.eqb (pk y) (pk v))) zs).
Proof.
  induction zs as [|z zs IH]; intros N I; [destruct I|]. cbn in N. inversion N as [|? ? H K]; subst. cbn [filter]. destruct (Z.eqb_spec (pk z) (pk v)) as [E|E]; cbn [negb].
  - assert (z = v) as ->. { destruct I as [|I]; auto. destruct H. rewrite E. now apply in_map. }
    replace (filter (fun y => negb (Z.eqb (pk y) (pk v))) zs) with zs; auto. symmetry. clear - H. induction zs as [|z zs IH]; auto. cbn in *. destruct (Z.eqb_spec (pk z) (pk v)); [tauto|]. cbn. f_equal. tauto.
  - destruct I as [->|I]; [tauto|]. rewrite perm_swap. constructor. auto.
Qed.
Lemma erase_effect bad s k : st s -> exists s' x, tstep pk fk bad (TErase k) s = Ok (s', x) /\ effect pk fk bad s (TErase k) s' x /\ (x <> Terminates -> st s').
Proof.
  intros S. cbn [tstep]. destruct (find (fun y => Z.eqb (pk y) k) (src s)) as [v|] eqn:Fv.
  2: { exists s, Returns. split; auto. split; auto. apply E_absent. intros z I E. assert (X := find_none _ _ Fv z I). cbn in X. lia. }
  apply find_some in Fv as (Iv & Ev). apply Z.eqb_eq in Ev. subst k.
  destruct (repair _ S) as (gl & wl & V). destruct (inv_progress _ _ _ _ v V) as (_ & PR). destruct (PR Iv) as (s1 & E1). cbn [fstep] in E1.
  set (zs' := filter (fun y => negb (Z.eqb (pk y) (pk v))) (src s)). assert (Pm : Permutation (src s) (v :: zs')) by (apply perm_filter; auto; apply (s_pk _ S)).
  assert (V1 := remove_inv _ _ _ _ _ _ _ E1 Pm V).
  assert (Pk : NoDup (map pk zs')). { assert (N0 := s_pk _ S). apply (Permutation_NoDup (Permutation_map pk Pm)) in N0. cbn in N0. now inversion N0. }
  assert (Iz : forall z, In z zs' <-> In z (src s) /\ z <> v).
  { intros z. unfold zs'. rewrite filter_In. split; intros (A & B); split; auto; [intros ->; rewrite Z.eqb_refl in B; discriminate|].
    destruct (Z.eqb_spec (pk z) (pk v)) as [E|]; auto. destruct B. apply (pk_eq (src s)); auto. apply (s_pk _ S). }
  assert (KD := keyed_grouping _ _ _ _ (s_grs _ S)). destruct (find_pos_ok fk (fk v) _ _ KD) as (o & F1 & _ & F3).
  unfold on_remove in E1. cbn [grs watch glog wlog] in E1. unfold t_remove. rewrite F1 in *. cbn [rbind] in *. destruct o as [n|]; [|discriminate].
  destruct F3 as (a & g & os & b & EG & <- & GK).
  assert (Ig : In (g, os) (grs (fs s))) by (rewrite EG; apply in_or_app; cbn; auto).
  destruct (of_group _ _ _ S Ig) as (k & M & z & Z0). assert (Kv : k = fk v). { destruct g as [|y g]; [discriminate|]. cbn in GK. injection GK as GK. destruct (proj1 (M y) (or_introl eq_refl)). congruence. } subst k.
  assert (Ob : observe fk s (fk v) os) by (exists g; split; auto; exists z; split; auto; apply M in Z0; apply Z0).
  assert (Nos : NoDup os). { assert (N0 := s_nodup _ S). rewrite EG, observers_split in N0. apply nodup_app_inv in N0 as (_ & N0 & _). now apply nodup_app_inv in N0 as (N0 & _). }
  rewrite EG in E1. rewrite EG. rewrite nth_split_eq in E1. rewrite nth_split_eq.
  destruct g as [|x0 [|y0 r]]; [discriminate| |].
  - destruct (Z.eqb_spec (pk x0) (pk v)) as [Ex|]; [|discriminate]. cbn [guard] in *. rewrite remove_split in E1. rewrite remove_split. injection E1 as E1. subst s1.
    assert (x0 = v) as -> by (apply (pk_eq (src s)); auto; [apply (s_pk _ S)|]; apply (M x0); cbn; auto).
    assert (La : forall y, In y (src s) -> fk y = fk v -> y = v). { intros y Y1 Y2. assert (Y : In y [v]) by (apply M; split; auto). destruct Y as [<-|[]]. auto. }
    destruct (notify bad (GRemoving [v]) (watch (fs s)) (wlog (fs s))) as [w e] eqn:N. destruct (notify_upto _ _ _ _ _ _ (s_watch _ S) N) as (d & U & Td). destruct e.
    + eexists _, Throws. split; [reflexivity|]. split.
      * eapply E_last_throws; eauto; [intros i; reflexivity|split; auto; intros; unfold observe; cbn; rewrite EG; tauto|intros y; reflexivity].
      * intros _. destruct S as [S1 S2 S3 S4]. rewrite EG in *. constructor; auto.
    + cbn [destroy_groups]. destruct (notify bad KClearing os (glog (fs s))) as [l []] eqn:N'.
      * exists (TSt (src s) (fs s)), Terminates. split; auto. split; [|tauto]. apply upto_good in U as (_ & U). destruct (notify_upto _ _ _ _ _ _ Nos N') as (d' & U' & _).
        inversion U' as [|p i q A B]; subst. eapply (E_last_terminates _ _ _ _ _ _ i); eauto. apply in_or_app. cbn. auto.
      * exists (TSt zs' (FSt (a ++ b) (watch (fs s)) l w)), Returns. split; auto. apply upto_good in U as (-> & U). destruct (notify_upto _ _ _ _ _ _ Nos N') as (d' & U' & Td'). apply upto_good in U' as (-> & U'). split.
        -- eapply E_last; eauto; [intros j [J|J]; auto|]. intros k o. unfold observe. cbn [fs grs]. rewrite EG. split.
           ++ intros (h & I & H). assert (I' : In (h, o) (a ++ ([v], os) :: b)) by (apply in_app_or in I as [I|I]; apply in_or_app; cbn; auto). split; [eauto|]. intros ->.
              assert (EH : h = [v]). { rewrite <- EG in I'. rewrite (group_is _ _ _ _ S I' H). symmetry. apply (group_is _ _ _ _ S Ig). exists v. cbn. auto. }
              subst h. assert (ND := grouping_nodup (src s)). rewrite <- (s_grs _ S), EG, map_app in ND. cbn [map fst] in ND. apply NoDup_remove_2 in ND. apply ND. rewrite <- map_app.
              change [v] with (fst ([v], o)). apply in_map. auto.
           ++ intros ((h & I & H) & NE). exists h. split; auto. apply in_app_or in I as [I|[I|I]]; try (apply in_or_app; auto; fail). inversion I; subst. destruct H as (y & [<-|[]] & <-). tauto.
        -- intros _. destruct V1 as [_ G1 N1 _ _ W1 _]. constructor; auto.
  - set (g := x0 :: y0 :: r) in *. destruct (find (fun y => (pk y =? pk v)%Z) g) as [y1|] eqn:FW; [|discriminate]. rewrite set_split in E1. rewrite set_split.
    assert (y1 = v) as ->. { apply find_some in FW as (A & B). apply (pk_eq (src s)); auto; [apply (s_pk _ S)| |lia]. now apply M in A as (A & _). }
    remember (vremove (fun y => (pk y =? pk v)%Z) g) as g' eqn:Dg. injection E1 as E1. subst s1. destruct (notify bad (KRemoving v) os (glog (fs s))) as [l e] eqn:N.
    destruct (notify_upto _ _ _ _ _ _ Nos N) as (d & U & Td).
    assert (I1 : In (g', os) (a ++ (g', os) :: b)) by (apply in_or_app; cbn; auto). destruct (grouped_key _ _ _ _ _ _ V1 I1) as (k1 & M1 & z1 & Z1). assert (Z2 := Z1). apply M1 in Z2 as (Z2 & K1). apply Iz in Z2 as (Z2 & Z3).
    assert (Z4 : fk z1 = fk v) by (rewrite Dg in Z1; apply vremove_sub in Z1; apply M in Z1; apply Z1).
    exists (TSt (match thrown e with Returns => zs' | _ => src s end) (FSt (if e then a ++ (g, os) :: b else a ++ (g', os) :: b) (watch (fs s)) l (wlog (fs s)))), (thrown e). split; [destruct e; reflexivity|]. split.
    + eapply (E_part _ _ _ _ _ z1); eauto.
      * intros i. reflexivity.
      * split; auto. intros k o. unfold observe. cbn [fs grs]. rewrite EG. destruct e; [tauto|]. apply observe_mid. intros k'. unfold has_key. split; intros (y & Y1 & Y2).
        -- exists z1. split; auto. apply M in Y1 as (_ & Y1). congruence.
        -- exists y. split; auto. rewrite Dg in Y1. now apply vremove_sub in Y1.
      * intros y. destruct e; cbn [thrown src]; [intuition discriminate|]. rewrite Iz. intuition.
    + intros _. destruct e; cbn [thrown]; [destruct S as [S1 S2 S3 S4]; rewrite EG in *; constructor; auto|]. destruct V1 as [_ G1 N1 _ _ W1 _]. constructor; auto.
Qed.

(** clear *)
Lemma clear_effect bad s : st s -> exists s' x, tstep pk fk bad TClear s = Ok (s', x) /\ effect pk fk bad s TClear s' x /\ (x <> Terminates -> st s').
Proof.
  intros S. cbn [tstep]. destruct (src s) as [|z zs] eqn:Es; [exists s, Returns; split; auto; split; auto; now apply E_empty|].
  assert (Ns : src s <> []) by (rewrite Es; discriminate). destruct (group_of s z S) as (os0 & g0 & I0 & _); [rewrite Es; cbn; auto|].
  unfold t_clear. destruct (grs (fs s)) as [|g gs] eqn:Eg; [destruct I0|]. rewrite <- Eg in *. destruct (notify bad GClearing (watch (fs s)) (wlog (fs s))) as [w e] eqn:N.
  destruct (notify_upto _ _ _ _ _ _ (s_watch _ S) N) as (d & U & Td). destruct e.
  - eexists _, Throws. split; [reflexivity|]. rewrite <- Es. split.
    + eapply E_clear_throws; eauto; [intros i; reflexivity|split; auto; intros; unfold observe; cbn; tauto|intros y; reflexivity].
    + intros _. destruct S as [S1 S2 S3 S4]. constructor; auto.
  - apply upto_good in U as (-> & U). destruct (destroy_groups bad (grs (fs s)) (glog (fs s))) as [l|] eqn:D.
    + destruct (destroy_all _ _ _ _ D) as (-> & B). eexists _, Returns. split; [reflexivity|]. split.
      * apply (E_clear _ _ _ _ (observers (grs (fs s)))); auto.
        -- intros i. symmetry. now apply observes_in.
        -- intros j [J|J]; auto.
        -- cbn [fs glog]. apply tell_told. apply (s_nodup _ S).
        -- intros k os (h & I & _). destruct I.
        -- intros y. cbn. tauto.
      * intros _. constructor; cbn; try constructor; auto. apply (s_watch _ S).
    + destruct (destroy_bad _ _ _ D) as (i & I & B). eexists _, Terminates. split; [reflexivity|]. split; [|tauto]. eapply (E_clear_terminates _ _ _ _ i); eauto. now apply observes_in.
Qed.
(** observers that come and go *)
Lemma observe_effect bad s i k : st s -> valid fk s (TObserve i k) -> exists s', tstep pk fk bad (TObserve i k) s = Ok (s', Returns) /\ effect pk fk bad s (TObserve i k) s' Returns /\ st s'.
Proof.
  intros S (U & H). destruct (unsubscribed _ _ U) as (U1 & U2). assert (KD := keyed_grouping _ _ _ _ (s_grs _ S)). destruct (find_pos_ok fk k _ _ KD) as (o & F1 & _ & F3).
  cbn [tstep fstep]. rewrite U, F1. cbn [rbind]. destruct o as [n|]; [|destruct F3; now apply keys_has].
  destruct F3 as (a & g & os & b & EG & <- & GK). rewrite EG, nth_split_eq, set_split. cbn [rbind]. eexists. split; [reflexivity|].
  assert (Ig : In (g, os) (grs (fs s))) by (rewrite EG; apply in_or_app; cbn; auto). destruct (of_group _ _ _ S Ig) as (k0 & M & z & Z0).
  assert (Kv : k0 = k). { destruct g as [|y g]; [discriminate|]. cbn in GK. injection GK as GK. destruct (proj1 (M y) (or_introl eq_refl)). congruence. } subst k0.
  assert (Hk : has_key fk g k) by (exists z; split; auto; apply M in Z0; apply Z0). split.
  - apply (E_observe _ _ _ _ _ _ os); auto.
    + now rewrite observes_in.
    + exists g; auto.
    + intros j J. cbn. unfold upd. apply Nat.eqb_neq in J. now rewrite J.
    + intros y. cbn. unfold upd. rewrite Nat.eqb_refl, (shows_start pk fk). apply M.
    + intros j. reflexivity.
    + intros k' o. unfold observe. cbn [fs grs]. rewrite EG. split.
      * intros (h & I & X).
        assert (Y : In (h, o) (a ++ b) \/ (h, o) = (g, os ++ [i])) by (apply in_app_or in I as [I|[I|I]]; [left; apply in_or_app|right; symmetry|left; apply in_or_app]; auto).
        destruct Y as [Y|Y]; [|inversion Y; subst; right; split; auto; destruct X as (y & Y1 & <-); apply M in Y1; apply Y1]. left.
        assert (I' : In (h, o) (a ++ (g, os) :: b)) by (apply in_app_or in Y as [Y|Y]; apply in_or_app; cbn; auto). split; [|eauto]. intros ->.
        assert (EH : h = g). { rewrite <- EG in I'. rewrite (group_is _ _ _ _ S I' X). symmetry. eapply group_is; eauto. }
        subst h. assert (ND := grouping_nodup (src s)). rewrite <- (s_grs _ S), EG, map_app in ND. cbn [map fst] in ND. apply NoDup_remove_2 in ND. apply ND. rewrite <- map_app.
        change g with (fst (g, o)). apply in_map. auto.
      * intros [(NE & h & I & X)|(-> & ->)]; [|exists g; split; auto; apply in_or_app; cbn; auto]. exists h. split; auto. apply in_app_or in I as [I|[I|I]]; try (apply in_or_app; cbn; auto; fail).
        inversion I; subst. destruct X as (y & Y1 & Y2). apply M in Y1 as (_ & Y1). congruence.
  - destruct S as [S1 S2 S3 S4]. constructor; cbn [src fs grs watch]; auto.
    + rewrite EG in S2. rewrite map_app in *. exact S2.
    + rewrite EG, observers_split in *. apply nodup_app_inv in S3 as (Na & S3 & D1). apply nodup_app_inv in S3 as (No & Nb & D2).
      assert (X : ~ In i (observers a) /\ ~ In i os /\ ~ In i (observers b)) by (repeat split; intros J; apply U1; apply in_or_app; auto; right; apply in_or_app; auto).
      destruct X as (X1 & X2 & X3). change (NoDup (observers (a ++ (g, os ++ [i]) :: b))). rewrite (observers_split a g (os ++ [i]) b). apply nodup_app_intro; auto.
      * apply nodup_app_intro; auto; [apply nodup_app_intro; auto; [repeat constructor; auto|intros y Y [<-|[]]; auto]|]. intros y Y. apply in_app_or in Y as [Y|[<-|[]]]; auto.
      * intros y Y J. apply in_app_or in J as [J|J]; [apply in_app_or in J as [J|[<-|[]]]; auto|]; apply (D1 y); auto; apply in_or_app; auto.
Qed.
Lemma watch_effect bad s i : st s -> valid fk s (TWatch i) -> exists s', tstep pk fk bad (TWatch i) s = Ok (s', Returns) /\ effect pk fk bad s (TWatch i) s' Returns /\ st s'.
Proof.
  intros S U. cbn in U. destruct (unsubscribed _ _ U) as (U1 & U2). cbn [tstep fstep]. rewrite U. cbn [rbind]. eexists. split; [reflexivity|]. split.
  - apply E_watch; auto.
    + now rewrite observes_in.
    + intros j J. cbn. unfold upd. apply Nat.eqb_neq in J. now rewrite J.
    + intros k. cbn. unfold upd. rewrite Nat.eqb_refl, wshows_start. split.
      * intros ([g os] & I & z & Z1 & Z2). destruct (of_group _ _ _ S I) as (k' & M & _). apply M in Z1 as (Z1 & _). exists z. auto.
      * intros (z & Z1 & Z2). destruct (group_of _ _ S Z1) as (os & g & I & H). rewrite Z2 in H. exists (g, os). auto.
    + intros j. reflexivity.
    + intros; unfold observe; cbn; tauto.
  - destruct S as [S1 S2 S3 S4]. constructor; cbn [src fs grs watch]; auto. apply nodup_app_intro; auto; [repeat constructor; auto|]. intros y Y [<-|[]]; auto.
Qed.
Lemma leave_effect bad s i : st s -> exists s', tstep pk fk bad (TLeave i) s = Ok (s', Returns) /\ effect pk fk bad s (TLeave i) s' Returns /\ st s'.
Proof.
  intros S. destruct (repair _ S) as (gl & wl & V). assert (V1 := leave_inv _ _ i _ _ _ eq_refl V). cbn [tstep fstep rbind]. eexists. split; [reflexivity|]. split.
  - apply E_leave; cbn [fs glog wlog watch src]; auto.
    1,2: intros j J; unfold upd; apply Nat.eqb_neq in J; now rewrite J.
    + unfold upd. now rewrite Nat.eqb_refl.
    + intros k o. unfold observe. cbn [fs grs]. split.
      * intros (h & I & X). apply in_map_iff in I as ((h' & os) & E & I). cbn in E. inversion E; subst. exists os. split; auto. exists h. auto.
      * intros (os & (h & I & X) & ->). exists h. split; auto. apply in_map_iff. exists (h, os). auto.
  - destruct V1 as [_ G1 N1 _ _ W1 _]. destruct S as [S1 S2 S3 S4]. constructor; auto.
Qed.
Lemma step_effect bad o s : st s -> valid fk s o -> exists s' x, tstep pk fk bad o s = Ok (s', x) /\ effect pk fk bad s o s' x /\ (x <> Terminates -> st s').
Proof.
  intros S W. destruct o as [v|k| |i k|i|i].
  - destruct (add_effect bad s v S) as (s' & x & A & B & C). exists s', x. auto.
  - now apply erase_effect.
  - now apply clear_effect.
  - destruct (observe_effect bad s i k S W) as (s' & A & B & C). exists s', Returns. auto.
  - destruct (watch_effect bad s i S W) as (s' & A & B & C). exists s', Returns. auto.
  - destruct (leave_effect bad s i S) as (s' & A & B & C). exists s', Returns. auto.
Qed.
Lemma init_st : st tinit.
Proof. constructor; cbn; constructor. Qed.
Notation reach := (reach pk fk).
Lemma reach_st s : reach s -> st s.
Proof. intros R. induction R as [|bad s o s' x R IH W E N]; [apply init_st|]. destruct (step_effect bad o s IH W) as (s2 & x2 & E2 & _ & S). rewrite E in E2. inversion E2; subst. auto. Qed.

(** Nothing is undefined, and each statement does what the specification says. *)
Theorem gthrow_effect : forall bad o s, reach s -> valid fk s o -> exists s' x, tstep pk fk bad o s = Ok (s', x) /\ effect pk fk bad s o s' x.
Proof. intros bad o s R W. destruct (step_effect bad o s (reach_st _ R) W) as (s' & x & A & B & _). eauto. Qed.
(** The groups are always those of the elements of the source, whoever has thrown, and the primary keys are different. *)
Theorem gthrow_contents : forall s, reach s -> NoDup (map pk (src s)) /\ map fst (grs (fs s)) = grouping (src s).
Proof. intros s R. destruct (reach_st _ R). auto. Qed.

(** What the observers know *)
Record know (s : tst) : Prop := {
  k_group : forall i z, shows (glog (fs s) i) z -> exists k os, observe fk s k os /\ In i os /\ of_key fk (src s) k z;
  k_watch : forall i k, In i (watch (fs s)) -> wshows fk (wlog (fs s) i) k -> has_key fk (src s) k }.
Lemma upto_incl bad os d x : upto bad os d x -> incl d os.
Proof. intros U i I. inversion U; subst; auto. apply in_app_or in I as [I|[<-|[]]]; apply in_or_app; cbn; auto. Qed.
Lemma told_in {C} (l l' : nat -> list C) c d i : told l l' c d -> In i d /\ l' i = c :: l i \/ ~ In i d /\ l' i = l i.
Proof. intros H. specialize (H i). destruct (in_dec Nat.eq_dec i d); auto. Qed.
Lemma know_step bad o s s' x : st s -> know s -> effect pk fk bad s o s' x -> x <> Terminates -> know s'.
Proof.
  intros S [K W] E N. destruct E as [v z Iz Ez|v os l x s' Fr Ob U Tg Tw (SO & SW) So|v l x s' Fr Nk U Tw Tg SO SW So|k Ab|v z os l x s' Iv Iz Nz Ez Ob U Tg Tw (SO & SW) So
    |v l s' Iv La U Tw Tg (SO & SW) So|v os i s' Iv La Gw Ob Ii Bi|v os s' Iv La Ob G Tw Tg SO SW So|Em|l s' Ns U Tw Tg (SO & SW) So|i s' Ns Gw Oi Bi
    |l s' Ns Ol G Tw Tg SO SW So|i k os s' No Nw Ob Tg Sh Tw SO SW So|i s' No Nw Tw Sh Tg SO SW So|i s' Tg Tw Gi SO SW So]; try (constructor; auto; fail); try (destruct (N eq_refl)).
  - constructor.
    + intros i z H. assert (D := upto_incl _ _ _ _ U). destruct (told_in _ _ _ _ i Tg) as [(I & E)|(I & E)]; rewrite E in H; [destruct H as [->|H]|].
      * exists (fk v), os. split; [now apply SO|]. split; auto. split; auto. apply So. auto.
      * destruct (K _ _ H) as (k & o & A & B & C1 & C2). exists k, o. split; [now apply SO|]. split; auto. split; auto. apply So. auto.
      * destruct (K _ _ H) as (k & o & A & B & C1 & C2). exists k, o. split; [now apply SO|]. split; auto. split; auto. apply So. auto.
    + intros i k I H. rewrite SW in I. rewrite Tw in H. destruct (W _ _ I H) as (y & Y1 & Y2). exists y. split; auto. apply So. auto.
  - constructor.
    + intros i z H. rewrite Tg in H. destruct (K _ _ H) as (k & o & A & B & C1 & C2). exists k, o. split; [apply SO; auto|]. split; auto. split; auto. apply So. auto.
    + intros i k I H. rewrite SW in I. assert (X : has_key fk [v] k \/ wshows fk (wlog (fs s) i) k) by (destruct (told_in _ _ _ _ i Tw) as [(_ & E)|(_ & E)]; rewrite E in H; auto).
      destruct X as [(y & [<-|[]] & Y)|X]; [exists v; split; auto; apply So; auto|]. destruct (W _ _ I X) as (y & Y1 & Y2). exists y. split; auto. apply So. auto.
  - constructor.
    + intros i y H. assert (X : shows (glog (fs s) i) y /\ (x = false -> y <> v)).
      { destruct (told_in _ _ _ _ i Tg) as [(I & E)|(I & E)]; rewrite E in H; [destruct H as (H1 & H2); auto|]. split; auto. intros -> ->. apply upto_good in U as (-> & _).
        destruct (K _ _ H) as (k & o & A & B & C1 & <-). rewrite (one_group _ _ _ _ S Ob A) in I. auto. }
      destruct X as (X & Y). destruct (K _ _ X) as (k & o & A & B & C1 & C2). exists k, o. split; [now apply SO|]. split; auto. split; auto. apply So. auto.
    + intros i k I H. rewrite SW in I. rewrite Tw in H. destruct (W _ _ I H) as (y & Y1 & Y2). destruct (Z.eq_dec (pk y) (pk v)) as [E|E].
      * assert (y = v) as -> by (eapply pk_eq; eauto; apply (s_pk _ S)). exists z. split; [|congruence]. apply So. auto.
      * exists y. split; auto. apply So. split; auto. intros _ ->. auto.
  - constructor.
    + intros i y H. rewrite Tg in H. destruct (K _ _ H) as (k & o & A & B & C1 & C2). exists k, o. split; [now apply SO|]. split; auto. split; auto. now apply So.
    + intros i k I H. rewrite SW in I. assert (X : wshows fk (wlog (fs s) i) k) by (destruct (told_in _ _ _ _ i Tw) as [(_ & E)|(_ & E)]; rewrite E in H; auto; apply H).
      destruct (W _ _ I X) as (y & Y1 & Y2). exists y. split; auto. now apply So.
  - constructor.
    + intros i y H. destruct (told_in _ _ _ _ i Tg) as [(I & E)|(I & E)]; rewrite E in H; [destruct H|]. destruct (K _ _ H) as (k & o & A & B & C1 & C2).
      assert (k <> fk v) by (intros ->; rewrite (one_group _ _ _ _ S Ob A) in I; auto). exists k, o. split; [now apply SO|]. split; auto. split; auto. apply So. split; auto. intros ->. auto.
    + intros i k I H. rewrite SW in I. destruct (told_in _ _ _ _ i Tw) as [(_ & E)|(I' & E)]; [|tauto]. rewrite E in H. destruct H as (H1 & H2).
      destruct (W _ _ I H2) as (y & Y1 & Y2). exists y. split; auto. apply So. split; auto. intros ->. apply H1. exists v. cbn. auto.
  - constructor.
    + intros i y H. rewrite Tg in H. destruct (K _ _ H) as (k & o & A & B & C1 & C2). exists k, o. split; [now apply SO|]. split; auto. split; auto. now apply So.
    + intros i k I H. rewrite SW in I. assert (X : wshows fk (wlog (fs s) i) k) by (destruct (told_in _ _ _ _ i Tw) as [(_ & E)|(_ & E)]; rewrite E in H; auto; destruct H).
      destruct (W _ _ I X) as (y & Y1 & Y2). exists y. split; auto. now apply So.
  - constructor.
    + intros i y H. destruct (told_in _ _ _ _ i Tg) as [(I & E)|(I & E)]; rewrite E in H; [destruct H|]. destruct (K _ _ H) as (k & o & A & B & _). destruct I. apply Ol. exists k, o. auto.
    + intros i k I H. rewrite SW in I. destruct (told_in _ _ _ _ i Tw) as [(_ & E)|(I' & E)]; [|tauto]. rewrite E in H. destruct H.
  - constructor.
    + intros j y H. rewrite So. destruct (Nat.eq_dec j i) as [->|J]; [apply Sh in H; exists k, (os ++ [i]); split; [apply SO; auto|]; split; auto; apply in_or_app; cbn; auto|].
      rewrite Tg in H by auto. destruct (K _ _ H) as (k' & o & A & B & C). destruct (Z.eq_dec k' k) as [->|Nk].
      * rewrite (one_group _ _ _ _ S A Ob) in B. exists k, (os ++ [i]). split; [apply SO; auto|]. split; auto. apply in_or_app; auto.
      * exists k', o. split; auto. apply SO. auto.
    + intros j y I H. rewrite SW in I. rewrite Tw in H. rewrite So. eauto.
  - constructor.
    + intros j y H. rewrite So. rewrite Tg in H. destruct (K _ _ H) as (k & o & A & B & C). exists k, o. split; auto. now apply SO.
    + intros j y I H. rewrite So. destruct (Nat.eq_dec j i) as [->|J]; [now apply Sh|]. rewrite Tw in H by auto. rewrite SW in I. apply in_app_or in I as [I|[->|[]]]; [|tauto]. eauto.
  - constructor.
    + intros j y H. rewrite So. destruct (Nat.eq_dec j i) as [->|J]; [rewrite Gi in H; destruct H|]. rewrite Tg in H by auto. destruct (K _ _ H) as (k & o & A & B & C). exists k, (leave i o). split; [apply SO; eauto|].
      split; auto. apply leave_in. auto.
    + intros j y I H. rewrite So. rewrite SW in I. apply leave_in in I as (I & J). rewrite Tw in H by auto. eauto.
Qed.
Lemma reach_know s : reach s -> know s.
Proof.
  intros R. induction R as [|bad s o s' x R IH W E N]; [constructor; cbn; tauto|]. destruct (step_effect bad o s (reach_st _ R) W) as (s2 & x2 & E2 & F & _). rewrite E in E2. inversion E2; subst.
  eapply know_step; eauto. now apply reach_st.
Qed.
(** No observer shows an element that the source does not have, or one of another group; or a key that no element has. *)
Theorem gthrow_no_ghost : forall s i, reach s ->
  (forall z, shows (glog (fs s) i) z -> exists k os, observe fk s k os /\ In i os /\ In z (src s) /\ fk z = k) /\
  (In i (watch (fs s)) -> forall k, wshows fk (wlog (fs s) i) k -> exists z, In z (src s) /\ fk z = k).
Proof. intros s i R. destruct (reach_know _ R) as [K W]. split; [intros z H; destruct (K _ _ H) as (k & os & A & B & C); exists k, os; auto|]. intros I k. now apply W. Qed.

Lemma thrown_returns x : thrown x = Returns -> x = false.
Proof. destruct x; auto; discriminate. Qed.
Lemma in_step_keeps bad o s s' i : st s -> effect pk fk bad s o s' Returns -> in_step fk s i -> in_step fk s' i.
Proof.
  intros S E (K & W). remember Returns as x0 eqn:Ex. destruct E as [v z Iz Ez|v os l x s' Fr Ob U Tg Tw (SO & SW) So|v l x s' Fr Nk U Tw Tg SO SW So|k Ab|v z os l x s' Iv Iz Nz Ez Ob U Tg Tw (SO & SW) So
    |v l s' Iv La U Tw Tg (SO & SW) So|v os i0 s' Iv La Gw Ob Ii Bi|v os s' Iv La Ob G Tw Tg SO SW So|Em|l s' Ns U Tw Tg (SO & SW) So|i0 s' Ns Gw Oi Bi
    |l s' Ns Ol G Tw Tg SO SW So|i0 k os s' No Nw Ob Tg Sh Tw SO SW So|i0 s' No Nw Tw Sh Tg SO SW So|i0 s' Tg Tw Gi SO SW So]; try discriminate; try (split; auto; fail).
  - apply thrown_returns in Ex. subst x. apply upto_good in U as (-> & _). split.
    + intros k o O I z. apply SO in O. specialize (K _ _ O I z). unfold of_key in *. rewrite (So z). destruct (told_in _ _ _ _ i Tg) as [(J & E)|(J & E)]; rewrite E.
      * assert (k = fk v) as -> by (eapply one_key; eauto). cbn [shows]. rewrite K. split; [intros [->|]; tauto|tauto].
      * rewrite K. split; [tauto|]. intros ([->|Z1] & Z2); auto. subst k. rewrite (one_group _ _ _ _ S Ob O) in J. tauto.
    + intros I k. rewrite SW in I. rewrite Tw, (W I). destruct (of_observe _ _ _ S Ob) as (g & _ & M & y & Y0). apply M in Y0 as (Y0 & Y1). split; intros (z & Z1 & Z2); [exists z; split; auto; apply So; auto|].
      apply So in Z1 as [->|Z1]; [exists y; split; auto; congruence|exists z; auto].
  - apply thrown_returns in Ex. subst x. apply upto_good in U as (-> & _). split.
    + intros k o O I z. apply SO in O as [O|(-> & ->)]; [|destruct I]. rewrite Tg, (K _ _ O I z). unfold of_key. rewrite (So z). split; [tauto|]. intros ([->|Z1] & Z2); auto. destruct Nk.
      destruct (of_observe _ _ _ S O) as (g & _ & M & y & Y0). apply M in Y0 as (Y0 & Y1). exists y. split; auto. congruence.
    + intros I k. rewrite SW in I. destruct (told_in _ _ _ _ i Tw) as [(_ & E)|(J & E)]; [|tauto]. rewrite E. cbn [wshows]. rewrite (W I). split.
      * intros [(y & [<-|[]] & Y)|(y & Y1 & Y2)]; [exists v|exists y]; split; auto; apply So; auto.
      * intros (z & Z1 & Z2). apply So in Z1 as [->|Z1]; [left; exists v; cbn; auto|right; exists z; auto].
  - apply thrown_returns in Ex. subst x. apply upto_good in U as (-> & _). split.
    + intros k o O I y. apply SO in O. specialize (K _ _ O I y). unfold of_key in *. rewrite (So y). destruct (told_in _ _ _ _ i Tg) as [(J & E)|(J & E)]; rewrite E.
      * cbn [shows]. rewrite K. tauto.
      * rewrite K. split; [|tauto]. intros (Y1 & Y2). split; auto. split; auto. intros _ ->. subst k. rewrite (one_group _ _ _ _ S Ob O) in J. tauto.
    + intros I k. rewrite SW in I. rewrite Tw, (W I). split; intros (y & Y1 & Y2); [|exists y; split; auto; apply So in Y1; tauto]. destruct (Z.eq_dec (pk y) (pk v)) as [E|E].
      * assert (y = v) as -> by (eapply pk_eq; eauto; apply (s_pk _ S)). exists z. split; [|congruence]. apply So. auto.
      * exists y. split; auto. apply So. split; auto. intros _ ->. auto.
  - split.
    + intros k o O I y. apply SO in O as (O & Nk). assert (J : ~ In i os) by (intros J; apply Nk; eapply one_key; eauto). destruct (told_in _ _ _ _ i Tg) as [(J' & E)|(_ & E)]; [tauto|]. rewrite E, (K _ _ O I y). unfold of_key. rewrite (So y).
      split; [|tauto]. intros (Y1 & Y2). split; auto. split; auto. intros ->. auto.
    + intros I k. rewrite SW in I. destruct (told_in _ _ _ _ i Tw) as [(_ & E)|(J & E)]; [|tauto]. rewrite E. cbn [wshows]. rewrite (W I). split.
      * intros (H & y & Y1 & Y2). exists y. split; auto. apply So. split; auto. intros ->. apply H. exists v. cbn. auto.
      * intros (y & Y1 & Y2). apply So in Y1 as (Y1 & Y3). split; [|exists y; auto]. intros (z & [<-|[]] & Z2). apply Y3. apply La; auto. congruence.
  - split; [intros k o O; destruct (SO _ _ O)|]. intros I k. rewrite SW in I. destruct (told_in _ _ _ _ i Tw) as [(_ & E)|(J & E)]; [|tauto]. rewrite E. cbn. split; [tauto|]. intros (z & Z1 & _). now apply So in Z1.
  - unfold in_step. rewrite So, SW. split.
    + intros k' o O I y. apply SO in O as [(Nk & O)|(-> & ->)].
      * rewrite Tg by (intros ->; apply No; exists k', o; auto). apply (K _ _ O I).
      * destruct (Nat.eq_dec i i0) as [->|J]; [apply Sh|]. rewrite Tg by auto. apply in_app_or in I as [I|[I|[]]]; [|congruence]. apply (K _ _ Ob I).
    + intros I k'. rewrite Tw. auto.
  - unfold in_step. rewrite So, SW. split.
    + intros k o O I z. rewrite Tg. apply SO in O. apply (K _ _ O I).
    + intros I k. destruct (Nat.eq_dec i i0) as [->|J]; [apply Sh|]. rewrite Tw by auto. apply in_app_or in I as [I|[I|[]]]; [auto|congruence].
  - unfold in_step. rewrite So, SW. split.
    + intros k o O I z. apply SO in O as (os & O & ->). apply leave_in in I as (I & J). rewrite Tg by auto. apply (K _ _ O I).
    + intros I k. apply leave_in in I as (I & J). rewrite Tw by auto. auto.
Qed.
(** A statement that returns keeps every observer in step that was; *)
Theorem gthrow_in_step : forall bad o s s' i, reach s -> valid fk s o -> tstep pk fk bad o s = Ok (s', Returns) -> in_step fk s i -> in_step fk s' i.
Proof. intros bad o s s' i R V E. destruct (gthrow_effect bad o s R V) as (s2 & x & E2 & F). rewrite E in E2. inversion E2; subst. apply (in_step_keeps bad o); auto. now apply reach_st. Qed.
(** after a clear() that returns all are, whatever was thrown before; *)
Theorem gthrow_clear : forall bad s s' i, reach s -> tstep pk fk bad TClear s = Ok (s', Returns) -> in_step fk s' i /\ src s' = [] /\ forall k os, ~ observe fk s' k os.
Proof.
  intros bad s s' i R E. destruct (gthrow_effect bad TClear s R I) as (s2 & x & E2 & F). rewrite E in E2. injection E2 as <- <-. remember Returns as x0 eqn:Ex. remember TClear as o eqn:Eo.
  assert (Nil : (forall z, ~ In z (src s')) -> src s' = []) by (intros H; destruct (src s') as [|z l]; auto; destruct (H z); cbn; auto).
  destruct F as [| | | | | | | |Em|l s' Ns U Tw Tg (SO & SW) So|i0 s' Ns Gw Oi Bi|l s' Ns Ol G Tw Tg SO SW So| | |]; try discriminate.
  - destruct (gthrow_contents _ R) as (_ & G). rewrite Em in G. cbn in G. apply map_eq_nil in G.
    assert (X : forall k os, ~ observe fk s k os) by (intros k os (g & I & _); rewrite G in I; destruct I). split; auto. split; [intros k os O; destruct (X _ _ O)|].
    intros I k. rewrite Em. split; [|intros (z & [] & _)]. intros H. destruct (k_watch _ (reach_know _ R) _ _ I H) as (z & Z1 & _). rewrite Em in Z1. destruct Z1.
  - split; [|split; auto; apply Nil; intros z H; now apply So in H]. split; [intros k o O; destruct (SO _ _ O)|]. intros I k. rewrite SW in I. destruct (told_in _ _ _ _ i Tw) as [(_ & E')|(J & _)]; [|tauto]. rewrite E'. cbn. split; [tauto|].
    intros (z & Z1 & _). now apply So in Z1.
Qed.
Definition but (s : tst) (v : T) (i : nat) : Prop :=
  (forall k os, observe fk s k os -> In i os -> forall z, z <> v -> (shows (glog (fs s) i) z <-> of_key fk (src s) k z)) /\
  (In i (watch (fs s)) -> forall k, (k <> fk v \/ exists z, In z (src s) /\ z <> v /\ fk z = fk v) -> (wshows fk (wlog (fs s) i) k <-> has_key fk (src s) k)).
Lemma in_step_but s v i : in_step fk s i -> but s v i.
Proof. intros (A & B). split; intros; [eapply A; eauto|apply B; auto]. Qed.
Lemma throws_but bad s s' v i : st s -> but s v i -> In v (src s) -> effect pk fk bad s (TErase (pk v)) s' Throws -> but s' v i /\ In v (src s').
Proof.
  intros S (A & B) Iv E. remember Throws as x0 eqn:Ex. remember (TErase (pk v)) as o eqn:Eo.
  destruct E as [v0 z Iz Ez|v0 os l x s' Fr Ob U Tg Tw (SO & SW) So|v0 l x s' Fr Nk U Tw Tg SO SW So|k Ab|v0 z os l x s' Iv0 Iz Nz Ez Ob U Tg Tw (SO & SW) So
    |v0 l s' Iv0 La U Tw Tg (SO & SW) So|v0 os i0 s' Iv0 La Gw Ob Ii Bi|v0 os s' Iv0 La Ob G Tw Tg SO SW So|Em|l s' Ns U Tw Tg (SO & SW) So|i0 s' Ns Gw Oi Bi
    |l s' Ns Ol G Tw Tg SO SW So|i0 k os s' No Nw Ob Tg Sh Tw SO SW So|i0 s' No Nw Tw Sh Tg SO SW So|i0 s' Tg Tw Gi SO SW So]; try discriminate;
  injection Eo as Eo; assert (v0 = v) as -> by (eapply pk_eq; eauto; apply (s_pk _ S)); clear Iv0 Eo.
  - destruct x; [|discriminate]. assert (So' : forall y, In y (src s') <-> In y (src s)) by (intros y; rewrite (So y); intuition discriminate). split; [|now apply So']. split.
    + intros k o O I y Y. apply SO in O. unfold of_key. rewrite So'. rewrite <- (A _ _ O I y Y). destruct (told_in _ _ _ _ i Tg) as [(_ & E)|(_ & E)]; rewrite E; cbn [shows]; tauto.
    + intros I k H. rewrite SW in I. rewrite Tw. unfold has_key. setoid_rewrite So'. apply B; auto. destruct H as [|(y & Y1 & Y2)]; auto. right. exists y. split; auto. now apply So'.
  - assert (So' : forall y, In y (src s') <-> In y (src s)) by (intros y; apply (So y)). split; [|now apply So']. split.
    + intros k o O I y Y. apply SO in O. rewrite Tg. unfold of_key. rewrite So'. apply (A _ _ O I y Y).
    + intros I k H. rewrite SW in I. unfold has_key at 1. setoid_rewrite So'. fold (has_key fk (src s) k).
      assert (Nk : k <> fk v). { destruct H as [|(y & Y1 & Y2 & Y3)]; auto. destruct Y2. apply La; auto. now apply So'. }
      rewrite <- (B I k) by auto. destruct (told_in _ _ _ _ i Tw) as [(_ & E)|(_ & E)]; rewrite E; [|tauto]. cbn [wshows]. split; [tauto|]. intros W. split; auto. intros (y & [<-|[]] & Y). auto.
Qed.
Lemma add_but bad s s' v i : st s -> in_step fk s i -> effect pk fk bad s (TAdd v) s' Throws -> but s' v i /\ In v (src s').
Proof.
  intros S (A & B) E. remember Throws as x0 eqn:Ex. remember (TAdd v) as o eqn:Eo.
  destruct E as [v0 z Iz Ez|v0 os l x s' Fr Ob U Tg Tw (SO & SW) So|v0 l x s' Fr Nk U Tw Tg SO SW So|k Ab|v0 z os l x s' Iv0 Iz Nz Ez Ob U Tg Tw (SO & SW) So
    |v0 l s' Iv0 La U Tw Tg (SO & SW) So|v0 os i0 s' Iv0 La Gw Ob Ii Bi|v0 os s' Iv0 La Ob G Tw Tg SO SW So|Em|l s' Ns U Tw Tg (SO & SW) So|i0 s' Ns Gw Oi Bi
    |l s' Ns Ol G Tw Tg SO SW So|i0 k os s' No Nw Ob Tg Sh Tw SO SW So|i0 s' No Nw Tw Sh Tg SO SW So|i0 s' Tg Tw Gi SO SW So]; try discriminate;
  injection Eo as ->; (split; [|apply So; auto]); split.
  - intros k o O I y Y. apply SO in O. unfold of_key. rewrite (So y). assert (X := A _ _ O I y). unfold of_key in X. destruct (told_in _ _ _ _ i Tg) as [(_ & E)|(_ & E)]; rewrite E; cbn [shows]; rewrite X; tauto.
  - intros I k _. rewrite SW in I. rewrite Tw, (B I). destruct (of_observe _ _ _ S Ob) as (g & _ & M & y & Y0). apply M in Y0 as (Y0 & Y1). split; intros (z & Z1 & Z2); [exists z; split; auto; apply So; auto|].
    apply So in Z1 as [->|Z1]; [exists y; split; auto; congruence|exists z; auto].
  - intros k o O I y Y. apply SO in O as [O|(-> & ->)]; [|destruct I]. rewrite Tg, (A _ _ O I y). unfold of_key. rewrite (So y). tauto.
  - intros I k H. rewrite SW in I. assert (Hk : k <> fk v). { destruct H as [|(y & Y1 & Y2 & Y3)]; auto. apply So in Y1 as [->|Y1]; [tauto|]. destruct Nk. exists y. auto. }
    assert (X : has_key fk (src s') k <-> has_key fk (src s) k). { split; intros (y & Y1 & Y2); exists y; split; auto; [apply So in Y1 as [->|Y1]; auto; congruence|apply So; auto]. }
    rewrite X, <- (B I k). destruct (told_in _ _ _ _ i Tw) as [(_ & E)|(_ & E)]; rewrite E; [|tauto]. cbn [wshows]. split; auto. intros [(y & [<-|[]] & Y)|]; auto. congruence.
Qed.
Lemma returns_but bad s s' v i : st s -> know s -> but s v i -> In v (src s) -> effect pk fk bad s (TErase (pk v)) s' Returns -> in_step fk s' i.
Proof.
  intros S K (A & B) Iv E. remember Returns as x0 eqn:Ex. remember (TErase (pk v)) as o eqn:Eo.
  destruct E as [v0 z Iz Ez|v0 os l x s' Fr Ob U Tg Tw (SO & SW) So|v0 l x s' Fr Nk U Tw Tg SO SW So|k Ab|v0 z os l x s' Iv0 Iz Nz Ez Ob U Tg Tw (SO & SW) So
    |v0 l s' Iv0 La U Tw Tg (SO & SW) So|v0 os i0 s' Iv0 La Gw Ob Ii Bi|v0 os s' Iv0 La Ob G Tw Tg SO SW So|Em|l s' Ns U Tw Tg (SO & SW) So|i0 s' Ns Gw Oi Bi
    |l s' Ns Ol G Tw Tg SO SW So|i0 k os s' No Nw Ob Tg Sh Tw SO SW So|i0 s' No Nw Tw Sh Tg SO SW So|i0 s' Tg Tw Gi SO SW So]; try discriminate;
  injection Eo as Eo; [subst k; destruct (Ab v Iv eq_refl)| |]; assert (v0 = v) as -> by (eapply pk_eq; eauto; apply (s_pk _ S)); clear Iv0 Eo.
  - apply thrown_returns in Ex. subst x. apply upto_good in U as (-> & _). split.
    + intros k o O I y. apply SO in O. unfold of_key. rewrite (So y). assert (X := A _ _ O I y). unfold of_key in X. destruct (told_in _ _ _ _ i Tg) as [(J & E)|(J & E)]; rewrite E; cbn [shows].
      * split; [intros (Y & H); apply X in H; tauto|intros ((Y1 & Y2) & Y3)]. assert (y <> v) by auto. split; auto. apply X; auto.
      * assert (Nk : k <> fk v) by (intros ->; rewrite (one_group _ _ _ _ S Ob O) in J; auto). split.
        -- intros H. destruct (k_group _ K _ _ H) as (k' & o' & O' & I' & Y1 & Y2). assert (k' = k) as -> by (eapply one_key; eauto). split; auto. split; auto. intros _ ->. auto.
        -- intros ((Y1 & Y2) & Y3). apply X; auto.
    + intros I k. rewrite SW in I. rewrite Tw, (B I k) by (right; exists z; auto). split; intros (y & Y1 & Y2); [|exists y; split; auto; apply So in Y1; tauto]. destruct (Z.eq_dec (pk y) (pk v)) as [E|E].
      * assert (y = v) as -> by (eapply pk_eq; eauto; apply (s_pk _ S)). exists z. split; [|congruence]. apply So. auto.
      * exists y. split; auto. apply So. split; auto. intros _ ->. auto.
  - split.
    + intros k o O I y. apply SO in O as (O & Nk). assert (J : ~ In i os) by (intros J; apply Nk; eapply one_key; eauto). destruct (told_in _ _ _ _ i Tg) as [(J' & E)|(_ & E)]; [tauto|]. rewrite E. unfold of_key. rewrite (So y).
      assert (X := A _ _ O I y). unfold of_key in X. split.
      * intros H. destruct (k_group _ K _ _ H) as (k' & o' & O' & I' & Y1 & Y2). assert (k' = k) as -> by (eapply one_key; eauto). split; auto. split; auto. intros ->. auto.
      * intros ((Y1 & Y2) & Y3). apply X; auto.
    + intros I k. rewrite SW in I. destruct (told_in _ _ _ _ i Tw) as [(_ & E)|(J & E)]; [|tauto]. rewrite E. cbn [wshows]. split.
      * intros (H & H'). assert (Nk : k <> fk v) by (intros ->; apply H; exists v; cbn; auto). apply (B I k) in H' as (y & Y1 & Y2); auto. exists y. split; auto. apply So. split; auto. intros ->. auto.
      * intros (y & Y1 & Y2). apply So in Y1 as (Y1 & Y3). assert (Nk : k <> fk v) by (intros ->; apply Y3; apply La; auto). split; [intros (z & [<-|[]] & Z2); auto|]. apply (B I k); auto. exists y. auto.
Qed.
Lemma erased_but v s s' i : erased pk fk v s s' -> reach s -> but s v i -> In v (src s) -> reach s' /\ in_step fk s' i.
Proof.
  intros H. induction H as [bad s s' E|bad s s1 s' E _ IH]; intros R B Iv; destruct (gthrow_effect bad (TErase (pk v)) s R I) as (s2 & x & E2 & F); rewrite E in E2; inversion E2; subst.
  - split; [eapply RS; [exact R| |exact E|discriminate]; exact I|]. eapply returns_but; eauto; [now apply reach_st|now apply reach_know].
  - destruct (throws_but bad s s2 v i) as (B' & Iv'); auto; [now apply reach_st|]. apply IH; auto. eapply RS; [exact R| |exact E|discriminate]. exact I.
Qed.
(** an erase that has thrown can be repeated: when it returns at last, every observer that was in step is in step, whoever was told twice; *)
Theorem gthrow_retry : forall s s' v i, reach s -> in_step fk s i -> In v (src s) -> erased pk fk v s s' -> in_step fk s' i.
Proof. intros s s' v i R St Iv E. eapply (erased_but v); eauto. now apply in_step_but. Qed.
(** and an insert that has thrown can be undone by that, *)
Theorem gthrow_undo : forall bad s s1 s' v i, reach s -> in_step fk s i -> tstep pk fk bad (TAdd v) s = Ok (s1, Throws) -> erased pk fk v s1 s' -> in_step fk s' i.
Proof.
  intros bad s s1 s' v i R St E F. destruct (gthrow_effect bad (TAdd v) s R I) as (s2 & x & E2 & G). rewrite E in E2. inversion E2; subst. destruct (add_but bad s s2 v i) as (B & Iv); auto; [now apply reach_st|].
  eapply (erased_but v); eauto. eapply RS; [exact R| |exact E|discriminate]. exact I.
Qed.
(** but not repeated: the element is there and nobody is told. *)
Theorem gthrow_again : forall bad bad' s s' v, reach s -> tstep pk fk bad (TAdd v) s = Ok (s', Throws) -> In v (src s') /\ tstep pk fk bad' (TAdd v) s' = Ok (s', Returns).
Proof.
  intros bad bad' s s' v R E. assert (Iv : In v (src s')).
  { cbn [tstep] in E. destruct (existsb _ (src s)); [discriminate|]. destruct (t_add pk fk bad v (fs s)) as [[f x]| |]; cbn in E; try discriminate. inversion E; subst. cbn. auto. }
  split; auto. cbn [tstep]. replace (existsb (fun y => Z.eqb (pk y) (pk v)) (src s')) with true; auto. symmetry. apply existsb_exists. exists v. split; auto. apply Z.eqb_refl.
Qed.
(** The program is terminated exactly if an observer of a group throws when the group is destroyed: with its last element, or by clear(), and
    no observer of the foreign_set has thrown before. *)
Theorem gthrow_terminates : forall bad o s s' x, reach s -> valid fk s o -> tstep pk fk bad o s = Ok (s', x) ->
  (x = Terminates <-> (forall j, In j (watch (fs s)) -> bad j = false) /\ exists i, bad i = true /\
    ((exists v os, o = TErase (pk v) /\ In v (src s) /\ (forall z, In z (src s) -> fk z = fk v -> z = v) /\ observe fk s (fk v) os /\ In i os) \/
     o = TClear /\ observes fk s i)).
Proof.
  intros bad o s s' x R V E. destruct (gthrow_effect bad o s R V) as (s2 & x2 & E2 & F). rewrite E in E2. injection E2 as <- <-. assert (S := reach_st _ R). assert (U0 := s_pk _ S).
  assert (UB : forall l d, upto bad l d true -> exists j, In j l /\ bad j = true).
  { intros l d U. inversion U as [|a j b A B]; subst. exists j. split; auto. apply in_or_app. cbn. auto. }
  split.
  - intros ->. remember Terminates as x0 eqn:Ex. destruct F as [| | | | | |v os i s' Iv La Gw Ob Ii Bi| | | |i s' Ns Gw Oi Bi| | | |]; try discriminate; try (destruct x; discriminate).
    + split; auto. exists i. split; auto. left. exists v, os. auto.
    + split; auto. exists i. auto.
  - intros (Gw & i & Bi & H).
    destruct F as [v0 z Iz Ez|v0 os l x s' Fr Ob U Tg Tw (SO & SW) So|v0 l x s' Fr Nk U Tw Tg SO SW So|k Ab|v0 z os l x s' Iv0 Iz Nz Ez Ob U Tg Tw (SO & SW) So
    |v0 l s' Iv0 La U Tw Tg (SO & SW) So|v0 os i0 s' Iv0 La Gw' Ob Ii Bi'|v0 os s' Iv0 La Ob G Tw Tg SO SW So|Em|l s' Ns U Tw Tg (SO & SW) So|i0 s' Ns Gw' Oi Bi'
    |l s' Ns Ol G Tw Tg SO SW So|i0 k os s' No Nw Ob Tg Sh Tw SO SW So|i0 s' No Nw Tw Sh Tg SO SW So|i0 s' Tg Tw Gi SO SW So]; auto; exfalso;
    destruct H as [(v & o' & Eo & Iv & Lv & Ov & Ii')|(Eo & Oi')]; try discriminate.
    + injection Eo as ->. apply (Ab v); auto.
    + injection Eo as Eo. assert (v0 = v) as -> by (eapply pk_eq; eauto). apply Nz. apply Lv; auto.
    + destruct (UB _ _ U) as (j & J1 & J2). rewrite (Gw j J1) in J2. discriminate.
    + injection Eo as Eo. assert (v0 = v) as -> by (eapply pk_eq; eauto). rewrite (one_group _ _ _ _ S Ov Ob) in Ii'. rewrite (G i) in Bi by auto. discriminate.
    + destruct Oi' as (k & o' & (g & I & _) & _). destruct (gthrow_contents _ R) as (_ & G). rewrite Em in G. cbn in G. apply map_eq_nil in G. rewrite G in I. destruct I.
    + destruct (UB _ _ U) as (j & J1 & J2). rewrite (Gw j J1) in J2. discriminate.
    + rewrite (G i) in Bi by (right; now apply Ol). discriminate.
Qed.
(** If none of those that are subscribed throws, every statement returns. *)
Theorem gthrow_quiet : forall bad o s, reach s -> valid fk s o -> (forall i, In i (watch (fs s)) \/ observes fk s i -> bad i = false) -> exists s', tstep pk fk bad o s = Ok (s', Returns).
Proof.
  intros bad o s R V Q. destruct (gthrow_effect bad o s R V) as (s' & x & E & F). exists s'. rewrite E. repeat f_equal.
  assert (UB : forall l d, upto bad l d true -> exists j, In j l /\ bad j = true).
  { intros l d U. inversion U as [|a j b A B]; subst. exists j. split; auto. apply in_or_app. cbn. auto. }
  destruct F as [v0 z Iz Ez|v0 os l x s' Fr Ob U Tg Tw (SO & SW) So|v0 l x s' Fr Nk U Tw Tg SO SW So|k Ab|v0 z os l x s' Iv0 Iz Nz Ez Ob U Tg Tw (SO & SW) So
    |v0 l s' Iv0 La U Tw Tg (SO & SW) So|v0 os i0 s' Iv0 La Gw' Ob Ii Bi'|v0 os s' Iv0 La Ob G Tw Tg SO SW So|Em|l s' Ns U Tw Tg (SO & SW) So|i0 s' Ns Gw' Oi Bi'
    |l s' Ns Ol G Tw Tg SO SW So|i0 k os s' No Nw Ob Tg Sh Tw SO SW So|i0 s' No Nw Tw Sh Tg SO SW So|i0 s' Tg Tw Gi SO SW So]; auto; try (destruct x; auto); exfalso.
  1,2,3,4,6: destruct (UB _ _ U) as (j & J1 & J2); rewrite (Q j) in J2; [discriminate|]; auto; right; exists (fk v0), os; auto.
  - rewrite (Q i0) in Bi'; [discriminate|]. right. exists (fk v0), os. auto.
  - rewrite (Q i0) in Bi'; [discriminate|]. auto.
Qed.
End Proofs.

(** Elements with the keys n and n mod 10.  The group of the key 2 has the observers 1 and 4, the foreign_set has 7 and 8. *)
Definition ids (x : Z) : Z := x.
Definition last_digit (x : Z) : Z := Z.modulo x 10.
Definition nobody (i : nat) : bool := false.
Definition only (k i : nat) : bool := Nat.eqb i k.
Fixpoint trun (l : list ((nat -> bool) * top (T := Z))) (s : tst (T := Z)) : res (tst (T := Z) * list fin) :=
  match l with
  | [] => Ok (s, [])
  | (b, o) :: r => let* (s', x) := tstep ids last_digit b o s in let* (s'', xs) := trun r s' in Ok (s'', x :: xs)
  end.
Definition start : list ((nat -> bool) * top (T := Z)) := map (fun o => (nobody, o)) [TAdd 12; TAdd 5; TObserve 1 2; TObserve 4 2; TWatch 7; TWatch 8]%Z.
Definition start_state : tst (T := Z) := match trun start tinit with Ok (s, _) => s | _ => tinit end.
Fixpoint ok_run (l : list ((nat -> bool) * top (T := Z))) (s : tst (T := Z)) : Prop :=
  match l with
  | [] => True
  | (b, o) :: r => valid last_digit s o /\ match tstep ids last_digit b o s with Ok (s', x) => x <> Terminates /\ ok_run r s' | _ => False end
  end.
Lemma run_reach : forall l s s' xs, reach ids last_digit s -> ok_run l s -> trun l s = Ok (s', xs) -> reach ids last_digit s'.
Proof.
  induction l as [|[b o] l IH]; intros s s' xs R V E; cbn in E; [inversion E; subst; auto|]. cbn in V. destruct V as (V & V'). destruct (tstep ids last_digit b o s) as [[s1 x]| |] eqn:E1; cbn in E; try discriminate.
  destruct (trun l s1) as [[s2 ys]| |] eqn:E2; cbn in E; try discriminate. inversion E; subst. destruct V'. apply (IH s1 s' ys); auto. eapply RS; eauto.
Qed.
Lemma start_reach : reach ids last_digit start_state.
Proof.
  apply (run_reach start tinit _ [Returns; Returns; Returns; Returns; Returns; Returns]); [apply R0| |reflexivity].
  cbn. repeat split; try discriminate; exists 12%Z; cbn; auto.
Qed.
(** An observer misses an element for good: the insertion has thrown before its turn, and it cannot be repeated. *)
Theorem gthrow_missed_refuted : exists s s' bad v i, reach ids last_digit s /\ in_step last_digit s i /\ tstep ids last_digit bad (TAdd v) s = Ok (s', Throws) /\
  tstep ids last_digit nobody (TAdd v) s' = Ok (s', Returns) /\ ~ in_step last_digit s' i.
Proof.
  exists start_state. eexists. exists (only 1), 22%Z, 4. split; [apply start_reach|]. split.
  - split; [|cbn; intuition discriminate]. intros k os (g & I & H) J z. cbn in I. destruct I as [I|[I|[]]]; inversion I; subst; [|destruct J].
    destruct H as (y & [<-|[]] & <-). cbn. unfold of_key. cbn. split; [intros [->|[]]; auto|intros ([<-|[<-|[]]] & E); auto; discriminate].
  - split; [reflexivity|]. split; [reflexivity|]. intros (A & _). specialize (A 2%Z [1; 4]). destruct (A (ex_intro _ _ (conj (or_introl eq_refl) (ex_intro _ 12%Z (conj (or_introl eq_refl) eq_refl)))) (or_intror (or_introl eq_refl)) 22%Z) as (_ & B).
    cbn in B. assert (X : of_key last_digit [22; 5; 12]%Z 2%Z 22%Z) by (split; cbn; auto). apply B in X. intuition discriminate.
Qed.
(** One exception of the observer of a group is thrown to the program, the same one at its last element terminates it. *)
Theorem gthrow_last_refuted : exists s s1 s2 s3 bad, reach ids last_digit s /\ tstep ids last_digit bad (TAdd 22%Z) s = Ok (s1, Throws) /\
  tstep ids last_digit bad (TErase 22%Z) s1 = Ok (s2, Throws) /\ tstep ids last_digit bad (TErase 12%Z) s = Ok (s3, Terminates).
Proof. exists start_state. do 3 eexists. exists (only 4). split; [apply start_reach|]. split; [reflexivity|]. split; reflexivity. Qed.

(** 4 throws when 22 comes, after 1; 7 throws when the group of 5 goes, before 8; the erasure is repeated. *)
Example ex_gthrow :
  match trun [(only 4, TAdd 22); (only 7, TErase 5); (nobody, TErase 5); (only 1, TErase 12); (only 9, TErase 12); (only 8, TClear); (nobody, TClear)]%Z start_state with
  | Ok (s, xs) => xs = [Throws; Throws; Returns; Throws; Returns; Throws; Returns] /\
      glog (fs s) 1 = [KClearing; KRemoving 12; KRemoving 12; KAdded 22; KAdded 12]%Z /\ glog (fs s) 4 = [KClearing; KRemoving 12; KAdded 22; KAdded 12]%Z /\
      wlog (fs s) 7 = [GClearing; GClearing; GRemoving [5]; GRemoving [5]; GAdded [5]; GAdded [12]]%Z /\ wlog (fs s) 8 = [GClearing; GClearing; GRemoving [5]; GAdded [5]; GAdded [12]]%Z /\
      src s = [] /\ grs (fs s) = []
  | _ => False
  end.
Proof. vm_compute. intuition. Qed.
