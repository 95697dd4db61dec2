(** Every step the specification allows is done by the list code, with the same result. *)
From Verif Require Import Common QListModel QListSpec QListProofs QListRel.
From Coq Require Import ZifyBool ZifyNat.

Lemma sim_mk m k e : Rel m (vw (lists e)) (elems e) -> NoDup (map fst (lists e)) -> counted (elems e) (born e) -> k = born e -> Sim (m, k) e.
Proof. unfold Sim. cbn. auto. Qed.

Lemma upd_out_unborn (el : nat -> where_) n : el n <> Unborn -> forall k, el k = Unborn -> upd el n Out k = Unborn.
Proof. intros H k Hk. unfold upd. destruct (Nat.eqb_spec k n); congruence. Qed.

Lemma addable_facts e n : addable e n = true -> elems e n <> Unborn /\ nowhere (vw (lists e)) n.
Proof.
  unfold addable. intros H. split; [intros X; rewrite X in H; discriminate|].
  apply member_out. destruct (elems e n); [discriminate| |]; destruct (member e n); auto; discriminate.
Qed.

Ltac sim_intro := intros (R & ND & Cn & Hk); cbn [fst snd] in *; subst.
Ltac on_list E := match goal with |- context [find_list ?ls ?l] => destruct (find_list ls l) as [?s|] eqn:E; [|discriminate] end.

Lemma sim_push_front m k e l n e' v : Sim (m, k) e -> sstep e (QPushFront l n) = Some (e', v) ->
  exists st', qstep (m, k) (QPushFront l n) = Ok (st', v) /\ Sim st' e'.
Proof.
  sim_intro. cbn [sstep]. on_list E. destruct (addable e n) eqn:Ha; [|discriminate]. intros [= <- <-].
  apply addable_facts in Ha as [Hn Hw].
  destruct (R_insert m _ _ l [] s n R E Hn Hw) as (l1 & p & q & l2 & E1 & E2 & (m' & I & R') & _).
  assert (p = Nl l) as -> by (apply (snoc_inj [] l1 (Nl l) p) in E1; symmetry; tauto).
  cbn [qstep]. unfold push_front. rewrite I. cbn [rbind]. eexists; split; [reflexivity|]. apply sim_mk; cbn [fst snd lists elems born with_elem with_lists]; auto.
  - eapply rel_ext; [|exact R']. intros l'. unfold vw. now rewrite (find_set _ _ _ s).
  - now rewrite set_names.
  - eapply counted_same; [exact Cn|]. now apply upd_out_unborn.
Qed.

Lemma sim_push_back m k e l n e' v : Sim (m, k) e -> sstep e (QPushBack l n) = Some (e', v) ->
  exists st', qstep (m, k) (QPushBack l n) = Ok (st', v) /\ Sim st' e'.
Proof.
  sim_intro. cbn [sstep]. on_list E. destruct (addable e n) eqn:Ha; [|discriminate]. intros [= <- <-].
  apply addable_facts in Ha as [Hn Hw].
  destruct (R_insert m _ _ l s [] n R) as (l1 & p & q & l2 & E1 & E2 & _ & (m' & I & R')); auto; [rewrite app_nil_r; auto|].
  cbn in E2. injection E2 as <- _.
  cbn [qstep]. unfold push_back. rewrite I. cbn [rbind]. eexists; split; [reflexivity|]. apply sim_mk; cbn [fst snd lists elems born with_elem with_lists]; auto.
  - eapply rel_ext; [|exact R']. intros l'. unfold vw. now rewrite (find_set _ _ _ s).
  - now rewrite set_names.
  - eapply counted_same; [exact Cn|]. now apply upd_out_unborn.
Qed.

Lemma sim_insert_after m k e p n e' v : Sim (m, k) e -> sstep e (QInsertAfter p n) = Some (e', v) ->
  exists st', qstep (m, k) (QInsertAfter p n) = Ok (st', v) /\ Sim st' e'.
Proof.
  sim_intro. cbn [sstep]. destruct (member e p) eqn:Hp; [|discriminate]. destruct (addable e n) eqn:Ha; [|discriminate]. intros [= <- <-].
  apply addable_facts in Ha as [Hn Hw]. apply member_in in Hp as (l & s1 & s2 & E); auto.
  destruct (R_insert m _ _ l (s1 ++ [p]) s2 n R) as (l1 & p' & q & l2 & E1 & E2 & (m' & I & R') & _); auto; [rewrite <- app_assoc; auto|].
  assert (p' = El p) as ->.
  { rewrite map_app in E1. cbn [map] in E1. apply (snoc_inj (Nl l :: map El s1) l1 (El p) p') in E1. symmetry; tauto. }
  cbn [qstep]. rewrite I. cbn [rbind]. eexists; split; [reflexivity|]. apply sim_mk; cbn [fst snd lists elems born with_elem with_lists]; auto.
  - eapply rel_ext; [|exact R']. eapply edit_one; [exact R|exact E| |apply after_id]. intros. now apply after_mid.
  - now rewrite edit_names.
  - eapply counted_same; [exact Cn|]. now apply upd_out_unborn.
Qed.

Lemma sim_insert_before m k e p n e' v : Sim (m, k) e -> sstep e (QInsertBefore p n) = Some (e', v) ->
  exists st', qstep (m, k) (QInsertBefore p n) = Ok (st', v) /\ Sim st' e'.
Proof.
  sim_intro. cbn [sstep]. destruct (member e p) eqn:Hp; [|discriminate]. destruct (addable e n) eqn:Ha; [|discriminate]. intros [= <- <-].
  apply addable_facts in Ha as [Hn Hw]. apply member_in in Hp as (l & s1 & s2 & E); auto.
  destruct (R_insert m _ _ l s1 (p :: s2) n R E Hn Hw) as (l1 & p' & q & l2 & E1 & E2 & _ & (m' & I & R')).
  cbn in E2. injection E2 as <- _.
  cbn [qstep]. rewrite I. cbn [rbind]. eexists; split; [reflexivity|]. apply sim_mk; cbn [fst snd lists elems born with_elem with_lists]; auto.
  - eapply rel_ext; [|exact R']. eapply edit_one; [exact R|exact E| |apply before_id]. intros. now apply before_mid.
  - now rewrite edit_names.
  - eapply counted_same; [exact Cn|]. now apply upd_out_unborn.
Qed.

Lemma sim_exclude m k e n e' v : Sim (m, k) e -> sstep e (QExclude n) = Some (e', v) ->
  exists st', qstep (m, k) (QExclude n) = Ok (st', v) /\ Sim st' e'.
Proof.
  sim_intro. cbn [sstep]. destruct (member e n) eqn:Hp; [|discriminate]. intros [= <- <-].
  apply member_in in Hp as (l & s1 & s2 & E); auto.
  destruct (R_exclude _ _ _ _ _ _ _ R E) as (m' & l1 & p & _ & _ & Ex & R' & _).
  cbn [qstep]. rewrite Ex. cbn [rbind]. eexists; split; [reflexivity|]. apply sim_mk; cbn [fst snd lists elems born with_elem with_lists]; auto.
  - eapply rel_ext; [|exact R']. eapply edit_one; [exact R|exact E| |apply without_id]. intros. now apply without_mid.
  - now rewrite edit_names.
Qed.

Lemma sim_safe_exclude m k e n e' v : Sim (m, k) e -> sstep e (QSafeExclude n) = Some (e', v) ->
  exists st', qstep (m, k) (QSafeExclude n) = Ok (st', v) /\ Sim st' e'.
Proof.
  intros S. cbn [sstep]. destruct (elems e n) eqn:Hn; try discriminate. intros [= <- <-].
  destruct (member e n) eqn:Hp.
  - destruct (sim_exclude m k e n (with_lists e (edit (without n) (lists e))) VUnit S) as (st' & Q & S').
    { cbn [sstep]. now rewrite Hp. }
    exists st'. split; [|auto]. destruct S as (R & ND & _). cbn [fst] in R. apply member_in in Hp as (l & s1 & s2 & E); auto.
    cbn [qstep] in *. unfold safe_exclude. rewrite (included_in _ _ _ l (s1 ++ n :: s2) n R E) by (rewrite in_app_iff; cbn; auto).
    cbn [rbind]. exact Q.
  - destruct S as (R & ND & Cn & Hk). cbn [fst snd] in *. subst. apply member_out in Hp.
    cbn [qstep]. unfold safe_exclude. rewrite (included_out _ _ _ n R) by auto. cbn [rbind].
    eexists; split; [reflexivity|]. apply sim_mk; cbn [fst snd lists elems born with_elem with_lists]; auto.
    + eapply rel_ext; [|exact R]. apply edit_none with n; [auto|apply without_id].
    + now rewrite edit_names.
Qed.

Lemma sim_pop_front m k e l e' v : Sim (m, k) e -> sstep e (QPopFront l) = Some (e', v) ->
  exists st', qstep (m, k) (QPopFront l) = Ok (st', v) /\ Sim st' e'.
Proof.
  sim_intro. cbn [sstep]. on_list E. destruct s as [|n s]; [discriminate|]. intros [= <- <-].
  pose proof (r_circ _ _ _ R _ _ E) as C.
  destruct (R_exclude _ _ _ l [] n s R E) as (m' & l1 & p & _ & _ & Ex & R' & _).
  cbn [qstep]. unfold pop_front. rewrite (front_ok _ _ _ _ C). cbn [rbind]. rewrite Ex. cbn [rbind].
  eexists; split; [reflexivity|]. apply sim_mk; cbn [fst snd lists elems born with_elem with_lists]; auto.
  - eapply rel_ext; [|exact R']. intros l'. unfold vw. now rewrite (find_set _ _ _ (n :: s)).
  - now rewrite set_names.
Qed.

Lemma sim_pop_back m k e l e' v : Sim (m, k) e -> sstep e (QPopBack l) = Some (e', v) ->
  exists st', qstep (m, k) (QPopBack l) = Ok (st', v) /\ Sim st' e'.
Proof.
  sim_intro. cbn [sstep]. on_list E. destruct (rev s) as [|n r] eqn:Er; [discriminate|]. intros [= <- <-].
  apply (f_equal (@rev nat)) in Er. rewrite rev_involutive in Er. cbn in Er. subst s.
  pose proof (r_circ _ _ _ R _ _ E) as C.
  destruct (R_exclude _ _ _ l (rev r) n [] R E) as (m' & l1 & p & _ & _ & Ex & R' & _). rewrite app_nil_r in R'.
  cbn [qstep]. unfold pop_back. rewrite (back_ok _ _ _ _ C). cbn [rbind]. rewrite Ex. cbn [rbind].
  eexists; split; [reflexivity|]. apply sim_mk; cbn [fst snd lists elems born with_elem with_lists]; auto.
  - eapply rel_ext; [|exact R']. intros l'. unfold vw. now rewrite (find_set _ _ _ (rev r ++ [n])).
  - now rewrite set_names.
Qed.

Lemma sim_clear m k e l e' v : Sim (m, k) e -> sstep e (QClear l) = Some (e', v) ->
  exists st', qstep (m, k) (QClear l) = Ok (st', v) /\ Sim st' e'.
Proof.
  sim_intro. cbn [sstep]. on_list E. intros [= <- <-].
  destruct (R_clear _ _ _ _ _ R E) as (m' & Ec & R').
  cbn [qstep]. rewrite Ec. cbn [rbind]. eexists; split; [reflexivity|].
  destruct (lose_lists s (with_lists e (set_list (lists e) l []))) as [L1 L2].
  apply sim_mk; cbn [fst snd]; rewrite ?L1, ?L2; cbn [lists born elems with_lists]; auto.
  - eapply rel_ext; [|eapply rel_el; [|exact R']].
    + intros l'. unfold vw. now rewrite (find_set _ _ _ s).
    + intros n. now rewrite lose_elems.
  - now rewrite set_names.
  - eapply counted_same; [exact Cn|]. intros n Hn. rewrite lose_elems. cbn. destruct (mem_of n s) eqn:Em; [|auto].
    apply mem_of_in in Em. rewrite (r_out _ _ _ R _ _ _ E Em) in Hn. discriminate.
Qed.

Lemma updv_triv (g : view) l s : g l = Some s -> forall l', updv g l s l' = g l'.
Proof. intros H l'. unfold updv, upd. destruct (Nat.eqb_spec l' l); congruence. Qed.

Lemma upd2_front ls src l t s u : find_list ls l = Some t -> find_list ls src = Some s -> l <> src ->
  forall l', find_list (set_list (set_list ls src []) l u) l' = updv (updv (vw ls) src []) l u l'.
Proof.
  intros E1 E2 N l'. rewrite (find_set _ _ _ t). 2:{ rewrite (find_set _ _ _ s) by auto. now rewrite updv_neq. }
  destruct (Nat.eq_dec l' l) as [->|N1]; [now rewrite !updv_eq|]. rewrite !(updv_neq _ l) by auto. unfold vw. now rewrite (find_set _ _ _ s).
Qed.

Lemma hd_gap l t : exists l2, map El t ++ [Nl l] = hd (Nl l) (map El t) :: l2.
Proof. destruct t; cbn; eauto. Qed.
Lemma last_gap l t : exists l1, Nl l :: map El t = l1 ++ [last (map El t) (Nl l)].
Proof. destruct t as [|x t _] using rev_ind; [exists []; reflexivity|]. rewrite map_app. cbn [map]. rewrite last_last. exists (Nl l :: map El t). reflexivity. Qed.

Lemma sim_splice_front m k e l src e' v : Sim (m, k) e -> sstep e (QSpliceFront l src) = Some (e', v) ->
  exists st', qstep (m, k) (QSpliceFront l src) = Ok (st', v) /\ Sim st' e'.
Proof.
  sim_intro. cbn [sstep]. destruct (find_list (lists e) l) as [t|] eqn:E; [|discriminate].
  destruct (find_list (lists e) src) as [s|] eqn:Es; [|discriminate]. destruct (Nat.eqb_spec l src) as [|Hne]; [discriminate|]. intros [= <- <-].
  pose proof (r_circ _ _ _ R _ _ E) as Ct. pose proof (r_circ _ _ _ R _ _ Es) as Cs.
  assert (exists m', splice_front m l src = Ok m' /\ Rel m' (updv (updv (vw (lists e)) src []) l (s ++ t)) (elems e)) as (m' & Sp & R').
  { destruct s as [|n s].
    - exists m. unfold splice_front. rewrite (empty_ok m src []) by auto. cbn [rbind length Nat.eqb]. split; [reflexivity|].
      eapply rel_ext; [|exact R]. intros l'. cbn [app]. rewrite updv_triv; [now apply updv_triv|]. now rewrite updv_neq.
    - destruct (splice_front_ok m l src t (n :: s)) as (m' & Ex & Sp); auto; [discriminate| |].
      { intros x X Y. apply Hne. eapply (r_dj _ _ _ R); eauto. }
      exists m'. split; [auto|]. destruct (hd_gap l t) as [l2 E2].
      eapply (R_splice m m' (vw (lists e)) _ (elems e) l src [] t (n :: s) [] (Nl l) (hd (Nl l) (map El t)) l2); auto; try discriminate.
      + exact I.
      + unfold circ in Ct. rewrite E2 in Ct. apply chain_cons in Ct; destruct Ct as [_ Ct]; exact Ct. }
  cbn [qstep]. rewrite Sp. cbn [rbind]. eexists; split; [reflexivity|]. apply sim_mk; cbn [fst snd lists elems born with_elem with_lists]; auto.
  - eapply rel_ext; [|exact R']. eapply upd2_front; eauto.
  - now rewrite !set_names.
Qed.

Lemma sim_splice_back m k e l src e' v : Sim (m, k) e -> sstep e (QSpliceBack l src) = Some (e', v) ->
  exists st', qstep (m, k) (QSpliceBack l src) = Ok (st', v) /\ Sim st' e'.
Proof.
  sim_intro. cbn [sstep]. destruct (find_list (lists e) l) as [t|] eqn:E; [|discriminate].
  destruct (find_list (lists e) src) as [s|] eqn:Es; [|discriminate]. destruct (Nat.eqb_spec l src) as [|Hne]; [discriminate|]. intros [= <- <-].
  pose proof (r_circ _ _ _ R _ _ E) as Ct. pose proof (r_circ _ _ _ R _ _ Es) as Cs.
  assert (exists m', splice_back m l src = Ok m' /\ Rel m' (updv (updv (vw (lists e)) src []) l (t ++ s)) (elems e)) as (m' & Sp & R').
  { destruct s as [|n s].
    - exists m. unfold splice_back. rewrite (empty_ok m src []) by auto. cbn [rbind length Nat.eqb]. split; [reflexivity|].
      eapply rel_ext; [|exact R]. intros l'. rewrite app_nil_r. rewrite updv_triv; [now apply updv_triv|]. now rewrite updv_neq.
    - destruct (splice_back_ok m l src t (n :: s)) as (m' & Ex & Sp); auto; [discriminate| |].
      { intros x X Y. apply Hne. eapply (r_dj _ _ _ R); eauto. }
      exists m'. split; [auto|]. destruct (last_gap l t) as [l1 E1].
      eapply (R_splice m m' (vw (lists e)) _ (elems e) l src t [] (n :: s) l1 (last (map El t) (Nl l)) (Nl l) []); auto; try discriminate.
      + left. now rewrite app_nil_r.
      + unfold circ in Ct. rewrite app_comm_cons, E1, <- app_assoc in Ct. apply (chain_mid m l1 _ (Nl l) []) in Ct; destruct Ct as [Ct _]; exact Ct.
      + exact I.
      + intros l'. now rewrite app_nil_r. }
  cbn [qstep]. rewrite Sp. cbn [rbind]. eexists; split; [reflexivity|]. apply sim_mk; cbn [fst snd lists elems born with_elem with_lists]; auto.
  - eapply rel_ext; [|exact R']. eapply upd2_front; eauto.
  - now rewrite !set_names.
Qed.

Lemma sim_new_elem m k e n e' v : Sim (m, k) e -> sstep e (QNewElem n) = Some (e', v) ->
  exists st', qstep (m, k) (QNewElem n) = Ok (st', v) /\ Sim st' e'.
Proof.
  sim_intro. cbn [sstep]. destruct (elems e n) eqn:Hn; try discriminate. intros [= <- <-].
  cbn [qstep]. eexists; split; [reflexivity|]. apply sim_mk; cbn [lists elems born]; auto.
  - now apply R_new_elem.
  - now apply counted_new.
Qed.

Lemma sim_new_list m k e l e' v : Sim (m, k) e -> sstep e (QNewList l) = Some (e', v) ->
  exists st', qstep (m, k) (QNewList l) = Ok (st', v) /\ Sim st' e'.
Proof.
  sim_intro. cbn [sstep]. destruct (find_list (lists e) l) eqn:E; [discriminate|]. intros [= <- <-].
  cbn [qstep]. eexists; split; [reflexivity|]. apply sim_mk; cbn [lists elems born with_lists]; auto.
  - eapply rel_ext; [|apply R_new_list; [exact R|exact E]]. intros l'. unfold vw, updv, upd. cbn. now rewrite (Nat.eqb_sym l' l).
  - cbn. constructor; [now apply find_none|auto].
Qed.

(** attach to a list that is empty or under construction *)
Lemma R_attach m g el l src s : Rel m g el -> l <> src -> g src = Some s -> alive m (Nl l) -> g l = None \/ g l = Some [] ->
  exists m', attach m l src = Ok m' /\ Rel m' (updv (updv g src []) l s) el.
Proof.
  intros R Hne Es Al Hl. pose proof (r_circ _ _ _ R _ _ Es) as Cs. destruct s as [|n s].
  - unfold attach. rewrite (empty_ok m src []) by auto. cbn [rbind length Nat.eqb].
    destruct (clear_ok m l Al) as (m' & Ec & F & B & L). exists m'. split; [auto|].
    assert (K : forall l', l' <> l -> updv (updv g src []) l [] l' = g l').
    { intros l' X. rewrite updv_neq by auto. now apply updv_triv. }
    constructor.
    + intros l' s' H. destruct (Nat.eq_dec l' l) as [->|N].
      * rewrite updv_eq in H. injection H as <-. cbn. split; [|exact I]. split; [rewrite F, ifa_eq; auto|rewrite B, ifa_eq; auto].
      * rewrite K in H by auto. eapply circ_other; [eapply (r_circ _ _ _ R); eauto|]. intros x Hx.
        rewrite F, B, !ifa_neq; auto; destruct Hx as [->|(k & _ & ->)]; congruence.
    + intros l' s' H. destruct (Nat.eq_dec l' l) as [->|N]; [rewrite updv_eq in H; injection H as <-; constructor|].
      rewrite K in H by auto. eapply (r_nd _ _ _ R); eauto.
    + intros la lb sa sb k Ha Hb Hka Hkb.
      destruct (Nat.eq_dec la l) as [->|Na]; [rewrite updv_eq in Ha; injection Ha as <-; destruct Hka|].
      destruct (Nat.eq_dec lb l) as [->|Nb]; [rewrite updv_eq in Hb; injection Hb as <-; destruct Hkb|].
      rewrite K in Ha, Hb by auto. eapply (r_dj _ _ _ R); eauto.
    + intros k Hk. apply L. now apply (r_alive _ _ _ R).
    + intros l' s' k H Hk. destruct (Nat.eq_dec l' l) as [->|N]; [rewrite updv_eq in H; injection H as <-; destruct Hk|].
      rewrite K in H by auto. eapply (r_out _ _ _ R); eauto.
    + intros k Hk Hw. rewrite F, B, !ifa_neq by discriminate. apply (r_free _ _ _ R); auto. intros l' s' H X.
      destruct (Nat.eq_dec l' l) as [->|N].
      * destruct Hl as [Hl|Hl]; rewrite Hl in H; [discriminate|]. injection H as <-. destruct X.
      * eapply (Hw l' s'); [now rewrite K|auto].
  - destruct (attach_ok m l src (n :: s)) as (m' & Ea & Sp); auto; [discriminate|]. exists m'. split; [auto|].
    eapply (R_splice m m' g _ el l src [] [] (n :: s) [] (Nl l) (Nl l) []); auto; try discriminate.
    + cbn. tauto.
    + exact I.
    + exact I.
    + intros l'. cbn [app]. now rewrite app_nil_r.
Qed.

Lemma sim_move_list m k e l src e' v : Sim (m, k) e -> sstep e (QMoveList l src) = Some (e', v) ->
  exists st', qstep (m, k) (QMoveList l src) = Ok (st', v) /\ Sim st' e'.
Proof.
  sim_intro. cbn [sstep]. destruct (find_list (lists e) src) as [s|] eqn:Es; [|discriminate].
  destruct (find_list (lists e) l) eqn:E; [discriminate|]. intros [= <- <-].
  assert (Hne : l <> src) by congruence.
  destruct (R_attach (put m (Nl l) {| nx := None; pv := None |}) (vw (lists e)) (elems e) l src s) as (m' & Ea & R'); auto.
  { now apply R_put_null. }
  { apply put_alive. auto. }
  cbn [qstep]. unfold list_move_ctor. rewrite Ea. cbn [rbind].
  eexists; split; [reflexivity|]. apply sim_mk; cbn [lists elems born with_lists]; auto.
  - eapply rel_ext; [|exact R']. intros l'. unfold vw. cbn [find_list]. destruct (Nat.eqb_spec l l') as [<-|N]; [now rewrite updv_eq|].
    rewrite (updv_neq _ l) by auto. now rewrite (find_set _ _ _ s).
  - cbn [map fst]. rewrite set_names. constructor; [now apply find_none|auto].
Qed.

Lemma sim_move_assign m k e l src e' v : Sim (m, k) e -> sstep e (QMoveAssign l src) = Some (e', v) ->
  exists st', qstep (m, k) (QMoveAssign l src) = Ok (st', v) /\ Sim st' e'.
Proof.
  sim_intro. cbn [sstep]. destruct (find_list (lists e) l) as [t|] eqn:E; [|discriminate].
  destruct (find_list (lists e) src) as [s|] eqn:Es; [|discriminate]. cbn [qstep]. unfold list_move_assign.
  destruct (Nat.eqb_spec l src) as [|Hne].
  - intros [= <- <-]. eexists; split; [reflexivity|]. now apply sim_mk.
  - destruct t; [|discriminate]. intros [= <- <-]. pose proof (r_circ _ _ _ R _ _ E) as C.
    rewrite (empty_ok m l []) by auto. cbn [rbind length Nat.eqb guard].
    destruct (R_attach m (vw (lists e)) (elems e) l src s) as (m' & Ea & R'); auto.
    { eapply circ_null_alive; eauto. }
    rewrite Ea. cbn [rbind]. eexists; split; [reflexivity|]. apply sim_mk; cbn [lists elems born with_lists]; auto.
    + eapply rel_ext; [|exact R']. eapply upd2_front; eauto.
    + now rewrite !set_names.
Qed.

Lemma sim_move_elem m k e n o e' v : Sim (m, k) e -> sstep e (QMoveElem n o) = Some (e', v) ->
  exists st', qstep (m, k) (QMoveElem n o) = Ok (st', v) /\ Sim st' e'.
Proof.
  sim_intro. cbn [sstep]. destruct (elems e n) eqn:Hn; try discriminate. destruct (elems e o) eqn:Ho; try discriminate. intros [= <- <-].
  assert (Hno : n <> o) by congruence.
  pose proof (R_new_elem _ _ _ n R Hn) as R1.
  assert (Hw : nowhere (vw (lists e)) n) by (intros l s H X; rewrite (r_out _ _ _ R _ _ _ H X) in Hn; discriminate).
  cbn [qstep]. unfold link_move_ctor. destruct (member e o) eqn:Hm.
  - apply member_in in Hm as (l & s1 & s2 & E); auto.
    destruct (R_reinsert _ _ _ l s1 o s2 n R1 E) as (m' & Er & R'); auto; [rewrite upd_eq; discriminate|].
    rewrite Er. cbn [rbind]. eexists; split; [reflexivity|]. apply sim_mk; cbn [lists elems born]; auto.
    + eapply rel_ext; [|eapply rel_el; [|exact R']].
      * eapply edit_one; [exact R|exact E| |apply replace_id]. intros. now apply replace_mid.
      * intros x. unfold upd. destruct (Nat.eqb x n); reflexivity.
    + now rewrite edit_names.
    + now apply counted_new.
  - apply member_out in Hm. unfold reinsert. rewrite (included_out _ _ _ o R1) by (auto; rewrite upd_neq; auto). cbn [rbind].
    eexists; split; [reflexivity|]. apply sim_mk; cbn [lists elems born]; auto.
    + eapply rel_ext; [|exact R1]. apply edit_none with o; [auto|apply replace_id].
    + now rewrite edit_names.
    + now apply counted_new.
Qed.

(** The element is taken out of its list (if any) and then takes the place of the other. *)
Lemma sim_assign_elem m k e n o e' v : Sim (m, k) e -> sstep e (QAssignElem n o) = Some (e', v) ->
  exists st', qstep (m, k) (QAssignElem n o) = Ok (st', v) /\ Sim st' e'.
Proof.
  intros S. cbn [sstep]. destruct (elems e n) eqn:Hn; try discriminate. destruct (elems e o) eqn:Ho; try discriminate. intros [= <- <-].
  destruct (sim_safe_exclude m k e n (with_lists e (edit (without n) (lists e))) VUnit S) as ((m1 & k1) & Q & S1).
  { cbn [sstep]. now rewrite Hn. }
  assert (Q' : safe_exclude m (El n) = Ok m1 /\ k1 = k).
  { cbn [qstep] in Q. destruct (safe_exclude m (El n)) as [x| |]; cbn [rbind] in Q; try discriminate. injection Q as <- <-. auto. }
  clear Q S. destruct Q' as [Q ->]. destruct S1 as (R & ND & Cn & Hk). cbn [fst snd lists elems born with_lists] in *. subst.
  remember (edit (without n) (lists e)) as ls eqn:Els.
  assert (Hw : nowhere (vw ls) n).
  { intros l s. unfold vw. subst ls. rewrite find_edit. destruct (find_list (lists e) l); cbn; [|discriminate]. intros [= <-].
    unfold without. rewrite filter_In, Nat.eqb_refl. cbn. intros [_ X]. discriminate. }
  assert (Ee : edit (fun s => replace_ o n (without n s)) (lists e) = edit (replace_ o n) ls).
  { subst ls. unfold edit. rewrite map_map. reflexivity. }
  cbn [qstep]. unfold link_move_assign. rewrite Q. cbn [rbind]. rewrite Ee. clear Els Ee Q.
  destruct (member (with_lists e ls) o) eqn:Hm.
  - apply member_in in Hm as (l & s1 & s2 & E); auto. cbn [lists with_lists] in E.
    assert (Hno : n <> o) by (intros ->; apply (Hw _ _ E); rewrite in_app_iff; cbn; auto).
    destruct (R_reinsert _ _ _ l s1 o s2 n R E) as (m' & Er & R'); auto; [congruence|].
    rewrite Er. cbn [rbind]. eexists; split; [reflexivity|]. apply sim_mk; cbn [lists elems born with_lists]; auto.
    + eapply rel_ext; [|eapply rel_el; [|exact R']].
      * eapply edit_one; [exact R|exact E| |apply replace_id]. intros. now apply replace_mid.
      * intros x. unfold upd. destruct (Nat.eqb_spec x n); congruence.
    + now rewrite edit_names.
  - apply member_out in Hm. cbn [lists with_lists] in Hm. unfold reinsert. rewrite (included_out _ _ _ o R) by auto. cbn [rbind].
    eexists; split; [reflexivity|]. apply sim_mk; cbn [lists elems born with_lists]; auto.
    + eapply rel_ext; [|exact R]. apply edit_none with o; [auto|apply replace_id].
    + now rewrite edit_names.
Qed.

Lemma sim_observe m k e o e' v :
  match o with QFront _ | QBack _ | QEmpty _ | QOne _ | QEmptyOrOne _ | QSize _ | QIter _ | QRIter _ | QIncluded _ => True | _ => False end ->
  Sim (m, k) e -> sstep e o = Some (e', v) -> exists st', qstep (m, k) o = Ok (st', v) /\ Sim st' e'.
Proof.
  intros Ho Si. pose proof Si as (R & ND & Cn & Hk). cbn [fst snd] in *. subst k.
  assert (B : forall l s, find_list (lists e) l = Some s -> length s < S (born e)) by (intros; eapply size_bound; eauto).
  assert (C : forall l s, find_list (lists e) l = Some s -> circ m (Nl l) (map El s)) by (intros; apply (r_circ _ _ _ R); auto).
  destruct o; try destruct Ho; cbn [sstep qstep]; try (destruct (find_list (lists e) l) as [s|] eqn:E; [|discriminate]; specialize (B _ _ E); specialize (C _ _ E)).
  - destruct s as [|n s]; [discriminate|]. intros [= <- <-]. rewrite (front_ok _ _ _ _ C). cbn [rbind]. eauto.
  - destruct (rev s) as [|n r] eqn:Er; [discriminate|]. intros [= <- <-].
    apply (f_equal (@rev nat)) in Er. rewrite rev_involutive in Er. cbn in Er. subst s.
    rewrite (back_ok _ _ _ _ C). cbn [rbind]. eauto.
  - intros [= <- <-]. rewrite (empty_ok _ _ _ C). cbn [rbind]. eauto.
  - intros [= <- <-]. rewrite (one_ok _ _ _ C). cbn [rbind]. eauto.
  - intros [= <- <-]. rewrite (empty_or_one_ok _ _ _ C). cbn [rbind]. eauto.
  - intros [= <- <-]. unfold size. rewrite (iterate_ok _ _ _ _ C) by auto. cbn [rbind]. eauto.
  - intros [= <- <-]. rewrite (iterate_ok _ _ _ _ C) by auto. cbn [rbind]. eauto.
  - intros [= <- <-]. rewrite (riterate_ok _ _ _ _ C) by auto. cbn [rbind]. eauto.
  - destruct (elems e n) eqn:Hn; try discriminate. intros [= <- <-]. destruct (member e n) eqn:Hm.
    + apply member_in in Hm as (l & s1 & s2 & E); auto.
      rewrite (included_in _ _ _ l (s1 ++ n :: s2) n R E) by (rewrite in_app_iff; cbn; auto). cbn [rbind]. eauto.
    + apply member_out in Hm. rewrite (included_out _ _ _ n R) by auto. cbn [rbind]. eauto.
Qed.

Theorem sim_step st e o e' v : Sim st e -> sstep e o = Some (e', v) -> exists st', qstep st o = Ok (st', v) /\ Sim st' e'.
Proof.
  destruct st as [m k]. intros S H. destruct o.
  - eapply sim_new_elem; eauto.
  - eapply sim_new_list; eauto.
  - eapply sim_move_list; eauto.
  - eapply sim_move_assign; eauto.
  - eapply sim_push_front; eauto.
  - eapply sim_push_back; eauto.
  - eapply sim_insert_after; eauto.
  - eapply sim_insert_before; eauto.
  - eapply sim_exclude; eauto.
  - eapply sim_safe_exclude; eauto.
  - eapply sim_pop_front; eauto.
  - eapply sim_pop_back; eauto.
  - eapply sim_splice_front; eauto.
  - eapply sim_splice_back; eauto.
  - eapply sim_clear; eauto.
  - eapply sim_move_elem; eauto.
  - eapply sim_assign_elem; eauto.
  - eapply sim_observe; eauto; exact I.
  - eapply sim_observe; eauto; exact I.
  - eapply sim_observe; eauto; exact I.
  - eapply sim_observe; eauto; exact I.
  - eapply sim_observe; eauto; exact I.
  - eapply sim_observe; eauto; exact I.
  - eapply sim_observe; eauto; exact I.
  - eapply sim_observe; eauto; exact I.
  - eapply sim_observe; eauto; exact I.
Qed.

Lemma sim_init : Sim qinit sinit.
Proof.
  apply sim_mk; cbn.
  - constructor; try discriminate. intros n H. congruence.
  - constructor.
  - exists []. split; [reflexivity|]. intros n H. congruence.
  - reflexivity.
Qed.

Lemma sim_run os : forall st e e' vs, Sim st e -> srun e os = Some (e', vs) -> qrun st os = Ok vs.
Proof.
  induction os as [|o os IH]; cbn [srun qrun]; intros st e e' vs S H; [congruence|].
  destruct (sstep e o) as [[e1 v]|] eqn:E; [|discriminate]. destruct (srun e1 os) as [[e2 vs']|] eqn:E2; [|discriminate].
  injection H as <- <-. destruct (sim_step _ _ _ _ _ S E) as (st1 & -> & S1). cbn [rbind]. now rewrite (IH _ _ _ _ S1 E2).
Qed.
