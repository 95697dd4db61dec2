(** Properties of observable_set, mirror_set and foreign_set (C22, C23). *)
From Coq Require Import Sorting.Sorted Sorting.Permutation ZifyBool.
From Verif Require Import Common VSetSpec ObsSetModel ObsSetSpec ObsSetProofs.

Section Props.
Context {T : Type} (pk fk : T -> Z).
Notation oop := (oop (T := T)).
Notation orun := (orun pk fk).
Notation srun := (srun pk fk).

Definition no_sets : oenv (T := T) := fun _ => None.
Definition sno_sets : senv (T := T) := fun _ => None.
Definition orders_ok (os : list oop) : Prop := forall o, In o os -> op_orders o strict_weak.

(** Every program over observable sets, mirrors of them, mirrors of mirrors and foreign
    sets, whose comparators are strict weak orders and whose preconditions hold in the
    specification, runs without throwing and without undefined behaviour, and every
    iteration over a set, a mirror or a foreign set shows what the specification
    computes from the bag of elements in the source. *)
Theorem observable_sets_refine_bags : forall os se vs, orders_ok os ->
  srun sno_sets os = Some (se, vs) -> orun no_sets os = Ok vs.
Proof. intros os se vs W H. eapply run_sim; [|exact W|exact H]. intros i. exact I. Qed.

Lemma srun_app os1 : forall e os2, srun e (os1 ++ os2) =
  match srun e os1 with
  | Some (e1, vs1) => match srun e1 os2 with Some (e2, vs2) => Some (e2, vs1 ++ vs2) | None => None end
  | None => None
  end.
Proof.
  induction os1 as [|o os1 IH]; intros e os2; cbn [app ObsSetSpec.srun].
  - destruct (srun e os2) as [[? ?]|]; reflexivity.
  - destruct (sstep pk fk e o) as [[e1 v]|]; [|reflexivity]. rewrite IH. destruct (srun e1 os1) as [[e2 vs1]|]; [|reflexivity].
    destruct (srun e2 os2) as [[e3 vs2]|]; reflexivity.
Qed.

Lemma state_rel os : forall se e se' vs, env_rel pk fk se e -> orders_ok os -> srun se os = Some (se', vs) -> exists e', env_rel pk fk se' e'.
Proof.
  induction os as [|o os IH]; cbn [ObsSetSpec.srun]; intros se e se' vs R W H; [injection H as <- <-; eauto|].
  destruct (sstep pk fk se o) as [[se1 v]|] eqn:Es; [|discriminate]. destruct (srun se1 os) as [[se2 vs2]|] eqn:Er; [|discriminate].
  injection H as <- <-. destruct (step_sim _ _ _ _ _ _ _ R (W o (or_introl eq_refl)) Es) as (e1 & _ & R1).
  eapply IH; [exact R1| |exact Er]. intros o' Ho. apply W. now right.
Qed.
Lemma shape_at xs p : forall ss ns s, Forall2 (node_rel pk fk xs) ss ns -> sh_at p ss = Some s -> exists n, node_rel pk fk xs s n.
Proof.
  induction p as [|i p IH]; cbn [sh_at]; intros ss ns s R E; [discriminate|].
  destruct (nth_error ss i) as [s1|] eqn:En; [|discriminate].
  destruct (F2_nth _ _ _ R _ _ En) as (n & _ & Rn). destruct s1 as [lt ss1|], p as [|j p]; try discriminate; try (injection E as <-; eauto). apply rel_mirror in Rn as (ns1 & -> & _ & _ & HF). eapply IH; eauto.
Qed.

(** After any such program, iterating a source and one of the mirrors below it gives
    the same elements, the mirror's strictly increasing in the mirror's order. *)
Theorem mirror_shows_source : forall os se vs i s p lt subs, orders_ok os -> srun sno_sets os = Some (se, vs) ->
  se i = Some s -> sh_at p (ssubs s) = Some (SMirror lt subs) ->
  exists xs ys, orun no_sets (os ++ [OIter i; OLook i p]) = Ok (vs ++ [BList xs; BList ys]) /\
    Permutation xs ys /\ StronglySorted (fun a b => lt a b = true) ys.
Proof.
  intros os se vs i s p lt subs W H Ei Ep. exists (isort (slt s) (sxs s)), (isort lt (sxs s)).
  destruct (state_rel os sno_sets no_sets _ _ (fun _ => I) W H) as (e' & R). destruct (env_some _ _ _ _ _ _ R Ei) as (c & _ & Rs).
  destruct (shape_at _ _ _ _ _ (sr_subs _ _ _ _ Rs) Ep) as (n & Rn). apply rel_mirror in Rn as (ns & _ & SW & HP & _).
  split; [|split].
  - apply observable_sets_refine_bags with se.
    + intros o Ho. apply in_app_or in Ho as [Ho|[<-|[<-|[]]]]; [now apply W|exact I|exact I].
    + rewrite srun_app, H. cbn [ObsSetSpec.srun sstep]. rewrite Ei. cbn beta iota. rewrite Ei, Ep. reflexivity.
  - rewrite !isort_perm. reflexivity.
  - now apply isort_strict.
Qed.

(** And a foreign set below it shows the same elements in non-empty groups: one group
    for each foreign key in use, in increasing order of the keys, each group strictly
    increasing in the primary key. *)
Definition group_of (k : Z) (g : list T) : Prop :=
  g <> [] /\ (forall x, In x g -> fk x = k) /\ StronglySorted (fun a b => (pk a < pk b)%Z) g.
Theorem foreign_set_groups_source : forall os se vs i s p, orders_ok os -> srun sno_sets os = Some (se, vs) ->
  se i = Some s -> sh_at p (ssubs s) = Some SForeign ->
  exists xs gs ks, orun no_sets (os ++ [OIter i; OLook i p]) = Ok (vs ++ [BList xs; BGroups gs]) /\
    Permutation xs (concat gs) /\ StronglySorted Z.lt ks /\ Forall2 group_of ks gs.
Proof.
  intros os se vs i s p W H Ei Ep. exists (isort (slt s) (sxs s)), (grouping pk fk (sxs s)), (keys fk (sxs s)).
  destruct (state_rel os sno_sets no_sets _ _ (fun _ => I) W H) as (e' & R). destruct (env_some _ _ _ _ _ _ R Ei) as (c & _ & Rs).
  destruct (shape_at _ _ _ _ _ (sr_subs _ _ _ _ Rs) Ep) as (n & Rn). apply rel_foreign in Rn as [_ HP].
  split; [|split; [|split]].
  - apply observable_sets_refine_bags with se.
    + intros o Ho. apply in_app_or in Ho as [Ho|[<-|[<-|[]]]]; [now apply W|exact I|exact I].
    + rewrite srun_app, H. cbn [ObsSetSpec.srun sstep]. rewrite Ei. cbn beta iota. rewrite Ei, Ep. reflexivity.
  - rewrite isort_perm. clear -HP. rewrite grouping_grp. set (xs := sxs s) in *. clearbody xs.
    assert (G : forall ks, NoDup ks -> Permutation (filter (fun x => existsb (Z.eqb (fk x)) ks) xs) (concat (map (grp pk fk xs) ks))).
    { induction 1 as [|k ks N ND IH]; cbn [map concat existsb].
      - clear. induction xs; cbn; auto.
      - rewrite <- IH. unfold grp at 1. rewrite isort_perm. unfold sel. clear -N.
        induction xs as [|x xs I]; cbn; [constructor|]. destruct (Z.eqb_spec (fk x) k) as [->|D]; cbn.
        + destruct (existsb (Z.eqb k) ks) eqn:E; [|now constructor]. apply existsb_exists in E as (y & Hy & E). apply Z.eqb_eq in E. now subst.
        + destruct (existsb (Z.eqb (fk x)) ks); [|exact I]. rewrite I. apply Permutation_middle. }
    rewrite <- (G (keys fk xs)).
    + replace (filter _ xs) with xs; [reflexivity|]. symmetry. apply filter_all. intros x Hx. apply existsb_exists. exists (fk x).
      split; [|lia]. apply keys_in. eauto.
    + pose proof (keys_inc fk xs) as S. clear -S. induction S as [|k l S IH F]; constructor; [|auto]. rewrite Forall_forall in F. intros Hk. specialize (F k Hk). lia.
  - apply keys_inc.
  - rewrite grouping_grp. assert (G : forall k, In k (keys fk (sxs s)) -> group_of k (grp pk fk (sxs s) k)).
    { intros k Hk. split; [|split].
      - pose proof (grp_key pk fk _ _ Hk) as X. intros E. rewrite E in X. discriminate.
      - intros x Hx. apply (Permutation_in _ (isort_perm _ _)) in Hx. now apply sel_in in Hx.
      - assert (S : ssorted (plt pk) (grp pk fk (sxs s) k)) by (apply isort_strict; [apply plt_sw; exact fk|now apply sel_pw]).
        clear -S. induction S as [|x l S IH F]; constructor; [auto|]. eapply Forall_impl; [|exact F]. unfold plt. cbn. intros; lia. }
    clear -G. induction (keys fk (sxs s)) as [|k ks IH]; cbn; constructor; [apply G; cbn; auto|apply IH; intros; apply G; cbn; auto].
Qed.
End Props.

(** Elements with a primary key and a foreign key. *)
Definition pk1 (x : Z * Z) : Z := fst x.
Definition fk1 (x : Z * Z) : Z := snd x.
Definition by_pk (a b : Z * Z) : bool := (fst a <? fst b)%Z.
Definition by_pk_desc (a b : Z * Z) : bool := (fst b <? fst a)%Z.
Definition by_fk (a b : Z * Z) : bool := (snd a <? snd b)%Z.
Definition demo : list (oop (T := Z * Z)) :=
  [ONew 0 by_pk; OInsert 0 (3, 10)%Z; OInsert 0 (1, 20)%Z; OReflect 0 [] by_pk_desc; OForeign 0 [0]; OInsert 0 (2, 10)%Z;
   OErase 0 (1, 0)%Z; OInsert 0 (5, 7)%Z; OLook 0 [0]; OLook 0 [0; 0]].
Example demo_accepted : option_map snd (srun pk1 fk1 sno_sets demo) =
  Some [BUnit; BBool true; BBool true; BUnit; BUnit; BBool true; BNat 1; BBool true;
        BList [(5, 7); (3, 10); (2, 10)]%Z; BGroups [[(5, 7)]; [(2, 10); (3, 10)]]%Z].
Proof. vm_compute. reflexivity. Qed.
Example demo_orders : orders_ok demo.
Proof.
  intros o Ho. repeat (destruct Ho as [<-|Ho]; [try exact I; constructor; unfold by_pk, by_pk_desc; intros; cbn in *; lia|]). destruct Ho.
Qed.
Example demo_runs : orun pk1 fk1 no_sets demo =
  Ok [BUnit; BBool true; BBool true; BUnit; BUnit; BBool true; BNat 1; BBool true;
      BList [(5, 7); (3, 10); (2, 10)]%Z; BGroups [[(5, 7)]; [(2, 10); (3, 10)]]%Z].
Proof. vm_compute. reflexivity. Qed.

(** A mirror is refused only by an exception out of the source's own insert: here the
    mirror's comparator does not tell the new element from one that is there. *)
Theorem mirror_insert_refuted : exists os : list (oop (T := Z * Z)),
  orders_ok os /\ orun pk1 fk1 no_sets os = Throw LogicError.
Proof.
  exists [ONew 0 by_pk; OReflect 0 [] by_fk; OInsert 0 (1, 7)%Z; OInsert 0 (2, 7)%Z]. split; [|vm_compute; reflexivity].
  intros o Ho. repeat (destruct Ho as [<-|Ho]; [try exact I; constructor; unfold by_pk, by_fk; intros; cbn in *; lia|]). destruct Ho.
Qed.
(** In the same situation a foreign set runs into its assertions. *)
Definition by_both (a b : Z * Z * Z) : bool :=
  let '(p, f, u) := a in let '(p', f', u') := b in
  (p <? p')%Z || ((p =? p')%Z && ((f <? f')%Z || ((f =? f')%Z && (u <? u')%Z))).
Theorem foreign_insert_refuted : exists os : list (oop (T := Z * Z * Z)),
  orders_ok os /\ orun (fun x => fst (fst x)) (fun x => snd (fst x)) no_sets os = UB.
Proof.
  exists [ONew 0 by_both; OForeign 0 []; OInsert 0 (1, 7, 0)%Z; OInsert 0 (1, 7, 1)%Z]. split; [|vm_compute; reflexivity].
  intros o Ho. repeat (destruct Ho as [<-|Ho]; [try exact I; constructor; unfold by_both; intros; repeat match goal with x : Z * Z * Z |- _ => destruct x as [[? ?] ?] end; cbn in *; lia|]). destruct Ho.
Qed.
