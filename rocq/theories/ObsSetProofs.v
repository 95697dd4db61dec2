(** Observable sets: the observers show what the source contains. *)
From Verif Require Import Common VSetSpec ObsSetModel ObsSetSpec.
From Coq Require Import Sorting.Sorted Sorting.Permutation ZifyBool ZifyNat Btauto.

Section Sorting.
Context {T : Type}.

(** Pairwise not related by [R]. *)
Fixpoint pw (R : T -> T -> bool) (xs : list T) : Prop :=
  match xs with [] => True | x :: r => (forall y, In y r -> R x y = false) /\ pw R r end.
Lemma pw_perm R : (forall x y, R x y = R y x) -> forall xs ys, Permutation xs ys -> pw R xs -> pw R ys.
Proof.
  intros Hs. induction 1; cbn; auto.
  - intros [H1 H2]. split; [|auto]. intros y Hy. apply H1. apply Permutation_in with l'; [now symmetry|auto].
  - intros (H1 & H2 & H3). split; [|split]; auto.
    + intros z [<-|Hz]; [rewrite Hs; auto|auto].
Qed.
Lemma pw_app R a b : pw R (a ++ b) <-> pw R a /\ pw R b /\ (forall x y, In x a -> In y b -> R x y = false).
Proof.
  induction a as [|x a IH]; cbn; [firstorder|]. rewrite IH. split.
  - intros (H1 & H2 & H3 & H4). repeat split; auto.
    + intros y Hy. apply H1. rewrite in_app_iff. auto.
    + intros u y [<-|Hu] Hy; [apply H1; rewrite in_app_iff; auto|auto].
  - intros ((H1 & H2) & H3 & H4). repeat split; auto. intros y Hy. apply in_app_or in Hy as [|]; auto.
Qed.
Lemma pw_filter R (p : T -> bool) xs : pw R xs -> pw R (filter p xs).
Proof.
  induction xs as [|x xs IH]; cbn; [auto|]. intros [H1 H2]. destruct (p x); cbn; [|auto]. split; [|auto].
  intros y Hy. apply filter_In in Hy as [Hy _]. auto.
Qed.

Context (lt : T -> T -> bool) (SW : strict_weak lt).

Lemma eqv_sym x y : eqv lt x y = eqv lt y x.
Proof. unfold eqv. apply andb_comm. Qed.
Lemma eqv_refl x : eqv lt x x = true.
Proof. unfold eqv. rewrite (sw_irrefl _ SW). reflexivity. Qed.
Lemma lt_asym x y : lt x y = true -> lt y x = false.
Proof.
  intros H. destruct (lt y x) eqn:E; [|auto]. pose proof (sw_trans _ SW _ _ _ H E) as X. rewrite (sw_irrefl _ SW) in X. discriminate.
Qed.

Lemma ins_perm v l : Permutation (ins lt v l) (v :: l).
Proof.
  induction l as [|x l IH]; cbn; [reflexivity|]. destruct (lt x v); [|reflexivity].
  rewrite IH. apply perm_swap.
Qed.
Lemma isort_perm xs : Permutation (isort lt xs) xs.
Proof. induction xs as [|x xs IH]; cbn; [reflexivity|]. rewrite ins_perm. now constructor. Qed.

Definition nsorted := StronglySorted (fun a b => lt b a = false).
Definition ssorted := StronglySorted (fun a b => lt a b = true).

Lemma ins_sorted v l : nsorted l -> nsorted (ins lt v l).
Proof.
  induction 1 as [|x l H IH F]; cbn; [repeat constructor|]. destruct (lt x v) eqn:E.
  - constructor; [auto|]. apply Forall_forall. intros y Hy. apply Permutation_in with (l' := v :: l) in Hy; [|apply ins_perm].
    destruct Hy as [<-|Hy]; [now apply lt_asym|]. rewrite Forall_forall in F. auto.
  - constructor; [constructor; auto|]. constructor; [auto|]. eapply Forall_impl; [|exact F]. cbn. intros y Hy.
    eapply (sw_incomp _ SW); eauto.
Qed.
Lemma isort_sorted xs : nsorted (isort lt xs).
Proof. induction xs as [|x xs IH]; cbn; [constructor|now apply ins_sorted]. Qed.

Lemma filter_all (p : T -> bool) l : (forall x, In x l -> p x = true) -> filter p l = l.
Proof. induction l as [|x l IH]; cbn; intros H; [auto|]. rewrite H by auto. f_equal. auto. Qed.
Lemma filter_none (p : T -> bool) l : (forall x, In x l -> p x = false) -> filter p l = [].
Proof. induction l as [|x l IH]; cbn; intros H; [auto|]. rewrite H by auto. auto. Qed.

Lemma ins_vins v l : nsorted l -> ins lt v l = vins lt v l.
Proof.
  induction 1 as [|x l H IH F]; cbn; [reflexivity|]. unfold vins in *. cbn [filter]. destruct (lt x v) eqn:E; cbn [negb].
  - rewrite IH. reflexivity.
  - assert (G : forall y, In y l -> lt y v = false).
    { intros y Hy. rewrite Forall_forall in F. specialize (F y Hy). eapply (sw_incomp _ SW); eauto. }
    rewrite (filter_none _ _ G). cbn. do 2 f_equal. symmetry. apply filter_all. intros y Hy. now rewrite G.
Qed.

Lemma sorted_strict l : nsorted l -> pw (eqv lt) l -> ssorted l.
Proof.
  induction 1 as [|x l H IH F]; cbn; [constructor|]. intros [P1 P2]. constructor; [exact (IH P2)|].
  rewrite Forall_forall in *. intros y Hy. specialize (P1 y Hy). specialize (F y Hy). unfold eqv in P1. rewrite F in P1.
  destruct (lt x y); [reflexivity|discriminate].
Qed.
Lemma isort_strict xs : pw (eqv lt) xs -> ssorted (isort lt xs).
Proof.
  intros H. apply sorted_strict; [apply isort_sorted|]. eapply pw_perm; [apply eqv_sym|symmetry; apply isort_perm|exact H].
Qed.
Lemma strict_unique l1 : forall l2, ssorted l1 -> ssorted l2 -> Permutation l1 l2 -> l1 = l2.
Proof.
  induction l1 as [|x l1 IH]; intros l2 S1 S2 P; [apply Permutation_nil in P; auto|].
  destruct l2 as [|y l2]; [symmetry in P; apply Permutation_nil in P; discriminate|].
  apply StronglySorted_inv in S1 as [S1 F1]. apply StronglySorted_inv in S2 as [S2 F2]. rewrite Forall_forall in *.
  assert (x = y).
  { assert (In y (x :: l1)) by (eapply Permutation_in; [symmetry; exact P|cbn; auto]).
    assert (In x (y :: l2)) by (eapply Permutation_in; [exact P|cbn; auto]).
    destruct H as [|H]; [auto|]. destruct H0 as [|H0]; [auto|]. specialize (F1 _ H). specialize (F2 _ H0).
    apply lt_asym in F1. congruence. }
  subst. f_equal. apply IH; auto. eapply Permutation_cons_inv; eauto.
Qed.
Lemma isort_unique xs l : pw (eqv lt) xs -> ssorted l -> Permutation l xs -> l = isort lt xs.
Proof. intros H S P. apply strict_unique; auto; [now apply isort_strict|]. rewrite P. symmetry. apply isort_perm. Qed.
Lemma isort_ext xs ys : pw (eqv lt) xs -> Permutation xs ys -> isort lt xs = isort lt ys.
Proof.
  intros H P. apply isort_unique.
  - eapply pw_perm; [apply eqv_sym|exact P|auto].
  - now apply isort_strict.
  - rewrite isort_perm. exact P.
Qed.

Lemma vremove_sub (p : T -> bool) x l : In x (vremove p l) -> In x l.
Proof. induction l as [|y l IH]; cbn; [auto|]. destruct (p y); cbn; intuition. Qed.
Lemma vremove_strict (p : T -> bool) l : ssorted l -> ssorted (vremove p l).
Proof.
  induction 1 as [|x l H IH F]; cbn; [constructor|]. destruct (p x); [exact H|]. constructor; [exact IH|].
  rewrite Forall_forall in *. intros y Hy. apply F. eapply vremove_sub; eauto.
Qed.
Lemma vremove_find x l : ssorted l -> In x l -> find (eqv lt x) l = Some x /\ Permutation l (x :: vremove (eqv lt x) l).
Proof.
  induction 1 as [|y l H IH F]; cbn; [intros []|]. rewrite Forall_forall in F. intros [->|Hx].
  - rewrite eqv_refl. auto.
  - specialize (F x Hx). assert (E : eqv lt x y = false) by (unfold eqv; rewrite F; apply andb_false_r). rewrite E.
    destruct (IH Hx) as [I1 I2]. split; [auto|]. rewrite I2 at 1. apply perm_swap.
Qed.
Lemma isort_remove a x b : pw (eqv lt) (a ++ x :: b) ->
  find (eqv lt x) (isort lt (a ++ x :: b)) = Some x /\ vremove (eqv lt x) (isort lt (a ++ x :: b)) = isort lt (a ++ b).
Proof.
  intros H. pose proof (isort_strict _ H) as S.
  assert (Hx : In x (isort lt (a ++ x :: b))).
  { eapply Permutation_in; [symmetry; apply isort_perm|]. rewrite in_app_iff. cbn; auto. }
  destruct (vremove_find x _ S Hx) as [F P]. split; [auto|]. apply isort_unique.
  - assert (Q : Permutation (a ++ x :: b) (x :: a ++ b)) by (symmetry; apply Permutation_middle).
    apply (pw_perm _ eqv_sym _ _ Q) in H. now destruct H.
  - now apply vremove_strict.
  - apply Permutation_cons_inv with x. rewrite <- P, isort_perm. symmetry. apply Permutation_middle.
Qed.

Lemma existsb_perm (p : T -> bool) l l' : Permutation l l' -> existsb p l = existsb p l'.
Proof.
  induction 1; cbn; auto; [congruence| |congruence]. destruct (p x), (p y); auto.
Qed.
Lemma existsb_false (p : T -> bool) l : existsb p l = false <-> forall x, In x l -> p x = false.
Proof.
  induction l as [|y l IH]; cbn; [firstorder|]. rewrite orb_false_iff, IH. split; [intros [H1 H2] x [<-|]; auto|auto].
Qed.

(** Adding a new element to a sorted set. *)
Lemma vinsert_isort v xs : existsb (eqv lt v) xs = false -> vinsert lt v (isort lt xs) = (isort lt (v :: xs), true).
Proof.
  intros H. unfold vinsert. rewrite (existsb_perm _ _ xs) by apply isort_perm. rewrite H. cbn. f_equal.
  symmetry. apply ins_vins. apply isort_sorted.
Qed.
Lemma vinsert_old v xs : existsb (eqv lt v) xs = true -> vinsert lt v (isort lt xs) = (isort lt xs, false).
Proof. intros H. unfold vinsert. rewrite (existsb_perm _ _ xs) by apply isort_perm. now rewrite H. Qed.
End Sorting.

(** The operations on contents are those of the specification of vector_set. *)
Lemma vinsert_spec {T} (lt : T -> T -> bool) burn v (s : sset (T := T)) :
  let (s', r) := sinsert lt burn v s in vinsert lt v (elems (snd s)) = (elems (snd s'), snd r).
Proof.
  unfold sinsert, vinsert, lookup. destruct s as [h l]. cbn [fst snd].
  assert (E : forall m : list (nat * T), existsb (eqv lt v) (elems m) = match find (fun e => eqvT lt v (snd e)) m with Some _ => true | None => false end).
  { induction m as [|[k x] m IH]; cbn; [reflexivity|]. unfold eqv, eqvT in *. cbn. destruct (negb (lt v x) && negb (lt x v)); auto. }
  rewrite E. destruct (find _ l) as [[k x]|]; cbn; [reflexivity|]. unfold vins, sins, elems. rewrite map_app. cbn [map snd].
  f_equal. f_equal; [|f_equal].
  - induction l as [|[k x] l IH]; cbn; [reflexivity|]. specialize (E l). destruct (lt x v); cbn; rewrite IH; reflexivity.
  - induction l as [|[k x] l IH]; cbn; [reflexivity|]. destruct (lt x v); cbn; rewrite IH; reflexivity.
Qed.
Lemma verase_spec {T} (lt : T -> T -> bool) v h x (s : sset (T := T)) :
  NoDup (map fst (snd s)) -> lookup (eqvT lt v) (snd s) = Some (h, x) ->
  find (eqv lt v) (elems (snd s)) = Some x /\ elems (snd (serase h s)) = vremove (eqv lt v) (elems (snd s)).
Proof.
  unfold serase, lookup. destruct s as [c l]. cbn [fst snd]. induction l as [|[k y] l IH]; cbn [find map fst snd filter elems]; [discriminate|].
  intros N. apply NoDup_cons_iff in N as [N1 N2]. change (eqv lt v y) with (eqvT lt v y). cbn [vremove].
  change (eqv lt v y) with (eqvT lt v y). destruct (eqvT lt v y).
  - intros [= -> ->]. rewrite Nat.eqb_refl. cbn. split; [auto|]. f_equal.
    clear -N1. induction l as [|[k z] l IH]; cbn; [reflexivity|]. cbn in N1. destruct (Nat.eqb_spec k h); cbn; [tauto|]. f_equal. tauto.
  - intros F. destruct (IH N2 F) as [I1 I2]. split; [exact I1|]. destruct (Nat.eqb_spec k h) as [->|]; cbn.
    + exfalso. apply N1. apply find_some in F as [F _]. apply in_map_iff. exists (h, x). auto.
    + f_equal. exact I2.
Qed.

Section Groups.
Context {T : Type} (pk fk : T -> Z).
Notation grouping := (grouping pk fk).
Notation keys := (keys fk).
Notation find_group := (find_group fk).
Notation set_group := (set_group fk).
Notation erase_group := (erase_group fk).
Notation insert_group := (insert_group fk).

Definition plt (a b : T) : bool := (pk a <? pk b)%Z.
Definition sel (k : Z) (xs : list T) : list T := filter (fun x => Z.eqb (fk x) k) xs.
Definition grp (xs : list T) (k : Z) : list T := isort plt (sel k xs).

Lemma plt_sw : strict_weak plt.
Proof. constructor; unfold plt; intros; lia. Qed.
Lemma grouping_grp xs : grouping xs = map (grp xs) (keys xs).
Proof. reflexivity. Qed.

(** Strictly increasing key lists. *)
Definition inc := StronglySorted Z.lt.
Lemma insk_in k l x : In x (insk k l) <-> x = k \/ In x l.
Proof.
  induction l as [|y l IH]; cbn; [intuition|]. destruct (Z.ltb_spec y k); cbn; [rewrite IH; intuition|].
  destruct (Z.eqb_spec y k); cbn; [subst|]; intuition.
Qed.
Lemma insk_inc k l : inc l -> inc (insk k l).
Proof.
  induction 1 as [|y l H IH F]; cbn; [repeat constructor|]. destruct (Z.ltb_spec y k).
  - constructor; [exact IH|]. rewrite Forall_forall in *. intros x Hx. apply insk_in in Hx as [->|]; auto.
  - destruct (Z.eqb_spec y k); [constructor; auto|]. constructor; [constructor; auto|]. constructor; [lia|].
    rewrite Forall_forall in *. intros x Hx. specialize (F x Hx). lia.
Qed.
Lemma keys_inc xs : inc (keys xs).
Proof. unfold ObsSetSpec.keys. induction xs as [|x xs IH]; cbn; [constructor|now apply insk_inc]. Qed.
Lemma keys_in xs k : In k (keys xs) <-> exists x, In x xs /\ fk x = k.
Proof.
  unfold ObsSetSpec.keys. induction xs as [|x xs IH]; cbn; [firstorder|]. rewrite insk_in, IH. split.
  - intros [->|(y & Hy & <-)]; eauto.
  - intros (y & [->|Hy] & <-); eauto.
Qed.
Lemma inc_unique l1 : forall l2, inc l1 -> inc l2 -> (forall x, In x l1 <-> In x l2) -> l1 = l2.
Proof.
  induction l1 as [|x l1 IH]; intros l2 S1 S2 E.
  - destruct l2 as [|y l2]; [auto|]. exfalso. apply (E y). cbn; auto.
  - destruct l2 as [|y l2]; [exfalso; apply (E x); cbn; auto|].
    apply StronglySorted_inv in S1 as [S1 F1]. apply StronglySorted_inv in S2 as [S2 F2]. rewrite Forall_forall in *.
    assert (x = y).
    { destruct (proj1 (E x)) as [|H1]; [cbn; auto|auto|]. destruct (proj2 (E y)) as [|H2]; [cbn; auto|auto|].
      specialize (F2 _ H1). specialize (F1 _ H2). lia. }
    subst. f_equal. apply IH; auto. intros z. split; intros Hz.
    + destruct (proj1 (E z)) as [|]; [cbn; auto| |auto]. subst. specialize (F1 _ Hz). lia.
    + destruct (proj2 (E z)) as [|]; [cbn; auto| |auto]. subst. specialize (F2 _ Hz). lia.
Qed.

Lemma sel_in k xs x : In x (sel k xs) <-> In x xs /\ fk x = k.
Proof. unfold sel. rewrite filter_In. rewrite Z.eqb_eq. reflexivity. Qed.
Lemma grp_key xs k : In k (keys xs) -> group_key fk (grp xs k) = Ok k.
Proof.
  intros H. apply keys_in in H as (x & Hx & Hk). unfold grp.
  assert (P := isort_perm plt (sel k xs)). destruct (isort plt (sel k xs)) as [|y l] eqn:E.
  - apply Permutation_nil in P. assert (X : In x (sel k xs)) by (apply sel_in; auto). rewrite P in X. destruct X.
  - cbn. f_equal. assert (X : In y (sel k xs)) by (eapply Permutation_in; [exact P|cbn; auto]). now apply sel_in in X.
Qed.

(** Searching and editing a list of groups with known keys. *)
Lemma find_group_map (f : Z -> list T) key ks : (forall k, In k ks -> group_key fk (f k) = Ok k) ->
  find_group key (map f ks) = Ok (if existsb (Z.eqb key) ks then Some (f key) else None).
Proof.
  induction ks as [|k ks IH]; cbn; intros H; [reflexivity|]. rewrite H by auto. cbn [rbind]. rewrite IH by auto. cbn [rbind].
  rewrite (Z.eqb_sym key k). destruct (Z.eqb_spec k key); [subst|]; reflexivity.
Qed.
Lemma set_group_map (f f' : Z -> list T) key ks : (forall k, In k ks -> group_key fk (f k) = Ok k) ->
  (forall k, In k ks -> k <> key -> f' k = f k) -> set_group key (f' key) (map f ks) = Ok (map f' ks).
Proof.
  induction ks as [|k ks IH]; cbn; intros H H'; [reflexivity|]. rewrite H by auto. cbn [rbind]. rewrite IH by auto. cbn [rbind].
  destruct (Z.eqb_spec k key); [subst|rewrite H' by auto]; reflexivity.
Qed.
Lemma erase_group_map (f : Z -> list T) key ks : (forall k, In k ks -> group_key fk (f k) = Ok k) ->
  erase_group key (map f ks) = Ok (map f (filter (fun k => negb (Z.eqb k key)) ks)).
Proof.
  induction ks as [|k ks IH]; cbn; intros H; [reflexivity|]. rewrite H by auto. cbn [rbind]. rewrite IH by auto. cbn [rbind].
  destruct (Z.eqb k key); reflexivity.
Qed.
Lemma insert_group_map (f : Z -> list T) key ks : inc ks -> (forall k, In k ks -> group_key fk (f k) = Ok k) ->
  group_key fk (f key) = Ok key -> ~ In key ks -> insert_group (f key) (map f ks) = Ok (map f (insk key ks)).
Proof.
  intros S. induction S as [|k ks S IH F]; intros H Hk N; cbn [ObsSetModel.insert_group map insk]; rewrite Hk; cbn [rbind]; [reflexivity|].
  rewrite H by (cbn; auto). cbn [rbind]. cbn in N. destruct (Z.ltb_spec key k).
  - destruct (Z.ltb_spec k key); [lia|]. destruct (Z.eqb_spec k key); [lia|]. reflexivity.
  - destruct (Z.ltb_spec k key); [|exfalso; apply N; left; lia]. rewrite IH; [reflexivity|intros; apply H; cbn; auto|exact Hk|tauto].
Qed.

(** No two elements with both keys equal. *)
Definition same (x y : T) : bool := Z.eqb (fk y) (fk x) && Z.eqb (pk y) (pk x).
Lemma same_sym x y : same x y = same y x.
Proof. unfold same. rewrite (Z.eqb_sym (fk x)), (Z.eqb_sym (pk x)). reflexivity. Qed.
Lemma eqv_plt x y : eqv plt x y = Z.eqb (pk y) (pk x).
Proof. unfold eqv, plt. destruct (Z.ltb_spec (pk x) (pk y)), (Z.ltb_spec (pk y) (pk x)), (Z.eqb_spec (pk y) (pk x)); cbn; auto; lia. Qed.
Lemma sel_pw k xs : pw same xs -> pw (eqv plt) (sel k xs).
Proof.
  induction xs as [|x xs IH]; cbn; [auto|]. intros [H1 H2]. destruct (Z.eqb_spec (fk x) k); [|auto]. cbn. split; [|auto].
  intros y Hy. apply sel_in in Hy as [Hy Hk]. specialize (H1 y Hy). rewrite eqv_plt. unfold same in H1. lia.
Qed.

Lemma f_added_ok v xs : pw same (v :: xs) -> f_added pk fk v (grouping xs) = Ok (grouping (v :: xs)).
Proof.
  intros [Hv H]. unfold f_added. rewrite !grouping_grp.
  assert (G : forall k, In k (keys xs) -> group_key fk (grp xs k) = Ok k) by (intros; now apply grp_key).
  rewrite (find_group_map _ _ _ G). cbn [rbind].
  assert (Other : forall k, k <> fk v -> grp (v :: xs) k = grp xs k).
  { intros k Hk. unfold grp. cbn [sel filter]. destruct (Z.eqb_spec (fk v) k); [congruence|]. reflexivity. }
  assert (This : grp (v :: xs) (fk v) = isort plt (v :: sel (fk v) xs)).
  { unfold grp, sel. cbn [filter]. now rewrite Z.eqb_refl. }
  change (keys (v :: xs)) with (insk (fk v) (keys xs)).
  destruct (existsb (Z.eqb (fk v)) (keys xs)) eqn:E.
  - change (pk_lt pk) with plt. unfold grp at 1. rewrite (vinsert_isort plt plt_sw).
    2:{ apply (proj2 (existsb_false plt plt_sw _ _)). intros y Hy. apply sel_in in Hy as [Hy Hk]. specialize (Hv y Hy). rewrite eqv_plt. unfold same in Hv. lia. }
    cbn [guard]. rewrite <- This. rewrite set_group_map; auto.
    assert (K : insk (fk v) (keys xs) = keys xs).
    { apply inc_unique; [apply insk_inc, keys_inc|apply keys_inc|]. intros x. rewrite insk_in. split; [|auto].
      intros [->|]; [|auto]. apply existsb_exists in E as (y & Hy & E). apply Z.eqb_eq in E. now subst. }
    now rewrite K.
  - assert (N : ~ In (fk v) (keys xs)).
    { intros X. assert (Y : existsb (Z.eqb (fk v)) (keys xs) = true); [|congruence]. apply existsb_exists. exists (fk v). split; [auto|lia]. }
    assert (Es : sel (fk v) xs = []).
    { destruct (sel (fk v) xs) as [|y l] eqn:Es; [auto|]. exfalso. apply N. apply keys_in. exists y. apply sel_in. rewrite Es. cbn; auto. }
    assert (Eg : fst (vinsert (pk_lt pk) v []) = grp (v :: xs) (fk v)) by (rewrite This, Es; reflexivity).
    rewrite Eg.
    assert (Em : map (grp xs) (keys xs) = map (grp (v :: xs)) (keys xs)).
    { apply map_ext_in. intros k Hk. rewrite Other; [auto|]. intros ->. auto. }
    rewrite Em. apply insert_group_map; auto.
    + apply keys_inc.
    + intros k Hk. apply grp_key. apply keys_in. apply keys_in in Hk as (y & Hy & <-). exists y. cbn; auto.
    + apply grp_key. apply keys_in. exists v. cbn; auto.
Qed.

Lemma sel_app k a b : sel k (a ++ b) = sel k a ++ sel k b.
Proof. apply filter_app. Qed.
Lemma vremove_ext (p q : T -> bool) l : (forall y, p y = q y) -> vremove p l = vremove q l.
Proof. intros H. induction l as [|y l IH]; cbn; [auto|]. rewrite H, IH. reflexivity. Qed.

Lemma f_removing_ok a x b : pw same (a ++ x :: b) -> f_removing pk fk x (grouping (a ++ x :: b)) = Ok (grouping (a ++ b)).
Proof.
  intros H. set (xs := a ++ x :: b). set (ys := a ++ b). unfold f_removing. rewrite !grouping_grp.
  assert (G : forall k, In k (keys xs) -> group_key fk (grp xs k) = Ok k) by (intros; now apply grp_key).
  assert (Kx : In (fk x) (keys xs)) by (apply keys_in; exists x; unfold xs; rewrite in_app_iff; cbn; auto).
  rewrite (find_group_map _ _ _ G).
  replace (existsb (Z.eqb (fk x)) (keys xs)) with true by (symmetry; apply existsb_exists; exists (fk x); split; [auto|lia]).
  cbn [rbind].
  assert (Hs : sel (fk x) xs = sel (fk x) a ++ x :: sel (fk x) b).
  { unfold xs. rewrite sel_app. cbn [sel filter]. now rewrite Z.eqb_refl. }
  assert (Hy : sel (fk x) ys = sel (fk x) a ++ sel (fk x) b) by (unfold ys; apply sel_app).
  assert (Hpw : pw (eqv plt) (sel (fk x) a ++ x :: sel (fk x) b)) by (rewrite <- Hs; now apply sel_pw).
  destruct (isort_remove plt plt_sw _ _ _ Hpw) as [Hf Hr]. rewrite <- Hs in Hf, Hr. rewrite <- Hy in Hr.
  change (isort plt (sel (fk x) xs)) with (grp xs (fk x)) in Hf, Hr. change (isort plt (sel (fk x) ys)) with (grp ys (fk x)) in Hr.
  assert (Other : forall k, k <> fk x -> grp ys k = grp xs k).
  { intros k Hk. unfold grp, xs, ys. rewrite !sel_app. cbn [sel filter]. destruct (Z.eqb_spec (fk x) k); [congruence|]. reflexivity. }
  assert (Pm : Permutation (grp xs (fk x)) (x :: sel (fk x) ys)).
  { unfold grp. rewrite isort_perm, Hs, Hy. symmetry. apply Permutation_middle. }
  assert (Hin : forall z, In z xs <-> z = x \/ In z ys).
  { intros z. unfold xs, ys. rewrite !in_app_iff. cbn. intuition. }
  destruct (grp xs (fk x)) as [|y [|y2 g]] eqn:Eg.
  - apply Permutation_nil in Pm. discriminate.
  - apply Permutation_length_1_inv in Pm. injection Pm as Exy En. subst y. rewrite Z.eqb_refl. cbn [guard].
    rewrite (erase_group_map _ _ _ G).
    assert (K : filter (fun k => negb (k =? fk x)%Z) (keys xs) = keys ys).
    { apply inc_unique.
      - pose proof (keys_inc xs) as S. clear -S. induction S as [|k l S IH F]; cbn; [constructor|]. destruct (k =? fk x)%Z; cbn; [auto|].
        constructor; [auto|]. rewrite Forall_forall in *. intros z Hz. apply filter_In in Hz as [Hz _]. auto.
      - apply keys_inc.
      - intros k. rewrite filter_In, !keys_in. split.
        + intros [(z & Hz & <-) Hn]. apply Hin in Hz as [->|Hz]; [rewrite Z.eqb_refl in Hn; discriminate|eauto].
        + intros (z & Hz & <-). split; [exists z; split; [apply Hin; auto|auto]|]. destruct (Z.eqb_spec (fk z) (fk x)); [|auto].
          assert (X : In z (sel (fk x) ys)) by (apply sel_in; auto). rewrite En in X. destruct X. }
    rewrite K. f_equal. apply map_ext_in. intros k Hk. symmetry. apply Other. intros ->.
    apply keys_in in Hk as (z & Hz & Ez). assert (X : In z (sel (fk x) ys)) by (apply sel_in; auto). rewrite En in X. destruct X.
  - rewrite <- Eg in *. assert (Ex : existsb (fun y0 => (pk y0 =? pk x)%Z) (grp xs (fk x)) = true).
    { apply existsb_exists. exists x. split; [|lia]. eapply Permutation_in; [symmetry; exact Pm|cbn; auto]. }
    rewrite Ex. cbn [guard].
    rewrite (vremove_ext _ (eqv plt x)) by (intros; now rewrite eqv_plt). rewrite Hr.
    assert (K : keys xs = keys ys).
    { apply inc_unique; [apply keys_inc|apply keys_inc|]. intros k. rewrite !keys_in. split.
      - intros (z & Hz & <-). apply Hin in Hz as [->|Hz]; [|eauto].
        destruct (sel (fk x) ys) as [|w ws] eqn:Ew.
        + rewrite Eg in Pm. apply Permutation_length in Pm. discriminate.
        + assert (X : In w (sel (fk x) ys)) by (rewrite Ew; cbn; auto). apply sel_in in X as [X1 X2]. exists w. auto.
      - intros (z & Hz & <-). exists z. split; [apply Hin; auto|auto]. }
    rewrite <- K. apply set_group_map; auto.
Qed.
End Groups.

Section Nodes.
Context {T : Type} (pk fk : T -> Z).
Notation grouping := (grouping pk fk).
Notation tells := (tells pk fk).
Notation tells_all := (tells_all pk fk).
Notation on_added := (on_added pk fk).
Notation on_removing := (on_removing pk fk).
Notation added_all := (added_all pk fk).
Notation removing_all := (removing_all pk fk).
Notation same := (same pk fk).

Lemma filter_perm (p : T -> bool) xs ys : Permutation xs ys -> Permutation (filter p xs) (filter p ys).
Proof.
  induction 1; cbn; auto.
  - destruct (p x); auto.
  - destruct (p x), (p y); auto. constructor.
  - etransitivity; eauto.
Qed.
Lemma grouping_ext xs ys : pw same xs -> Permutation xs ys -> grouping xs = grouping ys.
Proof.
  intros H P. rewrite !grouping_grp.
  assert (K : keys fk xs = keys fk ys).
  { apply inc_unique; [apply keys_inc|apply keys_inc|]. intros k. rewrite !keys_in. split; intros (x & Hx & E); exists x; split; auto.
    - eapply Permutation_in; eauto.
    - eapply Permutation_in; [symmetry; exact P|auto]. }
  rewrite K. apply map_ext. intros k. unfold grp. apply (isort_ext (plt pk) (plt_sw pk fk)); [now apply (sel_pw pk fk)|]. now apply filter_perm.
Qed.

Inductive node_rel (xs : list T) : shape (T := T) -> node (T := T) -> Prop :=
| NR_mirror lt ss ns : strict_weak lt -> pw (eqv lt) xs -> Forall2 (node_rel xs) ss ns ->
    node_rel xs (SMirror lt ss) (Mirror lt (isort lt xs) ns)
| NR_foreign : pw same xs -> node_rel xs SForeign (Foreign (grouping xs)).

Lemma rel_mirror xs lt ss n : node_rel xs (SMirror lt ss) n ->
  exists ns, n = Mirror lt (isort lt xs) ns /\ strict_weak lt /\ pw (eqv lt) xs /\ Forall2 (node_rel xs) ss ns.
Proof. inversion 1; subst. eauto. Qed.
Lemma rel_foreign xs n : node_rel xs SForeign n -> n = Foreign (grouping xs) /\ pw same xs.
Proof. inversion 1; subst. auto. Qed.

Lemma shape_ind' (P : shape (T := T) -> Prop) :
  (forall lt ss, Forall P ss -> P (SMirror lt ss)) -> P SForeign -> forall s, P s.
Proof.
  intros Hm Hf. fix IH 1. intros [lt ss|]; [|exact Hf]. apply Hm. induction ss as [|s ss I]; constructor; [apply IH|exact I].
Qed.

Lemma on_added_mirror v lt xs subs : on_added v (Mirror lt xs subs) =
  (let (xs', is_new) := vinsert lt v xs in
   if is_new then let* subs' := added_all v subs in Ok (Mirror lt xs' subs') else Throw LogicError).
Proof.
  cbn [ObsSetModel.on_added]. destruct (vinsert lt v xs) as [xs' []]; [|reflexivity]. f_equal.
  induction subs as [|s r IH]; cbn [ObsSetModel.added_all]; [reflexivity|]. rewrite <- IH. reflexivity.
Qed.
Lemma on_removing_mirror v lt xs subs : on_removing v (Mirror lt xs subs) =
  match find (eqv lt v) xs with
  | Some x => let* subs' := removing_all x subs in Ok (Mirror lt (vremove (eqv lt v) xs) subs')
  | None => Throw LogicError
  end.
Proof.
  cbn [ObsSetModel.on_removing]. destruct (find (eqv lt v) xs) as [x|]; [|reflexivity]. f_equal.
  induction subs as [|s r IH]; cbn [ObsSetModel.removing_all]; [reflexivity|]. rewrite <- IH. reflexivity.
Qed.
Lemma on_clearing_mirror lt (xs : list T) subs : on_clearing (Mirror lt xs subs) =
  match xs with [] => Mirror lt [] subs | _ => Mirror lt [] (clearing_all subs) end.
Proof. reflexivity. Qed.

Lemma eqb_sames v xs : existsb (fun x => (fk x =? fk v)%Z && (pk x =? pk v)%Z) xs = existsb (same v) xs.
Proof. reflexivity. Qed.
Lemma not_exists (p : T -> bool) l : existsb p l = false -> forall x, In x l -> p x = false.
Proof. induction l as [|y l IH]; cbn; [tauto|]. intros H x [->|Hx]; [now destruct (p x)|]. apply orb_false_iff in H as [_ H]. auto. Qed.

Lemma on_added_ok v xs : forall s n, node_rel xs s n -> tells v xs s = true ->
  exists n', on_added v n = Ok n' /\ node_rel (v :: xs) s n'.
Proof.
  induction s as [lt ss IH|] using shape_ind'; intros n R H; [apply rel_mirror in R as (ns & -> & SW & HP & HF)|apply rel_foreign in R as [-> HP]]; cbn [ObsSetSpec.tells] in H.
  - apply andb_true_iff in H as [Hn Ht]. apply negb_true_iff in Hn. rewrite on_added_mirror, (vinsert_isort lt SW) by auto.
    assert (A : exists ns', added_all v ns = Ok ns' /\ Forall2 (node_rel (v :: xs)) ss ns').
    { clear -IH Ht HF. revert IH Ht. induction HF as [|s n ss ns R F I]; intros IH H2; cbn; [eauto|].
      cbn in H2. apply andb_true_iff in H2 as [H2 H3]. inversion_clear IH. destruct (H n R H2) as (n' & -> & Rn). cbn [rbind].
      destruct (I H0 H3) as (ns' & -> & Rs). cbn [rbind]. eauto. }
    destruct A as (ns' & -> & A). cbn [rbind]. eexists. split; [reflexivity|]. constructor; auto. cbn. split; [|auto]. now apply not_exists.
  - apply negb_true_iff in H. rewrite eqb_sames in H. assert (P : pw same (v :: xs)) by (cbn; split; [now apply not_exists|auto]).
    cbn [ObsSetModel.on_added]. rewrite f_added_ok by auto. cbn [rbind]. eexists. split; [reflexivity|]. constructor. exact P.
Qed.
Lemma added_all_ok v xs ss ns : Forall2 (node_rel xs) ss ns -> forallb (tells v xs) ss = true ->
  exists ns', added_all v ns = Ok ns' /\ Forall2 (node_rel (v :: xs)) ss ns'.
Proof.
  induction 1 as [|s n ss ns R F I]; intros H2; cbn; [eauto|].
  cbn in H2. apply andb_true_iff in H2 as [H2 H3]. destruct (on_added_ok v xs s n R H2) as (n' & -> & Rn). cbn [rbind].
  destruct (I H3) as (ns' & -> & Rs). cbn [rbind]. eauto.
Qed.

Lemma pw_mid (R : T -> T -> bool) a x b : pw R (a ++ x :: b) -> pw R (a ++ b).
Proof. rewrite !pw_app. cbn. intros (H1 & [H2 H3] & H4). repeat split; auto. Qed.

Lemma on_removing_ok a x b : forall s n, node_rel (a ++ x :: b) s n ->
  exists n', on_removing x n = Ok n' /\ node_rel (a ++ b) s n'.
Proof.
  induction s as [lt ss IH|] using shape_ind'; intros n R; [apply rel_mirror in R as (ns & -> & SW & HP & HF)|apply rel_foreign in R as [-> HP]].
  - rewrite on_removing_mirror. destruct (isort_remove lt SW a x b HP) as [-> ->].
    assert (A : exists ns', removing_all x ns = Ok ns' /\ Forall2 (node_rel (a ++ b)) ss ns').
    { clear -IH HF. revert IH. induction HF as [|s n ss ns R F I]; intros IH; cbn; [eauto|].
      inversion_clear IH. destruct (H n R) as (n' & -> & Rn). cbn [rbind].
      destruct (I H0) as (ns' & -> & Rs). cbn [rbind]. eauto. }
    destruct A as (ns' & -> & A). cbn [rbind]. eexists. split; [reflexivity|]. constructor; auto. now apply pw_mid in HP.
  - cbn [ObsSetModel.on_removing]. rewrite f_removing_ok by auto. cbn [rbind]. eexists. split; [reflexivity|]. constructor. eapply pw_mid; eauto.
Qed.
Lemma removing_all_ok a x b ss ns : Forall2 (node_rel (a ++ x :: b)) ss ns ->
  exists ns', removing_all x ns = Ok ns' /\ Forall2 (node_rel (a ++ b)) ss ns'.
Proof.
  induction 1 as [|s n ss ns R F I]; cbn; [eauto|].
  destruct (on_removing_ok a x b s n R) as (n' & -> & Rn). cbn [rbind].
  destruct I as (ns' & -> & Rs). cbn [rbind]. eauto.
Qed.

Lemma on_clearing_ok xs : forall s n, node_rel xs s n -> node_rel [] s (on_clearing n).
Proof.
  induction s as [lt ss IH|] using shape_ind'; intros n R; [apply rel_mirror in R as (ns & -> & SW & HP & HF)|apply rel_foreign in R as [-> HP]].
  - rewrite on_clearing_mirror. destruct (isort lt xs) as [|y l] eqn:E.
    + pose proof (isort_perm lt xs) as P. rewrite E in P. apply Permutation_nil in P. subst.
      change (@nil T) with (isort lt []) at 2. constructor; auto.
    + change (@nil T) with (isort lt []) at 2. constructor; [auto|exact I|].
      clear -IH HF. unfold clearing_all. revert IH. induction HF as [|s n ss ns R F J]; intros IH; cbn; constructor; inversion_clear IH; auto.
  - cbn. change (@nil (list T)) with (grouping []). constructor. exact I.
Qed.
Lemma clearing_all_ok xs ss ns : Forall2 (node_rel xs) ss ns -> Forall2 (node_rel []) ss (clearing_all ns).
Proof. unfold clearing_all. induction 1; cbn; constructor; eauto using on_clearing_ok. Qed.

(** The relation does not depend on the order of the bag. *)
Lemma node_rel_perm xs ys : Permutation xs ys -> forall s n, node_rel xs s n -> node_rel ys s n.
Proof.
  intros P. induction s as [lt ss IH|] using shape_ind'; intros n R; [apply rel_mirror in R as (ns & -> & SW & HP & HF)|apply rel_foreign in R as [-> HP]].
  - rewrite (isort_ext lt SW xs ys HP P). constructor; auto.
    + eapply pw_perm; [|exact P|exact HP]. intros; apply eqv_sym.
    + clear -IH HF. revert IH. induction HF as [|s n ss ns R F J]; intros IH; constructor; inversion_clear IH; auto.
  - rewrite (grouping_ext xs ys HP P). constructor. eapply pw_perm; [|exact P|exact HP]. intros; apply same_sym.
Qed.
Lemma nodes_rel_perm xs ys ss ns : Permutation xs ys -> Forall2 (node_rel xs) ss ns -> Forall2 (node_rel ys) ss ns.
Proof. intros P. induction 1; constructor; eauto using node_rel_perm. Qed.

(** What an observer tells apart is a symmetric relation on elements. *)
Lemma tells_nil v : forall s, tells v [] s = true.
Proof.
  induction s as [lt ss IH|] using shape_ind'; [|reflexivity]. cbn. induction IH as [|s ss H IH I]; cbn; [reflexivity|]. now rewrite H.
Qed.
Lemma tells_cons v x xs : forall s, tells v (x :: xs) s = tells v [x] s && tells v xs s.
Proof.
  induction s as [lt ss IH|] using shape_ind'; cbn [ObsSetSpec.tells existsb].
  - assert (E : forallb (tells v (x :: xs)) ss = forallb (tells v [x]) ss && forallb (tells v xs) ss).
    { induction IH as [|s ss H IH I]; cbn [forallb]; [reflexivity|]. rewrite H, I. btauto. }
    rewrite E. btauto.
  - btauto.
Qed.
Lemma tells_sym v x : forall s, tells v [x] s = tells x [v] s.
Proof.
  induction s as [lt ss IH|] using shape_ind'; cbn [ObsSetSpec.tells existsb].
  - rewrite (eqv_sym lt v x). f_equal. induction IH as [|s ss H IH I]; cbn [forallb]; congruence.
  - rewrite (Z.eqb_sym (fk x)), (Z.eqb_sym (pk x)). reflexivity.
Qed.
Definition mixes (s : shape (T := T)) (x y : T) : bool := negb (tells x [y] s).
Lemma tells_forall v s xs : tells v xs s = true <-> forall y, In y xs -> mixes s v y = false.
Proof.
  unfold mixes. induction xs as [|x xs IH]; [rewrite tells_nil; cbn; intuition|]. rewrite tells_cons, andb_true_iff, IH. cbn. split.
  - intros [H1 H2] y [<-|Hy]; [now rewrite H1|auto].
  - intros H. split; [|auto]. apply negb_false_iff. apply H. auto.
Qed.
Lemma tells_all_pw s xs : tells_all xs s = true <-> pw (mixes s) xs.
Proof.
  induction xs as [|x xs IH]; cbn [ObsSetSpec.tells_all pw]; [tauto|]. rewrite andb_true_iff, IH, tells_forall. reflexivity.
Qed.
Lemma tells_all_perm s xs ys : Permutation xs ys -> tells_all xs s = true -> tells_all ys s = true.
Proof. rewrite !tells_all_pw. intros P. apply pw_perm; [|exact P]. intros; unfold mixes. now rewrite tells_sym. Qed.

(** Adding a list of elements one after another. *)
Lemma fill_ok vs : forall xs s n, node_rel xs s n -> tells_all (rev vs ++ xs) s = true ->
  exists n', fill pk fk vs n = Ok n' /\ node_rel (rev vs ++ xs) s n'.
Proof.
  induction vs as [|v vs IH]; cbn [rev fill]; intros xs s n R H; [cbn; eauto|].
  rewrite <- app_assoc in *. cbn [app] in *.
  destruct (on_added_ok v xs s n R) as (n1 & -> & R1).
  { apply tells_all_pw in H. apply pw_app in H as (_ & [H _] & _). now apply tells_forall. }
  cbn [rbind]. now apply IH.
Qed.
Lemma added_each_ok vs : forall xs ss ns, Forall2 (node_rel xs) ss ns -> forallb (tells_all (rev vs ++ xs)) ss = true ->
  exists ns', added_each pk fk vs ns = Ok ns' /\ Forall2 (node_rel (rev vs ++ xs)) ss ns'.
Proof.
  induction vs as [|v vs IH]; cbn [rev added_each]; intros xs ss ns R H; [cbn; eauto|].
  rewrite <- app_assoc in *. cbn [app] in *.
  destruct (added_all_ok v xs ss ns R) as (n1 & -> & R1).
  { apply forallb_forall. intros s Hs. rewrite forallb_forall in H. specialize (H s Hs).
    apply tells_all_pw in H. apply pw_app in H as (_ & [H _] & _). now apply tells_forall. }
  cbn [rbind]. now apply IH.
Qed.

(** Lists of observers, by position. *)
Lemma F2_nth {A B} (R : A -> B -> Prop) l l' : Forall2 R l l' -> forall i a, nth_error l i = Some a ->
  exists b, nth_error l' i = Some b /\ R a b.
Proof. induction 1 as [|a b l l' H F IH]; intros [|i] c E; cbn in *; try discriminate; [injection E as <-; eauto|eauto]. Qed.
Lemma F2_length {A B} (R : A -> B -> Prop) l l' : Forall2 R l l' -> length l = length l'.
Proof. induction 1; cbn; auto. Qed.
Lemma F2_set {A B} (R : A -> B -> Prop) l l' : Forall2 R l l' -> forall i a b, R a b -> Forall2 R (set_nth l i a) (set_nth l' i b).
Proof. induction 1 as [|a b l l' H F IH]; intros [|i] c d E; cbn; constructor; auto. Qed.
Lemma F2_remove {A B} (R : A -> B -> Prop) l l' : Forall2 R l l' -> forall i, Forall2 R (remove_nth i l) (remove_nth i l').
Proof. induction 1 as [|a b l l' H F IH]; intros [|i]; cbn; auto. Qed.

Lemma subscribe_ok s0 n0 xs (H0 : forall ys, Permutation ys xs -> exists n1, fill pk fk ys n0 = Ok n1 /\ node_rel xs s0 n1) :
  forall p ss ns ys ss', Forall2 (node_rel xs) ss ns -> Permutation ys xs -> sh_subscribe p s0 ss = Some ss' ->
  exists ns', subscribe_at pk fk p n0 ys ns = Ok ns' /\ Forall2 (node_rel xs) ss' ns'.
Proof.
  induction p as [|i p IH]; cbn [sh_subscribe subscribe_at]; intros ss ns ys ss' R P E.
  - injection E as <-. destruct (H0 ys P) as (n1 & -> & R1). cbn [rbind]. eexists. split; [reflexivity|]. apply Forall2_app; auto.
  - destruct (nth_error ss i) as [[lt ss1|]|] eqn:En; try discriminate.
    destruct (F2_nth _ _ _ R _ _ En) as (n & -> & Rn). apply rel_mirror in Rn as (ns1 & -> & SW & HP & HF).
    destruct (sh_subscribe p s0 ss1) as [ss2|] eqn:E2; [|discriminate]. injection E as <-.
    destruct (IH _ _ (isort lt xs) _ HF (isort_perm lt xs) E2) as (ns2 & -> & R2). cbn [rbind].
    eexists. split; [reflexivity|]. apply F2_set; [auto|]. constructor; auto.
Qed.
Lemma sh_drop_cons i j p (ss : list (shape (T := T))) : sh_drop (i :: j :: p) ss =
  match nth_error ss i with
  | Some (SMirror lt s1) => match sh_drop (j :: p) s1 with Some s2 => Some (set_nth ss i (SMirror lt s2)) | None => None end
  | _ => None
  end.
Proof. reflexivity. Qed.
Lemma drop_at_cons i j p (ns : list (node (T := T))) : drop_at (i :: j :: p) ns =
  match nth_error ns i with
  | Some (Mirror lt ys n1) => let* n2 := drop_at (j :: p) n1 in Ok (set_nth ns i (Mirror lt ys n2))
  | _ => UB
  end.
Proof. reflexivity. Qed.
Lemma drop_ok xs : forall p ss ns ss', Forall2 (node_rel xs) ss ns -> sh_drop p ss = Some ss' ->
  exists ns', drop_at p ns = Ok ns' /\ Forall2 (node_rel xs) ss' ns'.
Proof.
  induction p as [|i p IH]; intros ss ns ss' R E; [discriminate|]. destruct p as [|j p].
  - cbn [sh_drop drop_at] in *. rewrite <- (F2_length _ _ _ R). destruct (i <? length ss); [|discriminate]. injection E as <-.
    eexists. split; [reflexivity|]. now apply F2_remove.
  - rewrite sh_drop_cons in E. rewrite drop_at_cons.
    destruct (nth_error ss i) as [[lt ss1|]|] eqn:En; try discriminate.
    destruct (F2_nth _ _ _ R _ _ En) as (n & -> & Rn). apply rel_mirror in Rn as (ns1 & -> & SW & HP & HF).
    destruct (sh_drop (j :: p) ss1) as [ss2|] eqn:E2; [|discriminate]. injection E as <-.
    destruct (IH _ _ _ HF E2) as (ns2 & -> & R2). cbn [rbind].
    eexists. split; [reflexivity|]. apply F2_set; [auto|]. constructor; auto.
Qed.
Lemma look_ok xs : forall p ss ns s, Forall2 (node_rel xs) ss ns -> sh_at p ss = Some s ->
  look_at p ns = Some (match s with SMirror lt _ => CMirror (isort lt xs) | SForeign => CForeign (grouping xs) end).
Proof.
  induction p as [|i p IH]; cbn [sh_at look_at]; intros ss ns s R E; [discriminate|].
  destruct (nth_error ss i) as [[lt ss1|]|] eqn:En; [| |discriminate];
    destruct (F2_nth _ _ _ R _ _ En) as (n & -> & Rn).
  - apply rel_mirror in Rn as (ns1 & -> & SW & HP & HF). destruct p; [injection E as <-; reflexivity|]. now apply IH with ss1.
  - apply rel_foreign in Rn as [-> HP]. destruct p; [injection E as <-; reflexivity|discriminate].
Qed.

(** Sources. *)
Record source_rel (ss : ssource (T := T)) (s : source (T := T)) : Prop := {
  sr_lt : clt s = slt ss;
  sr_sw : strict_weak (slt ss);
  sr_pw : pw (eqv (slt ss)) (sxs ss);
  sr_xs : cxs s = isort (slt ss) (sxs ss);
  sr_subs : Forall2 (node_rel (sxs ss)) (ssubs ss) (csubs s) }.

Lemma eqv_trans (lt : T -> T -> bool) (SW : strict_weak lt) v x : eqv lt v x = true -> forall y, eqv lt v y = eqv lt x y.
Proof.
  unfold eqv. intros H y. apply andb_true_iff in H as [H1 H2]. apply negb_true_iff in H1, H2.
  assert (A : lt v y = lt x y).
  { destruct (lt v y) eqn:E, (lt x y) eqn:F; auto.
    - rewrite (sw_incomp _ SW v x y) in E; auto.
    - rewrite (sw_incomp _ SW x v y) in F; auto. }
  assert (B : lt y v = lt y x).
  { destruct (lt y v) eqn:E, (lt y x) eqn:F; auto.
    - rewrite (sw_incomp _ SW y x v) in E; auto.
    - rewrite (sw_incomp _ SW y v x) in F; auto. }
  now rewrite A, B.
Qed.
Lemma find_ext (p q : T -> bool) l : (forall y, p y = q y) -> find p l = find q l.
Proof. intros H. induction l as [|y l IH]; cbn; [auto|]. rewrite H, IH. reflexivity. Qed.

Lemma without_mid (lt : T -> T -> bool) (SW : strict_weak lt) v a x b : pw (eqv lt) (a ++ x :: b) -> eqv lt v x = true -> without lt v (a ++ x :: b) = a ++ b.
Proof.
  intros H E. apply pw_app in H as (_ & [Hb _] & Ha). unfold without. rewrite filter_app. cbn. rewrite E. cbn. f_equal.
  - apply filter_all. intros y Hy. rewrite (eqv_trans lt SW v x E), eqv_sym, (Ha y x); cbn; auto.
  - apply filter_all. intros y Hy. rewrite (eqv_trans lt SW v x E), (Hb y); auto.
Qed.
Lemma erase_split (lt : T -> T -> bool) (SW : strict_weak lt) v xs : pw (eqv lt) xs -> existsb (eqv lt v) xs = true ->
  exists a x b, xs = a ++ x :: b /\ without lt v xs = a ++ b /\ find (eqv lt v) (isort lt xs) = Some x /\
                vremove (eqv lt v) (isort lt xs) = isort lt (a ++ b).
Proof.
  intros H E. apply existsb_exists in E as (x & Hx & E). apply in_split in Hx as (a & b & ->).
  exists a, x, b. split; [auto|]. split; [now apply without_mid|].
  rewrite (find_ext _ _ _ (eqv_trans lt SW v x E)), (vremove_ext _ _ _ (eqv_trans lt SW v x E)). now apply isort_remove.
Qed.
Lemma remove_nth_vremove (lt : T -> T -> bool) (SW : strict_weak lt) l : ssorted lt l -> forall n x, nth_error l n = Some x ->
  remove_nth n l = vremove (eqv lt x) l.
Proof.
  induction 1 as [|y l H IH F]; intros [|n] x E; cbn in *; try discriminate.
  - injection E as ->. now rewrite eqv_refl.
  - rewrite Forall_forall in F. assert (L : lt y x = true) by (apply F; eapply nth_error_In; eauto).
    unfold eqv at 1. rewrite L. rewrite andb_false_r. f_equal. auto.
Qed.

Definition env_rel (se : senv (T := T)) (e : oenv (T := T)) : Prop :=
  forall i, match se i, e i with Some ss, Some s => source_rel ss s | None, None => True | _, _ => False end.

Lemma env_rel_upd se e i ss s : env_rel se e ->
  match ss, s with Some ss, Some s => source_rel ss s | None, None => True | _, _ => False end -> env_rel (upd se i ss) (upd e i s).
Proof.
  intros R H j. destruct (Nat.eq_dec j i) as [->|N]; [rewrite !upd_eq; exact H|rewrite !upd_neq by auto; apply R].
Qed.
Lemma env_some se e i ss : env_rel se e -> se i = Some ss -> exists s, e i = Some s /\ source_rel ss s.
Proof. intros R E. specialize (R i). rewrite E in R. destruct (e i); [eauto|destruct R]. Qed.
Lemma env_none se e i : env_rel se e -> se i = None -> e i = None.
Proof. intros R E. specialize (R i). rewrite E in R. destruct (e i); [destruct R|auto]. Qed.

Lemma cleared_rel ss s : source_rel ss s ->
  source_rel {| slt := slt ss; sxs := []; ssubs := ssubs ss |} (o_clear s).
Proof.
  intros [A B C D E]. unfold o_clear. destruct (cxs s) as [|x l] eqn:Ex.
  - pose proof (isort_perm (slt ss) (sxs ss)) as P. rewrite <- D in P. apply Permutation_nil in P.
    constructor; cbn; auto. rewrite P in E. exact E.
  - constructor; cbn; auto. eapply clearing_all_ok; eauto.
Qed.

Lemma new_mirror lt xs : strict_weak lt -> tells_all xs (SMirror lt []) = true ->
  forall ys, Permutation ys xs -> exists n1, fill pk fk ys (Mirror lt [] []) = Ok n1 /\ node_rel xs (SMirror lt []) n1.
Proof.
  intros SW H ys P. assert (Q : Permutation (rev ys ++ []) xs) by (rewrite app_nil_r, <- Permutation_rev; exact P).
  destruct (fill_ok ys [] (SMirror lt []) (Mirror lt [] [])) as (n1 & F & R).
  - apply (NR_mirror [] lt [] []); cbn; auto.
  - eapply tells_all_perm; [symmetry; exact Q|exact H].
  - exists n1. split; [exact F|]. eapply node_rel_perm; eauto.
Qed.
Lemma new_foreign xs : tells_all xs SForeign = true ->
  forall ys, Permutation ys xs -> exists n1, fill pk fk ys (Foreign []) = Ok n1 /\ node_rel xs SForeign n1.
Proof.
  intros H ys P. assert (Q : Permutation (rev ys ++ []) xs) by (rewrite app_nil_r, <- Permutation_rev; exact P).
  destruct (fill_ok ys [] SForeign (Foreign [])) as (n1 & F & R).
  - apply NR_foreign. exact I.
  - eapply tells_all_perm; [symmetry; exact Q|exact H].
  - exists n1. split; [exact F|]. eapply node_rel_perm; eauto.
Qed.

Lemma erase_elem_ok ss s a x b l : source_rel ss s -> sxs ss = a ++ x :: b -> l = isort (slt ss) (a ++ b) ->
  exists s1, o_erase_elem pk fk x l s = Ok s1 /\ source_rel {| slt := slt ss; sxs := a ++ b; ssubs := ssubs ss |} s1.
Proof.
  intros [A B C D E] Ex ->. rewrite Ex in *. unfold o_erase_elem.
  destruct (removing_all_ok _ _ _ _ _ E) as (ns' & -> & R). cbn [rbind]. eexists. split; [reflexivity|].
  constructor; cbn; auto. eapply pw_mid; eauto.
Qed.

Theorem step_sim se e o se' v : env_rel se e -> op_orders o strict_weak -> sstep pk fk se o = Some (se', v) ->
  exists e', ostep pk fk e o = Ok (e', v) /\ env_rel se' e'.
Proof.
  intros R W H. destruct o; cbn [sstep ostep op_orders] in *.
  - (* new *) destruct (se i) eqn:Es; [discriminate|]. injection H as <- <-. rewrite (env_none _ _ _ R Es).
    eexists. split; [reflexivity|]. apply env_rel_upd; [auto|]. constructor; cbn; auto.
  - (* insert *) destruct (se i) as [ss|] eqn:Es; [|discriminate]. destruct (env_some _ _ _ _ R Es) as (s & -> & Rs). pose proof Rs as [A B C D E].
    unfold o_insert. rewrite A, D. destruct (existsb (eqv (slt ss) v0) (sxs ss)) eqn:Ex.
    + rewrite (vinsert_old _ _ _ Ex). injection H as <- <-. cbn [rbind].
      eexists. split; [reflexivity|]. intros j. destruct (Nat.eq_dec j i) as [->|N]; [rewrite upd_eq, Es; exact Rs|rewrite upd_neq by auto; apply R].
    + rewrite (vinsert_isort _ B _ _ Ex). destruct (forallb (tells v0 (sxs ss)) (ssubs ss)) eqn:Et; [|discriminate]. injection H as <- <-.
      destruct (added_all_ok _ _ _ _ E Et) as (ns' & -> & R'). cbn [rbind]. eexists. split; [reflexivity|]. apply env_rel_upd; [auto|].
      constructor; cbn [slt sxs ssubs clt cxs csubs]; auto. cbn. split; [|auto]. now apply not_exists.
  - (* erase *) destruct (se i) as [ss|] eqn:Es; [|discriminate]. destruct (env_some _ _ _ _ R Es) as (s & -> & Rs). pose proof Rs as [A B C D E].
    unfold o_erase. rewrite A, D. destruct (existsb (eqv (slt ss) v0) (sxs ss)) eqn:Ex.
    + injection H as <- <-. destruct (erase_split _ B _ _ C Ex) as (a & x & b & Exs & -> & -> & ->).
      destruct (erase_elem_ok ss s a x b _ Rs Exs eq_refl) as (s1 & -> & R1). cbn [rbind]. eexists. split; [reflexivity|]. now apply env_rel_upd.
    + injection H as <- <-. destruct (find (eqv (slt ss) v0) (isort (slt ss) (sxs ss))) as [x|] eqn:F.
      { exfalso. apply find_some in F as [F1 F2]. rewrite (not_exists _ _ Ex x) in F2; [discriminate|].
        eapply Permutation_in; [apply isort_perm|exact F1]. }
      cbn [rbind]. eexists. split; [reflexivity|]. intros j. destruct (Nat.eq_dec j i) as [->|N]; [rewrite upd_eq, Es; exact Rs|rewrite upd_neq by auto; apply R].
  - (* erase at *) destruct (se i) as [ss|] eqn:Es; [|discriminate]. destruct (env_some _ _ _ _ R Es) as (s & -> & Rs). pose proof Rs as [A B C D E].
    rewrite D. destruct (nth_error (isort (slt ss) (sxs ss)) n) as [x|] eqn:En; [|discriminate]. injection H as <- <-.
    rewrite (remove_nth_vremove _ B _ (isort_strict _ B _ C) _ _ En).
    assert (Hx : In x (sxs ss)) by (eapply Permutation_in; [apply isort_perm|eapply nth_error_In; eauto]).
    apply in_split in Hx as (a & b & Exs). rewrite Exs in C. destruct (isort_remove _ B a x b C) as [_ Hr].
    pose proof (without_mid _ B x a x b C (eqv_refl _ B x)) as Hw.
    destruct (erase_elem_ok ss s a x b (vremove (eqv (slt ss) x) (isort (slt ss) (sxs ss))) Rs Exs) as (s1 & -> & R1); [now rewrite Exs|].
    cbn [rbind]. eexists. split; [reflexivity|]. rewrite Exs, Hw. now apply env_rel_upd.
  - (* clear *) destruct (se i) as [ss|] eqn:Es; [|discriminate]. destruct (env_some _ _ _ _ R Es) as (s & -> & Rs). injection H as <- <-.
    eexists. split; [reflexivity|]. apply env_rel_upd; [auto|]. now apply cleared_rel.
  - (* migrate *) destruct (se i) as [sa|] eqn:Ea; [|discriminate]. destruct (se j) as [sb|] eqn:Eb; [|discriminate].
    destruct (env_some _ _ _ _ R Ea) as (a & -> & Ra). destruct (env_some _ _ _ _ R Eb) as (b & -> & Rb).
    destruct (Nat.eqb i j).
    + injection H as <- <-. eexists. split; [reflexivity|]. apply env_rel_upd; [auto|]. pose proof (cleared_rel _ _ Ra) as [A B C D E].
      destruct Ra as [A' _ _ _ _]. constructor; cbn in *; auto. eapply clearing_all_ok; eauto.
    + destruct (forallb (tells_all (isort (slt sb) (sxs sb))) (ssubs sa)) eqn:Et; [|discriminate]. injection H as <- <-.
      pose proof (cleared_rel _ _ Ra) as [A B C D E]. pose proof Rb as [A' B' C' D' E']. unfold o_migrate. cbn in E.
      assert (P : Permutation (rev (cxs b) ++ []) (sxs sb)) by (rewrite app_nil_r, <- Permutation_rev, D'; apply isort_perm).
      destruct (added_each_ok (cxs b) [] _ _ E) as (ns' & -> & R').
      { apply forallb_forall. intros sh Hs. rewrite forallb_forall in Et. eapply tells_all_perm; [|exact (Et sh Hs)].
        rewrite P. apply isort_perm. }
      cbn [rbind]. eexists. split; [reflexivity|]. apply env_rel_upd; [apply env_rel_upd; [auto|]|].
      * constructor; cbn; auto. eapply clearing_all_ok; eauto.
      * constructor; cbn; auto. eapply nodes_rel_perm; eauto.
  - (* move *) destruct (se i) eqn:Ea; [discriminate|]. destruct (se j) as [sb|] eqn:Eb; [|discriminate].
    rewrite (env_none _ _ _ R Ea). destruct (env_some _ _ _ _ R Eb) as (b & -> & Rb). injection H as <- <-.
    eexists. split; [reflexivity|]. apply env_rel_upd; [apply env_rel_upd; [auto|]|exact Rb]. destruct Rb. constructor; cbn; auto.
  - (* move assign *) destruct (se i) as [sa|] eqn:Ea; [|discriminate]. destruct (se j) as [sb|] eqn:Eb; [|discriminate].
    destruct (env_some _ _ _ _ R Ea) as (a & -> & Ra). destruct (env_some _ _ _ _ R Eb) as (b & -> & Rb).
    destruct (Nat.eqb i j); injection H as <- <-; eexists; (split; [reflexivity|]).
    + apply env_rel_upd; [auto|]. destruct Ra. constructor; cbn; auto.
    + apply env_rel_upd; [apply env_rel_upd; [auto|]|exact Rb]. destruct Rb. constructor; cbn; auto.
  - (* destroy *) destruct (se i) as [ss|] eqn:Es; [|discriminate]. destruct (env_some _ _ _ _ R Es) as (s & -> & Rs). injection H as <- <-.
    eexists. split; [reflexivity|]. now apply env_rel_upd.
  - (* reflect *) destruct (se i) as [ss|] eqn:Es; [|discriminate]. destruct (env_some _ _ _ _ R Es) as (s & -> & Rs). pose proof Rs as [A B C D E].
    destruct (sh_subscribe path (SMirror lt []) (ssubs ss)) as [l|] eqn:El; [|discriminate].
    destruct (tells_all (sxs ss) (SMirror lt [])) eqn:Et; [|discriminate]. injection H as <- <-.
    assert (P : Permutation (cxs s) (sxs ss)) by (rewrite D; apply isort_perm).
    destruct (subscribe_ok _ _ _ (new_mirror lt _ W Et) _ _ _ _ _ E P El) as (ns' & -> & R').
    cbn [rbind]. eexists. split; [reflexivity|]. apply env_rel_upd; [auto|]. constructor; cbn; auto.
  - (* foreign *) destruct (se i) as [ss|] eqn:Es; [|discriminate]. destruct (env_some _ _ _ _ R Es) as (s & -> & Rs). pose proof Rs as [A B C D E].
    destruct (sh_subscribe path SForeign (ssubs ss)) as [l|] eqn:El; [|discriminate].
    destruct (tells_all (sxs ss) SForeign) eqn:Et; [|discriminate]. injection H as <- <-.
    assert (P : Permutation (cxs s) (sxs ss)) by (rewrite D; apply isort_perm).
    destruct (subscribe_ok _ _ _ (new_foreign _ Et) _ _ _ _ _ E P El) as (ns' & -> & R').
    cbn [rbind]. eexists. split; [reflexivity|]. apply env_rel_upd; [auto|]. constructor; cbn; auto.
  - (* drop *) destruct (se i) as [ss|] eqn:Es; [|discriminate]. destruct (env_some _ _ _ _ R Es) as (s & -> & Rs). pose proof Rs as [A B C D E].
    destruct (sh_drop path (ssubs ss)) as [l|] eqn:El; [|discriminate]. injection H as <- <-.
    destruct (drop_ok _ _ _ _ _ E El) as (ns' & -> & R').
    cbn [rbind]. eexists. split; [reflexivity|]. apply env_rel_upd; [auto|]. constructor; cbn; auto.
  - (* iterate *) destruct (se i) as [ss|] eqn:Es; [|discriminate]. destruct (env_some _ _ _ _ R Es) as (s & -> & Rs). injection H as <- <-.
    rewrite (sr_xs _ _ Rs). eexists. split; [reflexivity|auto].
  - (* look *) destruct (se i) as [ss|] eqn:Es; [|discriminate]. destruct (env_some _ _ _ _ R Es) as (s & -> & Rs).
    destruct (sh_at path (ssubs ss)) as [sh|] eqn:El; [|discriminate]. rewrite (look_ok _ _ _ _ _ (sr_subs _ _ Rs) El).
    destruct sh; injection H as <- <-; (eexists; split; [reflexivity|auto]).
Qed.

Theorem run_sim os : forall se e se' vs, env_rel se e -> (forall o, In o os -> op_orders o strict_weak) ->
  srun pk fk se os = Some (se', vs) -> orun pk fk e os = Ok vs.
Proof.
  induction os as [|o os IH]; cbn [srun orun]; intros se e se' vs R W H.
  - injection H as <- <-. reflexivity.
  - destruct (sstep pk fk se o) as [[se1 v]|] eqn:Es; [|discriminate].
    destruct (srun pk fk se1 os) as [[se2 vs2]|] eqn:Er; [|discriminate]. injection H as <- <-.
    destruct (step_sim _ _ _ _ _ R (W o (or_introl eq_refl)) Es) as (e1 & -> & R1). cbn [rbind].
    rewrite (IH _ _ _ _ R1 (fun o' Ho => W o' (or_intror Ho)) Er). reflexivity.
Qed.
End Nodes.
