(** Observable sets whose observers throw. *)
From Verif Require Import Common VSetSpec ObsSetModel ObsSetSpec ObsSetProofs ObsThrowModel ObsThrowSpec.
From Coq Require Import Sorting.Sorted Sorting.Permutation ZifyBool ZifyNat.

Section Proofs.
Context {T : Type} (pk fk : T -> Z).
Notation tnode := (tnode (T := T)).
Notation grouping := (grouping pk fk).
Notation same := (same pk fk).
Notation t_added := (t_added pk fk).
Notation t_removing := (t_removing pk fk).

Lemma tnode_ind' (P : tnode -> Prop) :
  (forall lt xs subs, Forall P subs -> P (TMirror lt xs subs)) -> (forall gs, P (TForeign gs)) -> (forall l p, P (TUser l p)) -> forall n, P n.
Proof.
  intros HM HF HU. fix IH 1. intros [lt xs subs|gs|l p]; [|apply HF|apply HU]. apply HM.
  induction subs as [|s r IHr]; constructor; [apply IH|exact IHr].
Qed.

Definition all (P : tnode -> Prop) (l : list tnode) : Prop := (fix all l := match l with [] => True | s :: r => P s /\ all r end) l.
Lemma all_Forall P l : all P l <-> Forall P l.
Proof. induction l as [|s r IH]; cbn; [split; auto|]. change ((fix all l := match l with [] => True | s :: r => P s /\ all r end) r) with (all P r). rewrite IH. split; [intros []; auto|]. inversion 1; auto. Qed.
Lemma below_mirror (xs : list T) lt ys subs : below xs (TMirror lt ys subs) <-> (forall z, In z ys -> In z xs) /\ Forall (below ys) subs.
Proof. cbn [below]. change ((fix all l := match l with [] => True | s :: r => below (T := T) ys s /\ all r end) subs) with (all (below (T := T) ys) subs). now rewrite all_Forall. Qed.
Lemma synced_mirror (xs : list T) lt ys subs : synced xs (TMirror lt ys subs) <-> (forall z, In z ys <-> In z xs) /\ Forall (synced ys) subs.
Proof. cbn [synced]. change ((fix all l := match l with [] => True | s :: r => synced ys s /\ all r end) subs) with (all (synced ys) subs). now rewrite all_Forall. Qed.
Lemma no_foreign_mirror lt (ys : list T) subs : no_foreign (TMirror lt ys subs) <-> Forall no_foreign subs.
Proof. cbn [no_foreign]. change ((fix all l := match l with [] => True | s :: r => no_foreign s /\ all r end) subs) with (all no_foreign subs). now rewrite all_Forall. Qed.

(** The observers are as their own operations leave them: sorted mirrors, groups of elements with different keys. *)
Fixpoint wf (n : tnode) : Prop :=
  match n with
  | TMirror lt ys subs => strict_weak lt /\ ssorted lt ys /\ (fix all l := match l with [] => True | s :: r => wf s /\ all r end) subs
  | TForeign gs => exists zs, pw same zs /\ gs = grouping zs
  | TUser _ _ => True
  end.
Lemma wf_mirror lt ys subs : wf (TMirror lt ys subs) <-> strict_weak lt /\ ssorted lt ys /\ Forall wf subs.
Proof. cbn [wf]. change ((fix all l := match l with [] => True | s :: r => wf s /\ all r end) subs) with (all wf subs). now rewrite all_Forall. Qed.

(** Foreign sets *)
Lemma in_grouping zs z : In z (concat (grouping zs)) <-> In z zs.
Proof.
  rewrite grouping_grp, in_concat. split.
  - intros (g & G & Z0). apply in_map_iff in G as (k & <- & _). unfold grp in Z0. apply (Permutation_in _ (isort_perm _ _)) in Z0. apply sel_in in Z0. tauto.
  - intros Z0. exists (grp pk fk zs (fk z)). split.
    + apply in_map_iff. exists (fk z). split; auto. apply keys_in. eauto.
    + unfold grp. apply (Permutation_in _ (Permutation_sym (isort_perm _ _))). apply sel_in. auto.
Qed.
Lemma find_grouping zs k : find_group fk k (grouping zs) = Ok (if existsb (Z.eqb k) (keys fk zs) then Some (grp pk fk zs k) else None).
Proof. rewrite grouping_grp. apply find_group_map. intros. now apply grp_key. Qed.

Lemma f_added_inv v zs gs' : pw same zs -> f_added pk fk v (grouping zs) = Ok gs' -> pw same (v :: zs) /\ gs' = grouping (v :: zs).
Proof.
  intros P E. assert (Q : pw same (v :: zs)).
  { split; [|exact P]. intros y Y. destruct (same v y) eqn:S; auto. exfalso. unfold f_added in E. rewrite find_grouping in E. cbn [rbind] in E.
    assert (K : existsb (Z.eqb (fk v)) (keys fk zs) = true).
    { apply existsb_exists. exists (fk v). split; [|lia]. apply keys_in. exists y. unfold ObsSetProofs.same in S. split; auto. lia. }
    rewrite K in E. unfold vinsert in E. assert (X : existsb (eqv (pk_lt pk) v) (grp pk fk zs (fk v)) = true).
    { apply existsb_exists. exists y. split.
      - unfold grp. apply (Permutation_in _ (Permutation_sym (isort_perm _ _))). apply sel_in. unfold ObsSetProofs.same in S. split; auto; lia.
      - change (pk_lt pk) with (plt pk). rewrite (eqv_plt pk fk). unfold ObsSetProofs.same in S. lia. }
    rewrite X in E. discriminate. }
  split; auto. rewrite f_added_ok in E by auto. congruence.
Qed.
Lemma f_removing_same v x gs : same v x = true -> f_removing pk fk v gs = f_removing pk fk x gs.
Proof. unfold ObsSetProofs.same, f_removing. intros S. replace (fk v) with (fk x) by lia. replace (pk v) with (pk x) by lia. reflexivity. Qed.
Lemma f_removing_inv v zs gs' : pw same zs -> f_removing pk fk v (grouping zs) = Ok gs' ->
  exists a x b, zs = a ++ x :: b /\ same v x = true /\ gs' = grouping (a ++ b).
Proof.
  intros P E. assert (Q : exists x, In x zs /\ same v x = true).
  { unfold f_removing in E. rewrite find_grouping in E. cbn [rbind] in E. destruct (existsb (Z.eqb (fk v)) (keys fk zs)) eqn:K; [|discriminate].
    assert (G : forall x, In x (grp pk fk zs (fk v)) -> In x zs /\ fk x = fk v).
    { intros x X. unfold grp in X. apply (Permutation_in _ (isort_perm _ _)) in X. now apply sel_in in X. }
    destruct (grp pk fk zs (fk v)) as [|x [|y g]]; [discriminate| |].
    - destruct (Z.eqb_spec (pk x) (pk v)) as [X|X]; [|discriminate]. destruct (G x) as (G1 & G2); [cbn; auto|]. exists x. split; auto. unfold ObsSetProofs.same. lia.
    - destruct (existsb (fun y => (pk y =? pk v)%Z) (x :: y :: g)) eqn:X; [|discriminate]. apply existsb_exists in X as (z & Z1 & Z2). destruct (G z Z1) as (G1 & G2).
      exists z. split; auto. unfold ObsSetProofs.same. lia. }
  destruct Q as (x & X & S). apply in_split in X as (a & b & ->). exists a, x, b. split; auto. split; auto.
  rewrite (f_removing_same _ _ _ S), f_removing_ok in E by auto. congruence.
Qed.

(** Sets *)
Lemma vinsert_in lt v (xs : list T) xs' : vinsert lt v xs = (xs', true) -> forall z, In z xs' <-> z = v \/ In z xs.
Proof.
  unfold vinsert. destruct (existsb _ _); [discriminate|]. intros [= <-] z. unfold vins. rewrite in_app_iff. cbn [In]. rewrite !filter_In.
  destruct (lt z v); cbn; split; intuition (auto; congruence).
Qed.
Lemma vinsert_strict lt v (xs : list T) : strict_weak lt -> ssorted lt xs -> ssorted lt (fst (vinsert lt v xs)).
Proof.
  intros SW S. unfold vinsert. destruct (existsb (eqv lt v) xs) eqn:E; auto. cbn [fst].
  assert (N : forall x, In x xs -> lt x v = false -> lt v x = true).
  { intros x X L. assert (Y : eqv lt v x = false) by (apply (proj1 (existsb_false lt SW (eqv lt v) xs) E); auto). unfold eqv in Y. rewrite L in Y. destruct (lt v x); auto. }
  unfold vins. clear E. induction S as [|x xs S IH F]; cbn [filter app]; [repeat constructor|]. destruct (lt x v) eqn:L; cbn [negb app].
  - constructor; [apply IH; intros; apply N; cbn; auto|]. apply Forall_forall. intros y Y. rewrite in_app_iff in Y. cbn [In] in Y. rewrite !filter_In in Y. rewrite Forall_forall in F.
    destruct Y as [[Y _]|[<-|[Y _]]]; auto.
  - assert (H : forall y, In y xs -> lt y v = false).
    { intros y Y. rewrite Forall_forall in F. destruct (lt y v) eqn:M; auto. rewrite (sw_trans _ SW x y v) in L by auto. discriminate. }
    rewrite (filter_none (fun y => lt y v)) by auto. rewrite (filter_all (fun y => negb (lt y v))) by (intros; now rewrite H). cbn [app].
    constructor; [constructor; auto|]. constructor; [apply N; cbn; auto|]. apply Forall_forall. intros y Y. apply N; cbn; auto.
Qed.
Lemma vremove_in (p : T -> bool) xs y : find p xs = Some y -> forall z, In z xs -> z = y \/ In z (vremove p xs).
Proof.
  induction xs as [|x xs IH]; cbn; [discriminate|]. destruct (p x).
  - intros [= <-] z [<-|Z0]; auto.
  - intros F z [<-|Z0]; [right; left; auto|]. destruct (IH F z Z0); [left; auto|right; right; auto].
Qed.
Lemma ssorted_find lt v (xs : list T) : strict_weak lt -> ssorted lt xs -> In v xs -> find (eqv lt v) xs = Some v.
Proof. intros SW S I. now destruct (vremove_find lt SW v xs S I). Qed.
Lemma vremove_out lt v (xs : list T) : strict_weak lt -> ssorted lt xs -> ~ In v (vremove (eqv lt v) xs).
Proof.
  intros SW S I. assert (X : In v xs) by (eapply vremove_sub; eauto). destruct (vremove_find lt SW v xs S X) as (_ & P).
  assert (N : NoDup xs).
  { clear - SW S. induction S as [|x l S IH F]; constructor; auto. intros I. rewrite Forall_forall in F. specialize (F x I). rewrite (sw_irrefl _ SW) in F. discriminate. }
  apply (Permutation_NoDup P) in N. inversion N; auto.
Qed.
Lemma vremove_out_y lt v y (xs : list T) : strict_weak lt -> ssorted lt xs -> find (eqv lt v) xs = Some y -> ~ In y (vremove (eqv lt v) xs).
Proof.
  intros SW S F. rewrite (vremove_ext (eqv lt v) (eqv lt y)); [now apply vremove_out|]. intros z. apply eqv_trans; auto. apply find_some in F. tauto.
Qed.

(** The loops *)
Lemma each_nil f : each (T := T) f [] = Ok ([], None). Proof. reflexivity. Qed.
Lemma each_inv f l l' x : each (T := T) f l = Ok (l', x) ->
  (x = None /\ Forall2 (fun n n' => f n = Ok (n', None)) l l') \/
  (exists a n b a' n' e, x = Some e /\ l = a ++ n :: b /\ l' = a' ++ n' :: b /\ Forall2 (fun n n' => f n = Ok (n', None)) a a' /\ f n = Ok (n', Some e)).
Proof.
  revert l' x. induction l as [|n l IH]; intros l' x; cbn.
  - intros [= <- <-]. left. auto.
  - destruct (f n) as [[n' y]| |] eqn:E; cbn; try discriminate. destruct y as [e|].
    + intros [= <- <-]. right. exists [], n, l, [], n', e. auto.
    + destruct (each f l) as [[r z]| |] eqn:F; cbn; try discriminate. intros [= <- <-]. destruct (IH r z eq_refl) as [(-> & H)|(a & m & b & a' & m' & e & -> & -> & -> & H & G)].
      * left. auto.
      * right. exists (n :: a), m, b, (n' :: a'), m', e. repeat split; auto.
Qed.
(** What holds of each observer before, holds afterwards, if the calls keep it and an exception only weakens it. *)
Lemma each_Forall f (P Q : tnode -> Prop) l l' x : each f l = Ok (l', x) -> Forall P l ->
  (forall n n' y, In n l -> f n = Ok (n', y) -> P n -> Q n') -> (forall n, P n -> Q n) -> Forall Q l'.
Proof.
  intros E F H W. assert (A2 : forall a a', (forall n, In n a -> In n l) -> Forall2 (fun n n' => f n = Ok (n', None)) a a' -> Forall P a -> Forall Q a').
  { intros a a' I G. induction G; intros FP; inversion FP; subst; constructor; [eapply H; eauto; apply I; cbn; auto|apply IHG; auto; intros; apply I; cbn; auto]. }
  apply each_inv in E as [(-> & G)|(a & n & b & a' & n' & e & -> & -> & -> & G & E)]; [eapply A2; eauto|].
  apply Forall_app in F as (F1 & F2). inversion F2; subst. apply Forall_app. split; [apply (A2 a a'); auto; intros; apply in_or_app; auto|].
  constructor; [eapply H; eauto; apply in_or_app; cbn; auto|]. eapply Forall_impl; eauto.
Qed.
Lemma each_None f (P Q : tnode -> Prop) l l' : each f l = Ok (l', None) -> Forall P l ->
  (forall n n', In n l -> f n = Ok (n', None) -> P n -> Q n') -> Forall Q l'.
Proof.
  intros E F H. apply each_inv in E as [(_ & G)|(a & n & b & a' & n' & e & X & _)]; [|discriminate].
  induction G; inversion F; subst; constructor; [eapply H; eauto; cbn; auto|apply IHG; auto; intros; eapply H; eauto; cbn; auto].
Qed.

Lemma below_weaken (xs xs' : list T) n : (forall z, In z xs -> In z xs') -> below xs n -> below xs' n.
Proof. intros H. destruct n; [rewrite !below_mirror; intros []; split; auto|cbn; auto|auto]. Qed.
Lemma synced_below (xs : list T) : forall n, synced xs n -> below xs n.
Proof.
  intros n. revert xs. induction n as [lt ys subs IH|gs|l p] using tnode_ind'; intros xs.
  - rewrite synced_mirror, below_mirror. intros (S1 & S2). split; [firstorder|]. rewrite Forall_forall in *. auto.
  - cbn. firstorder.
  - auto.
Qed.
Lemma below_nil_synced : forall n : tnode, below [] n -> synced [] n.
Proof.
  intros n. induction n as [lt ys subs IH|gs|l p] using tnode_ind'.
  - rewrite synced_mirror, below_mirror. intros (B1 & B2). assert (ys = []) as -> by (destruct ys as [|y ys]; auto; destruct (B1 y); cbn; auto).
    split; [tauto|]. rewrite Forall_forall in *. auto.
  - cbn. firstorder.
  - auto.
Qed.

Lemma added_keeps v : forall n n' x, t_added v n = Ok (n', x) -> wf n ->
  wf n' /\ (forall xs xs', below xs n -> In v xs' -> (forall z, In z xs -> In z xs') -> below xs' n') /\
  (x = None -> forall xs xs', synced xs n -> (forall z, In z xs' <-> z = v \/ In z xs) -> synced xs' n').
Proof.
  induction n as [lt ys subs IH|gs|l p] using tnode_ind'; intros n' x E W.
  - cbn [ObsThrowModel.t_added] in E. apply wf_mirror in W as (SW & S & W). pose proof (vinsert_strict lt v ys SW S) as VS.
    destruct (vinsert lt v ys) as [ys' new] eqn:V. cbn [fst] in VS. destruct new.
    + destruct (each (t_added v) subs) as [[subs' y]| |] eqn:EE; cbn in E; try discriminate. injection E as <- <-. pose proof (vinsert_in _ _ _ _ V) as IN.
      rewrite Forall_forall in IH. split; [|split].
      * apply wf_mirror. split; auto. split; auto. eapply each_Forall; eauto. intros n n' z I F G. now destruct (IH n I _ _ F G).
      * intros xs xs' B IV X. apply below_mirror in B as (B1 & B2). apply below_mirror. split.
        -- intros z Z0. apply IN in Z0 as [->|Z0]; auto.
        -- assert (B3 : Forall (fun n => wf n /\ below ys n) subs) by (apply Forall_forall; intros n I; rewrite Forall_forall in *; auto).
           eapply (each_Forall _ _ _ _ _ _ EE B3).
           ++ intros n n' z I F (G1 & G2). destruct (IH n I _ _ F G1) as (_ & H & _). apply (H ys); auto; intros; apply IN; auto.
           ++ intros n (_ & G). apply (below_weaken ys); auto. intros. apply IN. auto.
      * intros -> xs xs' B X. apply synced_mirror in B as (B1 & B2). apply synced_mirror. split.
        -- intros z. rewrite IN, B1, X. tauto.
        -- assert (B3 : Forall (fun n => wf n /\ synced ys n) subs) by (apply Forall_forall; intros n I; rewrite Forall_forall in *; auto).
           eapply (each_None _ _ _ _ _ EE B3). intros n n' I F (G1 & G2). destruct (IH n I _ _ F G1) as (_ & _ & H). now apply (H eq_refl ys).
    + injection E as <- <-. split; [apply wf_mirror; auto|]. split; [|discriminate]. intros xs xs' B _ X. eapply below_weaken; eauto.
  - cbn in E. destruct (f_added pk fk v gs) as [gs'| |] eqn:F; cbn in E; try discriminate. injection E as <- <-. destruct W as (zs & P & ->).
    destruct (f_added_inv _ _ _ P F) as (P' & ->). split; [exists (v :: zs); auto|]. split.
    + intros xs xs' B IV X z. cbn in B. rewrite in_grouping. intros [<-|Z0]; auto. apply X, B, in_grouping. auto.
    + intros _ xs xs' B X z. cbn in B. rewrite in_grouping, X, <- B, in_grouping. cbn. intuition.
  - cbn in E. unfold u_call in E. injection E as <- <-. cbn. auto.
Qed.

Lemma removing_keeps : forall n v n' x, t_removing v n = Ok (n', x) -> wf n ->
  wf n' /\ (forall xs, below xs n -> below xs n') /\
  (x = None -> forall xs xs', below xs n -> (forall z, In z xs -> z <> v -> In z xs') -> below xs' n') /\
  (x = None -> forall xs xs', synced xs n -> In v xs -> (forall z, In z xs' <-> In z xs /\ z <> v) -> synced xs' n').
Proof.
  induction n as [lt ys subs IH|gs|l p] using tnode_ind'; intros v n' x E W.
  - cbn [ObsThrowModel.t_removing] in E. apply wf_mirror in W as (SW & S & W). rewrite Forall_forall in IH.
    destruct (find (eqv lt v) ys) as [y|] eqn:FY.
    + destruct (each (t_removing y) subs) as [[subs' z]| |] eqn:EE; cbn in E; try discriminate. injection E as <- <-.
      pose proof (vremove_in _ _ _ FY) as VI. pose proof (vremove_out_y lt v y ys SW S FY) as VY.
      assert (WS : Forall wf subs') by (eapply each_Forall; eauto; intros n n' u I F G; now destruct (IH n I _ _ _ F G)).
      assert (B4 : forall xs, Forall (fun n => wf n /\ below xs n) subs -> Forall (below xs) subs').
      { intros xs B3. eapply (each_Forall _ _ _ _ _ _ EE B3); [|tauto]. intros n n' u I F (G1 & G2). destruct (IH n I _ _ _ F G1) as (_ & H & _). auto. }
      assert (CB : forall xs, Forall (below xs) subs -> Forall (fun n => wf n /\ below xs n) subs) by (intros xs B; apply Forall_forall; intros n I; rewrite Forall_forall in *; auto).
      assert (BN : z = None -> Forall (below ys) subs -> Forall (below (vremove (eqv lt v) ys)) subs').
      { intros -> B. eapply (each_None _ _ _ _ _ EE (CB _ B)). intros n n' I F (G1 & G2). destruct (IH n I _ _ _ F G1) as (_ & _ & H & _). apply (H eq_refl ys); auto.
        intros u U N. destruct (VI u U); [contradiction|auto]. }
      split; [|split; [|split]].
      * apply wf_mirror. split; auto. split; auto. destruct z; auto. now apply vremove_strict.
      * intros xs B. apply below_mirror in B as (B1 & B2). apply below_mirror. destruct z; split; auto. intros u U. apply B1. eapply vremove_sub; eauto.
      * intros -> xs xs' B X. apply below_mirror in B as (B1 & B2). apply below_mirror. split; auto. intros u U. apply X; [apply B1; eapply vremove_sub; eauto|].
        intros ->. eapply vremove_out; eauto.
      * intros -> xs xs' B IV X. apply synced_mirror in B as (B1 & B2). assert (V : In v ys) by now apply B1.
        pose proof (ssorted_find lt v ys SW S V) as FV. rewrite FY in FV. injection FV as ->.
        assert (EQ : forall u, In u (vremove (eqv lt v) ys) <-> In u ys /\ u <> v).
        { intros u. split; [intros U; split; [eapply vremove_sub; eauto|intros ->; auto]|]. intros (U & N). destruct (VI u U); [contradiction|auto]. }
        apply synced_mirror. split; [intros u; rewrite EQ, B1, X; tauto|].
        assert (B3 : Forall (fun n => wf n /\ synced ys n) subs) by (apply Forall_forall; intros n I; rewrite Forall_forall in *; auto).
        eapply (each_None _ _ _ _ _ EE B3). intros n n' I F (G1 & G2). destruct (IH n I _ _ _ F G1) as (_ & _ & _ & H). now apply (H eq_refl ys).
    + injection E as <- <-. split; [apply wf_mirror; auto|]. split; auto. split; discriminate.
  - cbn in E. destruct (f_removing pk fk v gs) as [gs'| |] eqn:F; cbn in E; try discriminate. injection E as <- <-. destruct W as (zs & P & ->).
    destruct (f_removing_inv _ _ _ P F) as (a & y & b & -> & SM & ->). split; [exists (a ++ b); split; auto; eapply pw_mid; eauto|].
    assert (NV : ~ In v (a ++ b)).
    { intros I. assert (X : same v y = false); [|congruence]. apply (pw_perm same (same_sym pk fk) _ (y :: a ++ b)) in P; [|symmetry; apply Permutation_middle].
      destruct P as (P & _). rewrite same_sym. auto. }
    assert (AB : forall z, In z (a ++ y :: b) <-> z = y \/ In z (a ++ b)) by (intros z; rewrite !in_app_iff; cbn; intuition).
    split; [|split].
    + intros xs B z. cbn in B. rewrite in_grouping. intros Z0. apply B. rewrite in_grouping. apply AB. auto.
    + intros _ xs xs' B X z. cbn in B. rewrite in_grouping. intros Z0. apply X; [apply B; rewrite in_grouping; apply AB; auto|]. intros ->. auto.
    + intros _ xs xs' B IV X z. cbn in B. rewrite in_grouping, X, <- B, in_grouping, AB. apply B in IV. rewrite in_grouping, AB in IV.
      destruct IV as [->|IV]; [|contradiction]. split; [intros Z0; split; auto; intros ->; auto|]. intros ([->|Z0] & N); auto. now destruct N.
  - cbn in E. unfold u_call in E. injection E as <- <-. cbn. auto.
Qed.

Lemma clearing_keeps : forall n n' x, t_clearing n = Ok (n', x) -> wf n ->
  wf n' /\ forall xs, below xs n -> below xs n' /\ (x = None -> below [] n').
Proof.
  induction n as [lt ys subs IH|gs|l p] using tnode_ind'; intros n' x E W.
  - cbn [t_clearing] in E. apply wf_mirror in W as (SW & S & W). rewrite Forall_forall in IH. destruct ys as [|y ys].
    + injection E as <- <-. split; [apply wf_mirror; auto|]. intros xs B. split; auto. intros _. apply below_mirror in B as (_ & B). apply below_mirror. split; auto.
    + destruct (each t_clearing subs) as [[subs' z]| |] eqn:EE; cbn in E; try discriminate. injection E as <- <-.
      split.
      * apply wf_mirror. split; auto. split; [destruct z; auto; constructor|]. eapply each_Forall; eauto. intros n n' u I F G. now destruct (IH n I _ _ F G).
      * intros xs B. apply below_mirror in B as (B1 & B2).
        assert (B3 : Forall (fun n => wf n /\ below (y :: ys) n) subs) by (apply Forall_forall; intros n I; rewrite Forall_forall in *; auto).
        assert (BN : z = None -> Forall (below []) subs').
        { intros ->. eapply (each_None _ _ _ _ _ EE B3). intros n n' I F (G1 & G2). destruct (IH n I _ _ F G1) as (_ & H). destruct (H _ G2). auto. }
        split.
        -- apply below_mirror. destruct z; split; auto; try (intros ? []). eapply (each_Forall _ _ _ _ _ _ EE B3); [|tauto].
           intros n n' u I F (G1 & G2). destruct (IH n I _ _ F G1) as (_ & H). destruct (H _ G2). auto.
        -- intros ->. apply below_mirror. split; auto. 
  - cbn in E. injection E as <- <-. split; [exists []; split; [exact I|reflexivity]|]. intros xs B. cbn. split; [intros ? []|intros _ ? []].
  - cbn in E. unfold u_call in E. injection E as <- <-. cbn. auto.
Qed.

(** A source *)
Definition src_ok (s : tsource (T := T)) : Prop := strict_weak (tlt s) /\ ssorted (tlt s) (txs s) /\ Forall wf (tsubs s) /\ source_below s.
Definition ret (r : outcome) : Prop := exists n, r = Returned n.
Lemma ret_done n x : ret (done n x) -> x = None.
Proof. intros (m & H). destruct x; [discriminate|auto]. Qed.
Lemma F_and (P Q : tnode -> Prop) l : Forall P l -> Forall Q l -> Forall (fun n => P n /\ Q n) l.
Proof. intros A B. apply Forall_forall. rewrite Forall_forall in A, B. auto. Qed.

Lemma each_added_ok v l l' x xs xs' : each (t_added v) l = Ok (l', x) -> Forall wf l -> Forall (below xs) l -> In v xs' -> (forall z, In z xs -> In z xs') ->
  Forall wf l' /\ Forall (below xs') l'.
Proof.
  intros E W B V X. split.
  - apply (each_Forall _ wf wf _ _ _ E W); auto. intros n n' y _ F G. now destruct (added_keeps _ _ _ _ F G).
  - eapply (each_Forall _ _ _ _ _ _ E (F_and _ _ _ W B)).
    + intros n n' y _ F (G1 & G2). destruct (added_keeps _ _ _ _ F G1) as (_ & H & _). eapply H; eauto.
    + intros n (_ & G). apply (below_weaken xs); auto.
Qed.
Lemma each_added_synced v l l' xs xs' : each (t_added v) l = Ok (l', None) -> Forall wf l -> Forall (synced xs) l -> (forall z, In z xs' <-> z = v \/ In z xs) ->
  Forall (synced xs') l'.
Proof.
  intros E W B X. eapply (each_None _ _ _ _ _ E (F_and _ _ _ W B)). intros n n' _ F (G1 & G2).
  destruct (added_keeps _ _ _ _ F G1) as (_ & _ & H). eapply H; eauto.
Qed.

Lemma insert_ok v s s' r : t_insert pk fk v s = Ok (s', r) -> src_ok s -> src_ok s' /\ (ret r -> source_synced s -> source_synced s').
Proof.
  intros E (SW & S & W & B). unfold t_insert in E. pose proof (vinsert_strict (tlt s) v (txs s) SW S) as VS.
  destruct (vinsert (tlt s) v (txs s)) as [xs' new] eqn:V. cbn [fst] in VS. destruct new.
  - destruct (each (t_added v) (tsubs s)) as [[l x]| |] eqn:EE; cbn in E; try discriminate. injection E as <- <-. pose proof (vinsert_in _ _ _ _ V) as IN.
    destruct (each_added_ok v _ _ _ (txs s) xs' EE W B) as (H1 & H2); [apply IN; auto|intros; apply IN; auto|]. split; [split; [|split; [|split]]; auto|].
    intros R Y. apply ret_done in R as ->. unfold source_synced. cbn. eapply each_added_synced; eauto.
  - injection E as <- <-. split; [split; [|split; [|split]]; auto|auto].
Qed.

Lemma erase_elem_ok' y xs' s s' r : t_erase_elem pk fk y xs' s = Ok (s', r) -> src_ok s -> ssorted (tlt s) xs' -> In y (txs s) ->
  (forall z, In z xs' <-> In z (txs s) /\ z <> y) -> src_ok s' /\ (ret r -> source_synced s -> source_synced s').
Proof.
  intros E (SW & S & W & B) S' IY X. unfold t_erase_elem in E.
  destruct (each (t_removing y) (tsubs s)) as [[l x]| |] eqn:EE; cbn in E; try discriminate. injection E as <- <-. split.
  - split; [auto|]. split; [cbn; destruct x; auto|]. split.
    + cbn. apply (each_Forall _ wf wf _ _ _ EE W); auto. intros n n' z _ F G. now destruct (removing_keeps _ _ _ _ F G).
    + unfold source_below. cbn [txs tsubs]. destruct x as [e|].
      * eapply (each_Forall _ _ _ _ _ _ EE (F_and _ _ _ W B)); [|tauto]. intros n n' z _ F (G1 & G2). destruct (removing_keeps _ _ _ _ F G1) as (_ & H & _). auto.
      * eapply (each_None _ _ _ _ _ EE (F_and _ _ _ W B)). intros n n' _ F (G1 & G2). destruct (removing_keeps _ _ _ _ F G1) as (_ & _ & H & _).
        apply (H eq_refl (txs s)); auto. intros z Z0 N. now apply X.
  - intros R Y. apply ret_done in R as ->. unfold source_synced in *. cbn [txs tsubs].
    eapply (each_None _ _ _ _ _ EE (F_and _ _ _ W Y)). intros n n' _ F (G1 & G2). destruct (removing_keeps _ _ _ _ F G1) as (_ & _ & _ & H). now apply (H eq_refl (txs s)).
Qed.

Lemma vremove_iff lt v y (xs : list T) : strict_weak lt -> ssorted lt xs -> find (eqv lt v) xs = Some y ->
  forall z, In z (vremove (eqv lt v) xs) <-> In z xs /\ z <> y.
Proof.
  intros SW S F z. pose proof (vremove_in _ _ _ F) as VI. pose proof (vremove_out_y lt v y xs SW S F) as VY. split.
  - intros Z0. split; [eapply vremove_sub; eauto|]. intros ->. auto.
  - intros (Z0 & N). destruct (VI z Z0); [contradiction|auto].
Qed.

Lemma erase_ok v s s' r : t_erase pk fk v s = Ok (s', r) -> src_ok s -> src_ok s' /\ (ret r -> source_synced s -> source_synced s').
Proof.
  intros E O. pose proof O as (SW & S & W & B). unfold t_erase in E. destruct (find (eqv (tlt s) v) (txs s)) as [y|] eqn:F.
  - eapply erase_elem_ok'; eauto; [now apply vremove_strict|now apply find_some in F|]. now apply vremove_iff.
  - injection E as <- <-. auto.
Qed.

Lemma erase_at_ok n y s s' r : nth_error (txs s) n = Some y -> t_erase_elem pk fk y (remove_nth n (txs s)) s = Ok (s', r) -> src_ok s ->
  src_ok s' /\ (ret r -> source_synced s -> source_synced s').
Proof.
  intros N E O. pose proof O as (SW & S & W & B). rewrite (remove_nth_vremove (tlt s) SW (txs s) S n y N) in E. assert (I : In y (txs s)) by (eapply nth_error_In; eauto).
  eapply erase_elem_ok'; eauto; [now apply vremove_strict|]. apply vremove_iff; auto. now apply ssorted_find.
Qed.

Lemma each_clearing_ok l l' x xs : each t_clearing l = Ok (l', x) -> Forall wf l -> Forall (below xs) l ->
  Forall wf l' /\ Forall (below xs) l' /\ (x = None -> Forall (below []) l').
Proof.
  intros E W B. split; [|split].
  - apply (each_Forall _ wf wf _ _ _ E W); auto. intros n n' y _ F G. now destruct (clearing_keeps _ _ _ F G).
  - eapply (each_Forall _ _ _ _ _ _ E (F_and _ _ _ W B)); [|tauto]. intros n n' y _ F (G1 & G2). destruct (clearing_keeps _ _ _ F G1) as (_ & H). now destruct (H _ G2).
  - intros ->. eapply (each_None _ _ _ _ _ E (F_and _ _ _ W B)). intros n n' _ F (G1 & G2). destruct (clearing_keeps _ _ _ F G1) as (_ & H). destruct (H _ G2). auto.
Qed.
Lemma F_nil_synced l : Forall (below (T := T) []) l -> Forall (synced []) l.
Proof. apply Forall_impl. apply below_nil_synced. Qed.

Lemma clear_ok s s' x : t_clear s = Ok (s', x) -> src_ok s -> src_ok s' /\ tlt s' = tlt s /\ (x = None -> txs s' = [] /\ source_synced s').
Proof.
  intros E O. pose proof O as (SW & S & W & B). unfold t_clear in E. destruct (txs s) as [|a xs] eqn:X.
  - injection E as <- <-. split; auto. split; auto. intros _. split; auto. unfold source_synced, source_below in *. rewrite X in *. now apply F_nil_synced.
  - destruct (each t_clearing (tsubs s)) as [[l y]| |] eqn:EE; cbn in E; try discriminate. injection E as <- <-. unfold source_below in B. rewrite X in B.
    destruct (each_clearing_ok _ _ _ _ EE W B) as (H1 & H2 & H3). split; [|split; auto].
    + split; auto. split; [cbn; destruct y; auto; constructor|]. split; auto. unfold source_below. cbn. destruct y; auto.
    + intros ->. cbn. split; auto. unfold source_synced. cbn. apply F_nil_synced. auto.
Qed.

Lemma added_each_ok' : forall vs l l' x xs xs', t_added_each pk fk vs l = Ok (l', x) -> Forall wf l -> Forall (below xs) l ->
  (forall z, In z xs' <-> In z vs \/ In z xs) -> Forall wf l' /\ Forall (below xs') l' /\ (x = None -> Forall (synced xs) l -> Forall (synced xs') l').
Proof.
  induction vs as [|v vs IH]; intros l l' x xs xs' E W B X; cbn [t_added_each] in E.
  - injection E as <- <-. assert (Y : forall z, In z xs' <-> In z xs) by (intros; rewrite X; cbn; tauto). split; auto. split.
    + eapply Forall_impl; [|exact B]. intros n. apply below_weaken. apply Y.
    + intros _. apply Forall_impl. intros n. revert Y. clear. revert xs xs'. destruct n as [lt ys subs|gs|lg p]; intros xs xs' Y; auto.
      * rewrite !synced_mirror. intros (S1 & S2). split; auto. intros z. now rewrite S1, Y.
      * cbn. intros S z. now rewrite S, Y.
  - destruct (each (t_added v) l) as [[l1 y]| |] eqn:EE; cbn in E; try discriminate.
    destruct (each_added_ok v _ _ _ xs (v :: xs) EE W B) as (H1 & H2); [cbn; auto|cbn; auto|]. destruct y as [e|].
    + injection E as <- <-. split; auto. split; [|discriminate]. eapply Forall_impl; [|exact H2]. intros n. apply below_weaken. intros z Z0. apply X. cbn in *. intuition.
    + destruct (IH l1 l' x (v :: xs) xs' E H1 H2) as (I1 & I2 & I3); [intros z; rewrite X; cbn; intuition|]. split; auto. split; auto.
      intros N SY. apply I3; auto. eapply each_added_synced; eauto. cbn. intuition.
Qed.

Lemma migrate_ok a b a' b' r : t_migrate pk fk a b = Ok (a', b', r) -> src_ok a -> src_ok b ->
  src_ok a' /\ src_ok b' /\ (ret r -> source_synced a' /\ source_synced b').
Proof.
  intros E Oa Ob. unfold t_migrate in E. destruct (t_clear a) as [[a1 x]| |] eqn:C; cbn in E; try discriminate. destruct (clear_ok _ _ _ C Oa) as (O1 & _ & SY).
  destruct x as [e|]; [injection E as <- <- <-; split; auto; split; auto; intros (n & [=])|]. destruct (SY eq_refl) as (X1 & SY1).
  pose proof Ob as (SWb & Sb & Wb & Bb). pose proof O1 as (SW1 & S1 & W1 & B1). unfold source_below in B1, Bb. rewrite X1 in B1.
  destruct (each t_clearing (tsubs b)) as [[bs x]| |] eqn:EE; cbn in E; try discriminate. destruct (each_clearing_ok _ _ _ _ EE Wb Bb) as (H1 & H2 & H3).
  destruct x as [e|].
  - injection E as <- <- <-. split; auto. split; [split; [|split; [|split]]; auto|]. intros (n & [=]).
  - destruct (t_added_each pk fk (txs b) (tsubs a1)) as [[as_ x]| |] eqn:EA; cbn in E; try discriminate. injection E as <- <- <-.
    destruct (added_each_ok' _ _ _ _ [] (txs b) EA W1 B1) as (I1 & I2 & I3); [cbn; tauto|]. split; [split; [|split; [|split]]; auto|].
    split; [split; [auto|split; [constructor|split; [auto|unfold source_below; cbn; auto]]]|]. intros R. apply ret_done in R as ->.
    split; unfold source_synced; cbn; [|apply F_nil_synced; auto]. apply I3; auto. now apply F_nil_synced.
Qed.
Lemma migrate_self_ok a a' r : t_migrate_self a = Ok (a', r) -> src_ok a -> src_ok a' /\ (ret r -> source_synced a').
Proof.
  intros E Oa. unfold t_migrate_self in E. destruct (t_clear a) as [[a1 x]| |] eqn:C; cbn in E; try discriminate. destruct (clear_ok _ _ _ C Oa) as (O1 & L & SY).
  destruct x as [e|]; [injection E as <- <-; split; auto; intros (n & [=])|]. destruct (SY eq_refl) as (X1 & SY1). pose proof O1 as (SW1 & S1 & W1 & B1).
  unfold source_below in B1. rewrite X1 in B1. destruct (each t_clearing (tsubs a1)) as [[bs x]| |] eqn:EE; cbn in E; try discriminate. injection E as <- <-.
  destruct (each_clearing_ok _ _ _ _ EE W1 B1) as (H1 & H2 & H3). split.
  - split; [cbn; rewrite <- L; auto|]. split; [constructor|]. split; auto.
  - intros _. unfold source_synced. cbn. now apply F_nil_synced.
Qed.

Lemma fill_ok' : forall vs n n' x xs xs', t_fill pk fk vs n = Ok (n', x) -> wf n -> synced xs n -> (forall z, In z xs' <-> In z vs \/ In z xs) ->
  x = None -> wf n' /\ synced xs' n'.
Proof.
  induction vs as [|v vs IH]; intros n n' x xs xs' E W B X N; cbn [t_fill] in E.
  - injection E as <- <-. split; auto. assert (Y : forall z, In z xs' <-> In z xs) by (intros; rewrite X; cbn; tauto).
    destruct n as [lt ys subs|gs|lg p]; auto.
    + rewrite synced_mirror in *. destruct B as (S1 & S2). split; auto. intros z. now rewrite S1, Y.
    + cbn in *. intros z. now rewrite B, Y.
  - destruct (t_added v n) as [[n1 y]| |] eqn:EE; cbn in E; try discriminate. destruct y as [e|]; [injection E as <- <-; discriminate|].
    destruct (added_keeps _ _ _ _ EE W) as (H1 & _ & H2). apply (IH n1 n' x (v :: xs) xs' E); auto; [apply (H2 eq_refl xs); auto; cbn; intuition|].
    intros z. rewrite X. cbn. intuition.
Qed.
Lemma new_ok k xs n x : t_new pk fk k xs = Ok (n, x) -> (match k with KMirror lt => strict_weak lt | _ => True end) -> x = None -> wf n /\ synced xs n.
Proof.
  intros E K N. destruct k as [lt| |plan]; cbn in E.
  - apply (fill_ok' xs (TMirror lt [] []) n x []); auto; [apply wf_mirror; split; [auto|split; constructor]|apply synced_mirror; split; [tauto|constructor]|cbn; tauto].
  - apply (fill_ok' xs (TForeign []) n x []); auto; [exists []; split; [exact I|reflexivity]|cbn; tauto|cbn; tauto].
  - injection E as <- <-. cbn. auto.
Qed.
Lemma F_set (P : tnode -> Prop) l i n : Forall P l -> P n -> Forall P (set_nth l i n).
Proof. intros F. revert i. induction F; intros [|i] N; cbn; auto. Qed.
Lemma F_remove (P : tnode -> Prop) l i : Forall P l -> Forall P (remove_nth i l).
Proof. intros F. revert i. induction F; intros [|i]; cbn; auto. Qed.

Lemma subscribe_ok' : forall p k xs l l' x, t_subscribe pk fk p k xs l = Ok (l', x) -> (match k with KMirror lt => strict_weak lt | _ => True end) ->
  Forall wf l -> Forall wf l' /\ (Forall (below xs) l -> Forall (below xs) l') /\ (Forall (synced xs) l -> Forall (synced xs) l').
Proof.
  induction p as [|i p IH]; intros k xs l l' x E K W; cbn [t_subscribe] in E.
  - destruct (t_new pk fk k xs) as [[n y]| |] eqn:N; cbn in E; try discriminate. destruct y as [e|]; injection E as <- <-; [auto|].
    destruct (new_ok _ _ _ _ N K eq_refl) as (H1 & H2). split; [|split]; intros; apply Forall_app; split; auto. constructor; auto. now apply synced_below.
  - destruct (nth_error l i) as [[lt ys ss| |]|] eqn:N; try discriminate. destruct (t_subscribe pk fk p k ys ss) as [[ss' y]| |] eqn:E'; cbn in E; try discriminate.
    injection E as <- <-. assert (I : In (TMirror lt ys ss) l) by (eapply nth_error_In; eauto).
    assert (Wn : wf (TMirror lt ys ss)) by (rewrite Forall_forall in W; auto). apply wf_mirror in Wn as (SW & S & Wn).
    destruct (IH _ _ _ _ _ E' K Wn) as (H1 & H2 & H3). split; [|split].
    + apply F_set; auto. apply wf_mirror. auto.
    + intros B. apply F_set; auto. rewrite Forall_forall in B. specialize (B _ I). apply below_mirror in B as (B1 & B2). apply below_mirror. auto.
    + intros B. apply F_set; auto. rewrite Forall_forall in B. specialize (B _ I). apply synced_mirror in B as (B1 & B2). apply synced_mirror. auto.
Qed.
Lemma drop_ok' : forall p l l' b xs, t_drop p l = Ok (l', b) -> Forall wf l ->
  Forall wf l' /\ (Forall (below xs) l -> Forall (below xs) l') /\ (Forall (synced xs) l -> Forall (synced xs) l').
Proof.
  induction p as [|i p IH]; intros l l' b xs E W; cbn [t_drop] in E; [discriminate|]. destruct (nth_error l i) as [n|] eqn:N; [|discriminate].
  assert (I : In n l) by (eapply nth_error_In; eauto).
  destruct p as [|j p].
  - assert (l' = remove_nth i l) as ->.
    { destruct n as [lt ys ss| |]; [destruct (t_last_clearing ys ss); cbn in E; try discriminate|..]; now injection E as <- <-. }
    split; [|split]; intros; now apply F_remove.
  - destruct n as [lt ys ss| |]; try discriminate. destruct (t_drop (j :: p) ss) as [[ss' c]| |] eqn:E'; cbn [rbind] in E; try discriminate. injection E as <- <-.
    assert (Wn : wf (TMirror lt ys ss)) by (rewrite Forall_forall in W; auto). apply wf_mirror in Wn as (SW & S & Wn).
    destruct (IH _ _ _ ys E' Wn) as (H1 & H2 & H3). split; [|split].
    + apply F_set; auto. apply wf_mirror. auto.
    + intros B. apply F_set; auto. rewrite Forall_forall in B. specialize (B _ I). apply below_mirror in B as (B1 & B2). apply below_mirror. auto.
    + intros B. apply F_set; auto. rewrite Forall_forall in B. specialize (B _ I). apply synced_mirror in B as (B1 & B2). apply synced_mirror. auto.
Qed.

(** Programs *)
Definition env_ok (e : tenv (T := T)) : Prop := forall i s, e i = Some s -> src_ok s.
Lemma env_ok_upd e i s : env_ok e -> (forall a, s = Some a -> src_ok a) -> env_ok (upd e i s).
Proof. intros O H j a. unfold upd. destruct (Nat.eqb j i); auto. apply O. Qed.
Lemma empty_ok lt : strict_weak lt -> src_ok (TSource lt [] []).
Proof. intros. split; auto. split; [constructor|]. split; constructor. Qed.
Lemma empty_synced lt : source_synced (T := T) (TSource lt [] []). Proof. constructor. Qed.

Lemma step_keeps e o e' r : tstep pk fk e o = Ok (e', r) -> env_ok e -> top_orders o strict_weak ->
  env_ok e' /\ (forall j, ~ subject o j -> e' j = e j) /\
  (ret r -> (forall j s, subject o j -> e j = Some s -> source_synced s) -> forall j s, subject o j -> e' j = Some s -> source_synced s).
Proof.
  intros E O OR. destruct o; cbn [tstep subject top_orders] in *.
  - destruct (e i); [discriminate|]. injection E as <- <-. split; [apply env_ok_upd; auto; intros a [= <-]; now apply empty_ok|]. split; [intros; now apply upd_neq|].
    intros _ _ j s -> H. rewrite upd_eq in H. injection H as <-. apply empty_synced.
  - destruct (e i) as [s|] eqn:Ei; [|discriminate]. destruct (t_insert pk fk v s) as [[s1 r1]| |] eqn:Q; cbn in E; try discriminate. injection E as <- <-.
    destruct (insert_ok _ _ _ _ Q (O _ _ Ei)) as (H1 & H2). split; [apply env_ok_upd; auto; congruence|]. split; [intros; now apply upd_neq|].
    intros R H j a -> Ha. rewrite upd_eq in Ha. injection Ha as <-. eauto.
  - destruct (e i) as [s|] eqn:Ei; [|discriminate]. destruct (t_erase pk fk v s) as [[s1 r1]| |] eqn:Q; cbn in E; try discriminate. injection E as <- <-.
    destruct (erase_ok _ _ _ _ Q (O _ _ Ei)) as (H1 & H2). split; [apply env_ok_upd; auto; congruence|]. split; [intros; now apply upd_neq|].
    intros R H j a -> Ha. rewrite upd_eq in Ha. injection Ha as <-. eauto.
  - destruct (e i) as [s|] eqn:Ei; [|discriminate]. destruct (nth_error (txs s) n) as [y|] eqn:N; [|discriminate].
    destruct (t_erase_elem pk fk y (remove_nth n (txs s)) s) as [[s1 r1]| |] eqn:Q; cbn in E; try discriminate. injection E as <- <-.
    destruct (erase_at_ok _ _ _ _ _ N Q (O _ _ Ei)) as (H1 & H2). split; [apply env_ok_upd; auto; congruence|]. split; [intros; now apply upd_neq|].
    intros R H j a -> Ha. rewrite upd_eq in Ha. injection Ha as <-. eauto.
  - destruct (e i) as [s|] eqn:Ei; [|discriminate]. destruct (t_clear s) as [[s1 x]| |] eqn:Q; cbn in E; try discriminate. injection E as <- <-.
    destruct (clear_ok _ _ _ Q (O _ _ Ei)) as (H1 & _ & H2). split; [apply env_ok_upd; auto; congruence|]. split; [intros; now apply upd_neq|].
    intros R _ j a -> Ha. rewrite upd_eq in Ha. injection Ha as <-. apply ret_done in R. now apply H2.
  - destruct (e i) as [a|] eqn:Ei; [|discriminate]. destruct (e j) as [b|] eqn:Ej; [|discriminate]. destruct (Nat.eqb_spec i j) as [->|Nij].
    + destruct (t_migrate_self a) as [[a1 r1]| |] eqn:Q; cbn in E; try discriminate. injection E as <- <-. destruct (migrate_self_ok _ _ _ Q (O _ _ Ei)) as (H1 & H2).
      split; [apply env_ok_upd; auto; congruence|]. split; [intros; apply upd_neq; tauto|]. intros R _ k s K H. assert (k = j) as -> by tauto. rewrite upd_eq in H. injection H as <-. auto.
    + destruct (t_migrate pk fk a b) as [[[a1 b1] r1]| |] eqn:Q; cbn in E; try discriminate. injection E as <- <-.
      destruct (migrate_ok _ _ _ _ _ Q (O _ _ Ei) (O _ _ Ej)) as (H1 & H2 & H3). split; [apply env_ok_upd; [apply env_ok_upd; auto|]; congruence|].
      split; [intros; rewrite !upd_neq; tauto|]. intros R _ k s K H. destruct (H3 R). destruct (Nat.eq_dec k i) as [->|Nk].
      * rewrite upd_eq in H. injection H as <-. auto.
      * rewrite upd_neq in H by auto. assert (k = j) as -> by tauto. rewrite upd_eq in H. injection H as <-. auto.
  - destruct (e i) eqn:Ei; [discriminate|]. destruct (e j) as [b|] eqn:Ej; [|discriminate]. injection E as <- <-. pose proof (O _ _ Ej) as OJ. pose proof OJ as (SW & _).
    split; [apply env_ok_upd; [apply env_ok_upd; auto; intros a [= <-]; now apply empty_ok|congruence]|]. split; [intros; rewrite !upd_neq; tauto|].
    intros _ H k s K Hk. destruct (Nat.eq_dec k i) as [->|Nk].
    + rewrite upd_eq in Hk. injection Hk as <-. eauto.
    + rewrite upd_neq in Hk by auto. assert (k = j) as -> by tauto. rewrite upd_eq in Hk. injection Hk as <-. apply empty_synced.
  - destruct (e i) as [a|] eqn:Ei; [|discriminate]. destruct (e j) as [b|] eqn:Ej; [|discriminate]. destruct (t_last_clearing (txs a) (tsubs a)) as [t| |]; cbn in E; try discriminate.
    pose proof (O _ _ Ej) as OJ. pose proof OJ as (SW & _). pose proof (O _ _ Ei) as OI. pose proof OI as (SWi & _).
    destruct t; [injection E as <- <-; split; auto; split; auto; intros (n & [=])|].
    destruct (Nat.eqb_spec i j) as [->|Nij]; injection E as <- <-.
    + split; [apply env_ok_upd; auto; intros x [= <-]; now apply empty_ok|]. split; [intros; apply upd_neq; tauto|].
      intros _ _ k s K Hk. assert (k = j) as -> by tauto. rewrite upd_eq in Hk. injection Hk as <-. apply empty_synced.
    + split; [apply env_ok_upd; [apply env_ok_upd; auto; intros x [= <-]; now apply empty_ok|congruence]|]. split; [intros; rewrite !upd_neq; tauto|].
      intros _ H k s K Hk. destruct (Nat.eq_dec k i) as [->|Nk].
      * rewrite upd_eq in Hk. injection Hk as <-. eauto.
      * rewrite upd_neq in Hk by auto. assert (k = j) as -> by tauto. rewrite upd_eq in Hk. injection Hk as <-. apply empty_synced.
  - destruct (e i) as [a|] eqn:Ei; [|discriminate]. destruct (t_last_clearing (txs a) (tsubs a)) as [t| |]; cbn in E; try discriminate. destruct t; injection E as <- <-.
    + split; auto.
    + split; [apply env_ok_upd; auto; discriminate|]. split; [intros; now apply upd_neq|]. intros _ _ j s -> H. rewrite upd_eq in H. discriminate.
  - destruct (e i) as [s|] eqn:Ei; [|discriminate]. destruct (t_subscribe pk fk path k (txs s) (tsubs s)) as [[l x]| |] eqn:Q; cbn in E; try discriminate. injection E as <- <-.
    pose proof (O _ _ Ei) as (SW & S & W & B). destruct (subscribe_ok' _ _ _ _ _ _ Q) as (H1 & H2 & H3); auto.
    split; [apply env_ok_upd; auto; intros a [= <-]; split; [|split; [|split]]; auto; apply H2; auto|]. split; [intros; now apply upd_neq|].
    intros _ H j a -> Ha. rewrite upd_eq in Ha. injection Ha as <-. apply H3. now apply (H i s).
  - destruct (e i) as [s|] eqn:Ei; [|discriminate]. destruct (t_drop path (tsubs s)) as [[l t]| |] eqn:Q; cbn in E; try discriminate.
    pose proof (O _ _ Ei) as (SW & S & W & B). destruct (drop_ok' _ _ _ _ (txs s) Q) as (H1 & H2 & H3); auto. destruct t; injection E as <- <-.
    + split; auto.
    + split; [apply env_ok_upd; auto; intros a [= <-]; split; [|split; [|split]]; auto; apply H2; auto|]. split; [intros; now apply upd_neq|].
      intros _ H j a -> Ha. rewrite upd_eq in Ha. injection Ha as <-. apply H3. now apply (H i s).
Qed.
Lemma run_keeps : forall os e e' rs, trun pk fk e os = Ok (e', rs) -> env_ok e -> (forall o, In o os -> top_orders o strict_weak) -> env_ok e'.
Proof.
  induction os as [|o os IH]; intros e e' rs E O OR; cbn [trun] in E; [injection E as <- <-; auto|].
  destruct (tstep pk fk e o) as [[e1 r]| |] eqn:S; cbn in E; try discriminate. destruct (step_keeps _ _ _ _ S O) as (H1 & _); [apply OR; cbn; auto|].
  destruct r; try (injection E as <- <-; auto; fail); (destruct (trun pk fk e1 os) as [[e2 rs2]| |] eqn:R; cbn in E; try discriminate; injection E as <- <-; eapply IH; eauto; intros; apply OR; cbn; auto).
Qed.

(** Whatever the observers throw, no mirror and no foreign_set shows an element that its set does not contain. *)
Theorem throw_nothing_dangles : forall os e rs i s, (forall o, In o os -> top_orders o strict_weak) -> trun pk fk no_tsets os = Ok (e, rs) -> e i = Some s -> source_below s.
Proof. intros os e rs i s OR R H. assert (O : env_ok e) by (eapply run_keeps; eauto; intros ? ? [=]). apply (O _ _ H). Qed.

(** A statement that returns leaves the observers of the sets in step if they were, and no other set is affected. *)
Theorem throw_returned_synced : forall os e rs o e' n, (forall o', In o' (o :: os) -> top_orders o' strict_weak) -> trun pk fk no_tsets os = Ok (e, rs) ->
  tstep pk fk e o = Ok (e', Returned n) -> (forall j s, subject o j -> e j = Some s -> source_synced s) ->
  (forall j s, subject o j -> e' j = Some s -> source_synced s) /\ (forall j, ~ subject o j -> e' j = e j).
Proof.
  intros os e rs o e' n OR R S H. assert (O : env_ok e) by (eapply run_keeps; eauto; [intros ? ? [=]|intros; apply OR; cbn; auto]).
  destruct (step_keeps _ _ _ _ S O) as (_ & H1 & H2); [apply OR; cbn; auto|]. split; auto. apply H2; auto. now exists n.
Qed.

(** When clear() has returned, the set is empty and all observers are in step again, whatever had been thrown before. *)
Theorem throw_clear_resyncs : forall os e rs i e' n, (forall o, In o os -> top_orders o strict_weak) -> trun pk fk no_tsets os = Ok (e, rs) ->
  tstep pk fk e (TClear i) = Ok (e', Returned n) -> exists s, e' i = Some s /\ txs s = [] /\ source_synced s.
Proof.
  intros os e rs i e' n OR R S. assert (O : env_ok e) by (eapply run_keeps; eauto; intros ? ? [=]). cbn in S. destruct (e i) as [s|] eqn:Ei; [|discriminate].
  destruct (t_clear s) as [[s1 x]| |] eqn:Q; cbn in S; try discriminate. injection S as <- X. destruct (clear_ok _ _ _ Q (O _ _ Ei)) as (_ & _ & H).
  exists s1. rewrite upd_eq. destruct x; [discriminate|]. destruct (H eq_refl). auto.
Qed.

(** An insertion that throws has inserted the element; the observers before the one that threw have been told, those after it have not. *)
Theorem throw_insert : forall os e rs i v e' x s, (forall o, In o os -> top_orders o strict_weak) -> trun pk fk no_tsets os = Ok (e, rs) ->
  tstep pk fk e (TInsert i v) = Ok (e', Threw x) -> e i = Some s -> source_synced s ->
  exists s' a n b a' n', e' i = Some s' /\ (forall z, In z (txs s') <-> z = v \/ In z (txs s)) /\ tsubs s = a ++ n :: b /\ tsubs s' = a' ++ n' :: b /\
    Forall (synced (txs s')) a' /\ t_added v n = Ok (n', Some x) /\ Forall (synced (txs s)) b.
Proof.
  intros os e rs i v e' x s OR R S Ei SY. assert (O : env_ok e) by (eapply run_keeps; eauto; intros ? ? [=]). cbn in S. rewrite Ei in S.
  unfold t_insert in S. pose proof (O _ _ Ei) as (SW & SS & W & B). destruct (vinsert (tlt s) v (txs s)) as [xs' new] eqn:V. destruct new; [|cbn in S; discriminate].
  destruct (each (t_added v) (tsubs s)) as [[l y]| |] eqn:EE; cbn in S; try discriminate. injection S as <- Y.
  pose proof (vinsert_in _ _ _ _ V) as IN. apply each_inv in EE as [(-> & _)|(a & n & b & a' & n' & e0 & -> & L & -> & G & E)]; [discriminate|]. injection Y as <-.
  unfold source_synced in SY. rewrite L in *. apply Forall_app in SY as (SY1 & SY2). inversion SY2; subst. apply Forall_app in W as (W1 & W2).
  exists (TSource (tlt s) xs' (a' ++ n' :: b)), a, n, b, a', n'. rewrite upd_eq. cbn. split; auto. split; auto. split; auto. split; auto. split; auto.
  clear - G SY1 W1 IN. induction G; auto. inversion SY1; inversion W1; subst. constructor; auto.
  destruct (added_keeps _ _ _ _ H H6) as (_ & _ & K). apply (K eq_refl (txs s)); auto.
Qed.

(** An erasure or a clear that throws removes nothing from the set. *)
Theorem throw_removal : forall e o i e' x s, (o = TClear i \/ (exists v, o = TErase i v) \/ exists n, o = TEraseAt i n) ->
  tstep pk fk e o = Ok (e', Threw x) -> e i = Some s -> exists s', e' i = Some s' /\ txs s' = txs s /\ tlt s' = tlt s.
Proof.
  assert (EL : forall y xs' s s' x, t_erase_elem pk fk y xs' s = Ok (s', Threw x) -> txs s' = txs s /\ tlt s' = tlt s).
  { intros y xs' s s' x E. unfold t_erase_elem in E. destruct (each (t_removing y) (tsubs s)) as [[l z]| |]; cbn in E; try discriminate. injection E as <- Z0. destruct z; [|discriminate]. auto. }
  intros e o i e' x s [->|[(v & ->)|(n & ->)]] S Ei; cbn in S; rewrite Ei in S.
  - unfold t_clear in S. destruct (txs s) as [|y xs] eqn:X; cbn in S; [discriminate|]. destruct (each t_clearing (tsubs s)) as [[l z]| |]; cbn in S; try discriminate.
    injection S as <- Z0. destruct z; [|discriminate]. rewrite upd_eq. eexists. split; eauto.
  - unfold t_erase in S. destruct (find (eqv (tlt s) v) (txs s)) as [y|]; [|cbn in S; discriminate].
    destruct (t_erase_elem pk fk y (vremove (eqv (tlt s) v) (txs s)) s) as [[s1 r]| |] eqn:Q; cbn in S; try discriminate. injection S as <- ->. rewrite upd_eq. eauto.
  - destruct (nth_error (txs s) n) as [y|]; [|discriminate].
    destruct (t_erase_elem pk fk y (remove_nth n (txs s)) s) as [[s1 r]| |] eqn:Q; cbn in S; try discriminate. injection S as <- ->. rewrite upd_eq. eauto.
Qed.

(** The observers of the user are told once each, in order, up to the one that throws. *)
Lemma each_told (f : tnode -> res (tnode * option exn)) c l l' x r n0 : (forall log plan, f (TUser log plan) = Ok (u_call c log plan)) ->
  each f l = Ok (l', x) -> r = done n0 x -> exists k, told c k l l' /\ ends_with k l r.
Proof.
  intros U E ->. revert l' x E. induction l as [|n l IH]; intros l' x E; cbn in E.
  - injection E as <- <-. exists 0. split; [|split; [auto|intros ? ? []]]. split; auto. split; auto. intros [|j] ? ? [=].
  - destruct (f n) as [[n' y]| |] eqn:F; cbn in E; try discriminate. destruct y as [e|].
    + injection E as <- <-. exists 1. split.
      * split; auto. cbn [length]. split; [lia|]. intros [|j] log plan J; cbn in J.
        -- injection J as ->. rewrite U in F. injection F as <- _. cbn. split; [reflexivity|intros X; exfalso; lia].
        -- cbn. split; [exact J|intros X; exfalso; lia].
      * cbn. exists 0, n. split; auto. split; auto. intros log plan ->. rewrite U in F. unfold u_call in F. destruct (hd false plan); [|discriminate]. injection F as _ <-. auto.
    + destruct (each f l) as [[l1 z]| |] eqn:G; cbn in E; try discriminate. injection E as <- <-. destruct (IH _ _ eq_refl) as (k & (L & K & P) & Q). exists (S k). split.
      * unfold told. cbn [length]. split; [lia|]. split; [lia|]. intros [|j] log plan J; cbn in J.
        -- injection J as ->. rewrite U in F. unfold u_call in F. injection F as <- Z0. cbn. split; [reflexivity|]. intros _. destruct (hd false plan); [discriminate|reflexivity].
        -- destruct (P _ _ _ J) as [P1 P2]. cbn [nth_error]. replace (S j <? S k) with (j <? k) by (destruct (j <? k) eqn:A; lia). split; [exact P1|]. intros; apply P2; lia.
      * destruct z as [e|]; cbn in *.
        -- destruct Q as (m & n1 & -> & N & H). exists (S m), n1. auto.
        -- destruct Q as [-> H]. split; auto. intros log plan [->|I]; [|eauto]. rewrite U in F. unfold u_call in F. destruct (hd false plan); [discriminate|reflexivity].
Qed.
Theorem throw_users_told : forall e i s, e i = Some s ->
  (forall v e' r, tstep pk fk e (TInsert i v) = Ok (e', r) -> existsb (eqv (tlt s) v) (txs s) = false ->
     exists s' k, e' i = Some s' /\ told (KAdded v) k (tsubs s) (tsubs s') /\ ends_with k (tsubs s) r) /\
  (forall v e' r y, tstep pk fk e (TErase i v) = Ok (e', r) -> find (eqv (tlt s) v) (txs s) = Some y ->
     exists s' k, e' i = Some s' /\ told (KRemoving y) k (tsubs s) (tsubs s') /\ ends_with k (tsubs s) r) /\
  (forall n e' r y, tstep pk fk e (TEraseAt i n) = Ok (e', r) -> nth_error (txs s) n = Some y ->
     exists s' k, e' i = Some s' /\ told (KRemoving y) k (tsubs s) (tsubs s') /\ ends_with k (tsubs s) r) /\
  (forall e' r, tstep pk fk e (TClear i) = Ok (e', r) -> txs s <> [] ->
     exists s' k, e' i = Some s' /\ told KClearing k (tsubs s) (tsubs s') /\ ends_with k (tsubs s) r) /\
  (forall o e' r, tstep pk fk e o = Ok (e', r) ->
     (exists v, o = TInsert i v /\ existsb (eqv (tlt s) v) (txs s) = true) \/ (exists v, o = TErase i v /\ find (eqv (tlt s) v) (txs s) = None) \/ (o = TClear i /\ txs s = []) ->
     e' i = Some s /\ r = Returned 0).
Proof.
  intros e i s Ei.
  assert (EL : forall y xs' s' r, t_erase_elem pk fk y xs' s = Ok (s', r) -> exists k, told (KRemoving y) k (tsubs s) (tsubs s') /\ ends_with k (tsubs s) r).
  { intros y xs' s' r E. unfold t_erase_elem in E. destruct (each (t_removing y) (tsubs s)) as [[l x]| |] eqn:EE; cbn in E; try discriminate. injection E as <- <-. cbn [tsubs]. eapply each_told; [|exact EE|reflexivity]. reflexivity. }
  split; [|split; [|split; [|split]]].
  - intros v e' r E N. cbn in E. rewrite Ei in E. unfold t_insert, vinsert in E. rewrite N in E. destruct (each (t_added v) (tsubs s)) as [[l x]| |] eqn:EE; cbn in E; try discriminate.
    injection E as <- <-. rewrite upd_eq. destruct (each_told (t_added v) (KAdded v) _ _ _ (done 1 x) 1 ltac:(reflexivity) EE eq_refl) as (k & A & B). eexists _, k. split; [reflexivity|]. cbn [tsubs]. auto.
  - intros v e' r y E N. cbn in E. rewrite Ei in E. unfold t_erase in E. rewrite N in E. destruct (t_erase_elem pk fk y _ s) as [[s1 r1]| |] eqn:EE; cbn in E; try discriminate.
    injection E as <- <-. rewrite upd_eq. apply EL in EE as (k & A & B). eauto.
  - intros n e' r y E N. cbn in E. rewrite Ei, N in E. destruct (t_erase_elem pk fk y _ s) as [[s1 r1]| |] eqn:EE; cbn in E; try discriminate.
    injection E as <- <-. rewrite upd_eq. apply EL in EE as (k & A & B). eauto.
  - intros e' r E N. cbn in E. rewrite Ei in E. unfold t_clear in E. destruct (txs s) as [|a xs]; [congruence|]. destruct (each t_clearing (tsubs s)) as [[l x]| |] eqn:EE; cbn in E; try discriminate.
    injection E as <- <-. rewrite upd_eq. destruct (each_told t_clearing KClearing _ _ _ (done 0 x) 0 ltac:(reflexivity) EE eq_refl) as (k & A & B). eexists _, k. split; [reflexivity|]. cbn [tsubs]. auto.
  - intros o e' r E [(v & -> & N)|[(v & -> & N)|(-> & N)]]; cbn in E; rewrite Ei in E.
    + unfold t_insert, vinsert in E. rewrite N in E. cbn in E. injection E as <- <-. rewrite upd_eq. auto.
    + unfold t_erase in E. rewrite N in E. cbn in E. injection E as <- <-. rewrite upd_eq. auto.
    + unfold t_clear in E. rewrite N in E. cbn in E. injection E as <- <-. rewrite upd_eq. auto.
Qed.

(** An element that a mirror has missed cannot be erased any more: each attempt throws and leaves the set and the mirror as they are. *)
Definition misses (y : T) (s : tsource (T := T)) : Prop := exists lt ys ss, In (TMirror lt ys ss) (tsubs s) /\ find (eqv lt y) ys = None.
Theorem throw_missed_stays : forall e i v y s k, e i = Some s -> find (eqv (tlt s) v) (txs s) = Some y -> misses y s ->
  match trun pk fk e (repeat (TErase i v) k) with
  | Ok (e', rs) => (forall r, In r rs -> exists x, r = Threw x) /\ length rs = k /\ exists s', e' i = Some s' /\ txs s' = txs s /\ misses y s'
  | _ => True
  end.
Proof.
  intros e i v y s k. revert e s. induction k as [|k IH]; intros e s Ei F M; cbn [repeat trun].
  - split; [intros r []|]. split; auto. exists s. auto.
  - cbn [tstep]. rewrite Ei. unfold t_erase. rewrite F. unfold t_erase_elem. destruct (each (t_removing y) (tsubs s)) as [[l x]| |] eqn:EE; cbn [rbind]; auto.
    destruct M as (lt & ys & ss & I & N). apply each_inv in EE as [(-> & G)|(a & n & b & a' & n' & e0 & -> & L & -> & G & E)].
    + exfalso. clear - G I N. induction G as [|n n' l l' G1 G IH]; [destruct I|]. destruct I as [->|I]; auto. cbn in G1. rewrite N in G1. discriminate.
    + cbn [done rbind]. set (s1 := TSource (tlt s) (txs s) (a' ++ n' :: b)).
      assert (M1 : misses y s1).
      { exists lt, ys, ss. split; auto. cbn. rewrite L in I. apply in_app_or in I as [I|[->|I]].
        - exfalso. clear - G I N. induction G as [|n n' l l' G1 G IH]; [destruct I|]. destruct I as [->|I]; auto. cbn in G1. rewrite N in G1. discriminate.
        - cbn in E. rewrite N in E. injection E as <- _. apply in_or_app. cbn. auto.
        - apply in_or_app. cbn. auto. }
      specialize (IH (upd e i (Some s1)) s1 (upd_eq _ _ _) F M1). destruct (trun pk fk (upd e i (Some s1)) (repeat (TErase i v) k)) as [[e2 rs]| |]; cbn [rbind]; auto.
      destruct IH as (R & Ln & s' & H1 & H2 & H3). split; [|split].
      * intros r [<-|Hr]; eauto.
      * cbn. auto.
      * exists s'. auto.
Qed.

(** Without a foreign_set there is no undefined behaviour. *)
Lemma each_total f l : (forall n, In n l -> exists n' x, f n = Ok (n', x)) -> exists l' x, each (T := T) f l = Ok (l', x).
Proof.
  induction l as [|n l IH]; intros H; cbn; [eauto|]. destruct (H n) as (n' & x & ->); [cbn; auto|]. cbn [rbind]. destruct x; [eauto|].
  destruct IH as (l' & x & ->); [intros; apply H; cbn; auto|]. cbn. eauto.
Qed.
Lemma added_total v : forall n, no_foreign n -> exists n' x, t_added v n = Ok (n', x).
Proof.
  induction n as [lt ys subs IH|gs|l p] using tnode_ind'; intros N; [|destruct N|cbn; unfold u_call; eauto].
  apply no_foreign_mirror in N. cbn [ObsThrowModel.t_added]. destruct (vinsert lt v ys) as [ys' []]; [|eauto].
  destruct (each_total (t_added v) subs) as (l' & x & ->); [rewrite Forall_forall in *; auto|]. cbn. eauto.
Qed.
Lemma removing_total : forall n v, no_foreign n -> exists n' x, t_removing v n = Ok (n', x).
Proof.
  induction n as [lt ys subs IH|gs|l p] using tnode_ind'; intros v N; [|destruct N|cbn; unfold u_call; eauto].
  apply no_foreign_mirror in N. cbn [ObsThrowModel.t_removing]. destruct (find (eqv lt v) ys) as [y|]; [|eauto].
  destruct (each_total (t_removing y) subs) as (l' & x & ->); [rewrite Forall_forall in *; auto|]. cbn. eauto.
Qed.
Lemma clearing_total : forall n : tnode, exists n' x, t_clearing n = Ok (n', x).
Proof.
  induction n as [lt ys subs IH|gs|l p] using tnode_ind'; [|cbn; eauto|cbn; unfold u_call; eauto].
  cbn [t_clearing]. destruct ys as [|y ys]; [eauto|]. destruct (each_total t_clearing subs) as (l' & x & ->); [rewrite Forall_forall in *; auto|]. cbn. eauto.
Qed.
Theorem throw_defined : forall e i s v n, e i = Some s -> Forall no_foreign (tsubs s) ->
  (exists e' r, tstep pk fk e (TInsert i v) = Ok (e', r)) /\ (exists e' r, tstep pk fk e (TErase i v) = Ok (e', r)) /\
  ((n < length (txs s))%nat -> exists e' r, tstep pk fk e (TEraseAt i n) = Ok (e', r)) /\
  (exists e' r, tstep pk fk e (TClear i) = Ok (e', r)) /\ (exists e' r, tstep pk fk e (TDestroy i) = Ok (e', r)).
Proof.
  intros e i s v n Ei N. rewrite Forall_forall in N. cbn [tstep]. rewrite Ei.
  assert (EL : forall y xs', exists s' r, t_erase_elem pk fk y xs' s = Ok (s', r)).
  { intros y xs'. unfold t_erase_elem. destruct (each_total (t_removing y) (tsubs s)) as (l & x & ->); [intros; apply removing_total; auto|]. cbn. eauto. }
  destruct (each_total t_clearing (tsubs s)) as (lc & xc & EC); [intros; apply clearing_total|]. repeat split.
  - unfold t_insert. destruct (vinsert (tlt s) v (txs s)) as [xs' []]; [|cbn; eauto]. destruct (each_total (t_added v) (tsubs s)) as (l & x & ->); [intros; apply added_total; auto|]. cbn. eauto.
  - unfold t_erase. destruct (find (eqv (tlt s) v) (txs s)) as [y|]; [|cbn; eauto]. destruct (EL y (vremove (eqv (tlt s) v) (txs s))) as (s' & r & ->). cbn. eauto.
  - intros L. destruct (nth_error (txs s) n) as [y|] eqn:Y; [|apply nth_error_None in Y; lia]. destruct (EL y (remove_nth n (txs s))) as (s' & r & ->). cbn. eauto.
  - unfold t_clear. destruct (txs s); [cbn; eauto|]. rewrite EC. cbn. eauto.
  - unfold t_last_clearing. destruct (txs s); [cbn; eauto|]. rewrite EC. cbn. destruct xc; cbn; eauto.
Qed.

(** An exception of an observer in the destructor of a set or of a mirror, or in a move assignment, terminates the program. *)
Lemma clearing_throws (l : list tnode) : will_throw l -> exists l' e, each t_clearing l = Ok (l', Some e).
Proof.
  intros (log & plan & I & H). induction l as [|n l IH]; [contradiction|]. cbn. destruct (clearing_total n) as (n' & x & E). rewrite E. cbn [rbind]. destruct x as [e|]; [eauto|]. destruct I as [->|I].
  - cbn in E. unfold u_call in E. rewrite H in E. discriminate.
  - destruct (IH I) as (l' & e & ->). cbn. eauto.
Qed.
Lemma clearing_quiet : forall n : tnode, quiet n -> exists n', t_clearing n = Ok (n', None).
Proof.
  induction n as [lt ys subs IH|gs|log plan] using tnode_ind'; cbn [quiet]; intros Q.
  - cbn [t_clearing]. destruct ys as [|y ys]; [eauto|]. enough (H : exists l', each t_clearing subs = Ok (l', None)) by (destruct H as (l' & ->); cbn; eauto).
    clear - IH Q. induction IH as [|n l P IH' IHl]; [cbn; eauto|]. destruct Q as [Q1 Q2]. destruct (P Q1) as (n' & E). destruct (IHl Q2) as (l' & E'). cbn. rewrite E. cbn. rewrite E'. cbn. eauto.
  - cbn. eauto.
  - cbn. unfold u_call. rewrite Q. eauto.
Qed.
Lemma last_throws xs l : xs <> [] -> will_throw l -> t_last_clearing (T := T) xs l = Ok true.
Proof. intros N W. unfold t_last_clearing. destruct xs; [congruence|]. destruct (clearing_throws _ W) as (l' & e & ->). reflexivity. Qed.
Lemma last_quiet xs l : xs = [] \/ Forall quiet l -> t_last_clearing (T := T) xs l = Ok false.
Proof.
  intros [->|Q]; [reflexivity|]. unfold t_last_clearing. destruct xs; [reflexivity|]. enough (H : exists l', each t_clearing l = Ok (l', None)) by (destruct H as (l' & ->); reflexivity).
  induction Q as [|n l P Q IH]; [cbn; eauto|]. destruct (clearing_quiet _ P) as (n' & E). destruct IH as (l' & E'). cbn. rewrite E. cbn. rewrite E'. cbn. eauto.
Qed.
Lemma drop_at : forall p (l : list tnode) lt ys ss b, at_path p l = Some (TMirror lt ys ss) -> t_last_clearing ys ss = Ok b -> exists l', t_drop p l = Ok (l', b).
Proof.
  induction p as [|i p IH]; intros l lt ys ss b A E; [discriminate|]. cbn [t_drop]. cbn [at_path] in A. destruct p as [|j p].
  - rewrite A. rewrite E. cbn. eauto.
  - destruct (nth_error l i) as [[lt' zs ts| |]|]; try discriminate. destruct (IH _ _ _ _ _ A E) as (l' & ->). cbn. eauto.
Qed.
Theorem throw_terminates : forall e i s, e i = Some s ->
  (txs s <> [] -> will_throw (tsubs s) ->
     tstep pk fk e (TDestroy i) = Ok (e, Terminated) /\ (forall j, e j <> None -> tstep pk fk e (TMoveAssign i j) = Ok (e, Terminated))) /\
  (txs s = [] \/ Forall quiet (tsubs s) ->
     (exists e', tstep pk fk e (TDestroy i) = Ok (e', Returned 0)) /\ (forall j, e j <> None -> exists e', tstep pk fk e (TMoveAssign i j) = Ok (e', Returned 0))) /\
  (forall p lt ys ss, at_path p (tsubs s) = Some (TMirror lt ys ss) ->
     (ys <> [] -> will_throw ss -> tstep pk fk e (TDrop i p) = Ok (e, Terminated)) /\
     (ys = [] \/ Forall quiet ss -> exists e', tstep pk fk e (TDrop i p) = Ok (e', Returned 0))).
Proof.
  intros e i s Ei. split; [|split].
  - intros N W. cbn [tstep]. rewrite Ei, (last_throws _ _ N W). split; [reflexivity|]. intros j J. destruct (e j); [reflexivity|congruence].
  - intros Q. cbn [tstep]. rewrite Ei, (last_quiet _ _ Q). cbn [rbind]. split; [eauto|]. intros j J. destruct (e j); [|congruence]. destruct (i =? j); eauto.
  - intros p lt ys ss A. cbn [tstep]. rewrite Ei. split.
    + intros N W. destruct (drop_at _ _ _ _ _ _ A (last_throws _ _ N W)) as (l' & ->). reflexivity.
    + intros Q. destruct (drop_at _ _ _ _ _ _ A (last_quiet _ _ Q)) as (l' & ->). cbn [rbind]. eauto.
Qed.


(** Observers that do not throw: the model of C22. *)
Fixpoint emb (n : node (T := T)) : tnode :=
  match n with Mirror lt xs subs => TMirror lt xs (map emb subs) | Foreign gs => TForeign gs end.
Lemma node_ind' (P : node (T := T) -> Prop) : (forall lt xs subs, Forall P subs -> P (Mirror lt xs subs)) -> (forall gs, P (Foreign gs)) -> forall n, P n.
Proof. intros HM HF. fix IH 1. intros [lt xs subs|gs]; [|apply HF]. apply HM. induction subs as [|s r IHr]; constructor; [apply IH|exact IHr]. Qed.
Lemma find_group_no_throw k e : forall g, find_group fk k g <> Throw e.
Proof. induction g as [|a g IH]; cbn; [discriminate|]. destruct a; cbn; [discriminate|]. destruct (find_group fk k g); cbn; congruence. Qed.
Lemma set_group_no_throw k g' e : forall g, set_group fk k g' g <> Throw e.
Proof. induction g as [|a g IH]; cbn; [discriminate|]. destruct a; cbn; [discriminate|]. destruct (set_group fk k g' g); cbn; congruence. Qed.
Lemma erase_group_no_throw k e : forall g, erase_group fk k g <> Throw e.
Proof. induction g as [|a g IH]; cbn; [discriminate|]. destruct a; cbn; [discriminate|]. destruct (erase_group fk k g); cbn; congruence. Qed.
Lemma insert_group_no_throw g' e : forall g, insert_group fk g' g <> Throw e.
Proof.
  induction g as [|a g IH]; cbn; destruct g'; cbn; try discriminate. destruct a; cbn; [discriminate|]. destruct (_ <? _)%Z; [discriminate|]. destruct (insert_group fk _ g); cbn; congruence.
Qed.
Lemma f_added_no_throw v gs e : f_added pk fk v gs <> Throw e.
Proof.
  unfold f_added. pose proof (find_group_no_throw (fk v) e gs). destruct (find_group fk (fk v) gs) as [[g|]|e'|]; cbn [rbind].
  - destruct (vinsert (pk_lt pk) v g) as [g' []]; cbn [guard]; [apply set_group_no_throw|discriminate].
  - apply insert_group_no_throw.
  - congruence.
  - discriminate.
Qed.
Lemma f_removing_no_throw v gs e : f_removing pk fk v gs <> Throw e.
Proof.
  unfold f_removing. pose proof (find_group_no_throw (fk v) e gs). destruct (find_group fk (fk v) gs) as [[[|x [|y g]]|]|e'|]; cbn [rbind]; try discriminate; try congruence.
  - destruct (pk x =? pk v)%Z; cbn [guard]; [apply erase_group_no_throw|discriminate].
  - destruct (existsb _ _); cbn [guard]; [apply set_group_no_throw|discriminate].
Qed.
Definition agrees {A B} (f : A -> B) (r : res A) (t : res (B * option exn)) : Prop :=
  match r with Ok a => t = Ok (f a, None) | Throw e => exists b, t = Ok (b, Some e) | UB => t = UB end.
Lemma added_emb v : forall n, agrees emb (on_added pk fk v n) (t_added v (emb n)).
Proof.
  induction n as [lt xs subs IH|gs] using node_ind'.
  - cbn [emb ObsThrowModel.t_added]. rewrite on_added_mirror. destruct (vinsert lt v xs) as [xs' []]; [|cbn; eauto].
    assert (A : agrees (map emb) (added_all pk fk v subs) (each (t_added v) (map emb subs))).
    { induction IH as [|n l H F IHl]; [reflexivity|]. cbn [map added_all each]. unfold agrees in H. destruct (on_added pk fk v n) as [n'|e|].
      - rewrite H. cbn [rbind]. unfold agrees in IHl. destruct (added_all pk fk v l); cbn [rbind]; [unfold each in *; rewrite IHl; reflexivity|destruct IHl as (b & E); unfold each in *; rewrite E; cbn; eauto|unfold each in *; rewrite IHl; reflexivity].
      - destruct H as (b & ->). cbn. eauto.
      - rewrite H. reflexivity. }
    unfold agrees in A. destruct (added_all pk fk v subs); cbn [rbind]; [rewrite A; reflexivity|destruct A as (b & ->); cbn; eauto|rewrite A; reflexivity].
  - cbn. destruct (f_added pk fk v gs) eqn:E; cbn; auto. exfalso. now apply (f_added_no_throw v gs e).
Qed.
Lemma removing_emb : forall n v, agrees emb (on_removing pk fk v n) (t_removing v (emb n)).
Proof.
  induction n as [lt xs subs IH|gs] using node_ind'; intros v.
  - cbn [emb ObsThrowModel.t_removing]. rewrite on_removing_mirror. destruct (find (eqv lt v) xs) as [y|]; [|cbn; eauto].
    assert (A : agrees (map emb) (removing_all pk fk y subs) (each (t_removing y) (map emb subs))).
    { induction IH as [|n l H F IHl]; [reflexivity|]. cbn [map removing_all each]. specialize (H y). unfold agrees in H. destruct (on_removing pk fk y n) as [n'|e|].
      - rewrite H. cbn [rbind]. unfold agrees in IHl. destruct (removing_all pk fk y l); cbn [rbind]; [unfold each in *; rewrite IHl; reflexivity|destruct IHl as (b & E); unfold each in *; rewrite E; cbn; eauto|unfold each in *; rewrite IHl; reflexivity].
      - destruct H as (b & ->). cbn. eauto.
      - rewrite H. reflexivity. }
    unfold agrees in A. destruct (removing_all pk fk y subs); cbn [rbind]; [rewrite A; reflexivity|destruct A as (b & ->); cbn; eauto|rewrite A; reflexivity].
  - cbn. destruct (f_removing pk fk v gs) eqn:E; cbn; auto. exfalso. now apply (f_removing_no_throw v gs e).
Qed.
Lemma clearing_emb : forall n, t_clearing (emb n) = Ok (emb (on_clearing n), None).
Proof.
  induction n as [lt xs subs IH|gs] using node_ind'; [|reflexivity]. cbn [emb t_clearing]. rewrite on_clearing_mirror. destruct xs as [|x xs]; [reflexivity|].
  assert (A : each t_clearing (map emb subs) = Ok (map emb (clearing_all subs), None)).
  { clear - IH. induction IH as [|n l H F IHl]; [reflexivity|]. cbn [map clearing_all each]. rewrite H. cbn [rbind]. unfold each in *. rewrite IHl. reflexivity. }
  rewrite A. reflexivity.
Qed.
Lemma each_agrees (f : node (T := T) -> res node) (g : tnode -> res (tnode * option exn)) (fa : list (node (T := T)) -> res (list node)) :
  fa [] = Ok [] -> (forall n l, fa (n :: l) = let* n' := f n in let* l' := fa l in Ok (n' :: l')) -> (forall n, agrees emb (f n) (g (emb n))) ->
  forall l, agrees (map emb) (fa l) (each g (map emb l)).
Proof.
  intros F0 FS H l. induction l as [|n l IHl]; [rewrite F0; reflexivity|]. rewrite FS. cbn [map each]. specialize (H n). unfold agrees in H. destruct (f n) as [n'|e|].
  - rewrite H. cbn [rbind]. unfold agrees in IHl. destruct (fa l); cbn [rbind]; [unfold each in *; rewrite IHl; reflexivity|destruct IHl as (b & E); unfold each in *; rewrite E; cbn; eauto|unfold each in *; rewrite IHl; reflexivity].
  - destruct H as (b & ->). cbn. eauto.
  - rewrite H. reflexivity.
Qed.
Definition semb (s : source (T := T)) : tsource := TSource (clt s) (cxs s) (map emb (csubs s)).
Theorem throw_conservative : forall v s,
  match o_insert pk fk v s with
  | Ok (s', b) => t_insert pk fk v (semb s) = Ok (semb s', Returned (bit b))
  | Throw e => exists s', t_insert pk fk v (semb s) = Ok (s', Threw e)
  | UB => t_insert pk fk v (semb s) = UB
  end /\
  match o_erase pk fk v s with
  | Ok (s', n) => t_erase pk fk v (semb s) = Ok (semb s', Returned n)
  | Throw e => exists s', t_erase pk fk v (semb s) = Ok (s', Threw e)
  | UB => t_erase pk fk v (semb s) = UB
  end /\
  t_clear (semb s) = Ok (semb (o_clear s), None).
Proof.
  intros v [lt xs subs]. split; [|split].
  - unfold o_insert, t_insert, semb. cbn [clt cxs csubs tlt txs tsubs]. destruct (vinsert lt v xs) as [xs' []]; [|reflexivity].
    pose proof (each_agrees (on_added pk fk v) (t_added v) (added_all pk fk v) eq_refl (fun n l => eq_refl) (added_emb v) subs) as A. unfold agrees in A.
    destruct (added_all pk fk v subs); cbn [rbind]; [rewrite A; reflexivity|destruct A as (b & ->); cbn; eauto|rewrite A; reflexivity].
  - unfold o_erase, t_erase, o_erase_elem, t_erase_elem, semb. cbn [clt cxs csubs tlt txs tsubs]. destruct (find (eqv lt v) xs) as [y|]; [|reflexivity].
    pose proof (each_agrees (on_removing pk fk y) (t_removing y) (removing_all pk fk y) eq_refl (fun n l => eq_refl) (fun n => removing_emb n y) subs) as A. unfold agrees in A.
    destruct (removing_all pk fk y subs); cbn [rbind]; [rewrite A; reflexivity|destruct A as (b & ->); cbn; eauto|rewrite A; reflexivity].
  - unfold o_clear, t_clear, semb. cbn [clt cxs csubs tlt txs tsubs]. destruct xs; [reflexivity|].
    assert (A : each t_clearing (map emb subs) = Ok (map emb (clearing_all subs), None)).
    { induction subs as [|n l IHl]; [reflexivity|]. cbn [map clearing_all each]. rewrite clearing_emb. cbn [rbind]. unfold each in *. rewrite IHl. reflexivity. }
    rewrite A. reflexivity.
Qed.
End Proofs.

(** A foreign_set that has not been told of an element: its erasure uses the end() iterator (violates an assertion). *)
Theorem throw_foreign_refuted : exists os : list (top (T := Z)),
  (forall o, In o os -> top_orders o strict_weak) /\
  match trun (fun x => x) (fun x => Z.modulo x 10) no_tsets os with
  | Ok (e, rs) => rs = [Returned 0; Returned 0; Returned 0; Threw RuntimeError] /\ tstep (fun x => x) (fun x => Z.modulo x 10) e (TErase 0 5%Z) = UB
  | _ => False
  end.
Proof.
  exists [TNew 0 Z.ltb; TSubscribe 0 [] (KUser [true]); TSubscribe 0 [] KForeign; TInsert 0 5%Z]. split.
  - intros o [<-|[<-|[<-|[<-|[]]]]]; cbn; auto. constructor; intros; lia.
  - vm_compute. auto.
Qed.

(** A mirror, an observer that throws at its second call, and a mirror. *)
Example ex_obs_throw :
  let pk := fun x : Z => x in let fk := fun x : Z => Z.modulo x 10 in
  match trun pk fk no_tsets
    [TNew 0 Z.ltb; TSubscribe 0 [] (KMirror Z.ltb); TSubscribe 0 [] (KUser [false; true]); TSubscribe 0 [] (KMirror Z.gtb);
     TInsert 0 7; TInsert 0 5; TErase 0 5; TErase 0 7; TInsert 0 9]%Z with
  | Ok (e, rs) =>
    rs = [Returned 0; Returned 0; Returned 0; Returned 0; Returned 1; Threw RuntimeError; Threw LogicError; Returned 1; Returned 1] /\
    match e 0 with
    | Some s => txs s = [5; 9]%Z /\
                map (fun n => match n with TMirror _ ys _ => ys | _ => [] end) (tsubs s) = [[9]; []; [9]]%Z
    | None => False
    end /\
    match tstep pk fk e (TErase 0 5%Z) with Ok (_, r) => r = Threw LogicError | _ => False end /\
    match trun pk fk e [TClear 0; TInsert 0 5%Z] with
    | Ok (e', rs') => rs' = [Returned 0; Returned 1] /\
      match e' 0 with Some s => map (fun n => match n with TMirror _ ys _ => ys | _ => [] end) (tsubs s) = [[5]; []; [5]]%Z | None => False end
    | _ => False
    end
  | _ => False
  end.
Proof. vm_compute. auto 10. Qed.
(** An exception of an observer in the destructor of the set *)
Example ex_obs_terminate :
  match trun (fun x : Z => x) (fun x => x) no_tsets [TNew 0 Z.ltb; TSubscribe 0 [] (KUser [false; true]); TInsert 0 7; TDestroy 0]%Z with
  | Ok (_, rs) => rs = [Returned 0; Returned 0; Returned 1; Terminated]
  | _ => False
  end.
Proof. vm_compute. auto. Qed.
