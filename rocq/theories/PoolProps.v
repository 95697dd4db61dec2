(** C44: an object pool never hands out an object in use. *)
From Coq Require Import Permutation ZifyBool ZifyNat.
From Verif Require Import Common PoolModel.

(** ** Specification *)

(** The pointers of the user, the number of objects constructed, the objects destroyed, and whether the
    pool exists. *)
Record user := User { ptrs : list (option nat); made : nat; gone : list nat; open_ : bool }.

Definition referenced (s : user) (p : nat) : Prop := In (Some p) (ptrs s).
(** [p] exists and nobody refers to it. *)
Definition available (s : user) (p : nat) : Prop := p < made s /\ ~ In p (gone s) /\ ~ referenced s p.

Definition allowed (s : user) (o : pop_) : Prop :=
  match o with
  | PMake v | PAdd v => open_ s = true /\ v < length (ptrs s)
  | PCopy v w => v < length (ptrs s) /\ w < length (ptrs s)
  | PReset v => v < length (ptrs s)
  | PClear => open_ s = true
  | PDestroy => open_ s = true /\ forall p, ~ referenced s p   (* the assertion of the destructor *)
  end.

(** [d] lists the available objects, each once. *)
Definition all_available (s : user) (d : list nat) : Prop := NoDup d /\ forall p, In p d <-> available s p.

Inductive ustep : user -> pop_ -> user -> option nat -> Prop :=
(** an object that nobody refers to is used again *)
| UMakeOld s v p : available s p -> ustep s (PMake v) (User (set_nth (ptrs s) v (Some p)) (made s) (gone s) (open_ s)) (Some p)
(** a new object is constructed only if all the existing ones are in use *)
| UMakeNew s v : (forall p, ~ available s p) ->
    ustep s (PMake v) (User (set_nth (ptrs s) v (Some (made s))) (S (made s)) (gone s) (open_ s)) (Some (made s))
| UAdd s v : ustep s (PAdd v) (User (set_nth (ptrs s) v (Some (made s))) (S (made s)) (gone s) (open_ s)) (Some (made s))
| UCopy s v w x : nth_error (ptrs s) w = Some x -> ustep s (PCopy v w) (User (set_nth (ptrs s) v x) (made s) (gone s) (open_ s)) None
| UReset s v : ustep s (PReset v) (User (set_nth (ptrs s) v None) (made s) (gone s) (open_ s)) None
(** exactly the objects that nobody refers to are destroyed *)
| UClear s d : all_available s d -> ustep s PClear (User (ptrs s) (made s) (gone s ++ d) (open_ s)) None
| UDestroy s d : all_available s d -> ustep s PDestroy (User (ptrs s) (made s) (gone s ++ d) false) None.

(** A history that respects [allowed], with the answers. *)
Inductive uruns : user -> list pop_ -> user -> list (option nat) -> Prop :=
| UNil s : uruns s [] s []
| UCons s o s' a os s'' l : allowed s o -> ustep s o s' a -> uruns s' os s'' l -> uruns s (o :: os) s'' (a :: l).

(** The history is allowed whatever the pool answers (as long as it answers as specified). *)
Inductive safe : user -> list pop_ -> Prop :=
| SafeNil s : safe s []
| SafeCons s o os : allowed s o -> (forall s' a, ustep s o s' a -> safe s' os) -> safe s (o :: os).

Definition uinit (n : nat) : user := User (repeat None n) 0 [] true.

(** ** Proof *)

Lemma opt_dec : forall x y : option nat, {x = y} + {x <> y}.
Proof. decide equality. apply Nat.eq_dec. Qed.

Record rel (u : user) (s : pool) : Prop := Rel {
  r_vars : vars s = ptrs u; r_next : next s = made u; r_gone : deleted s = gone u; r_open : exists_ s = open_ u;
  r_refs : forall p, refs s p = count_occ opt_dec (ptrs u) (Some p);
  r_nf : NoDup (m_free s); r_free : forall p, In p (m_free s) <-> available u p;
  r_nu : NoDup (m_used s); r_used : forall p, In p (m_used s) <-> referenced u p;
  r_live : forall p, referenced u p -> p < made u /\ ~ In p (gone u);
  r_bound : forall p, In p (gone u) -> p < made u;
  r_closed : open_ u = false -> forall p, ~ referenced u p
}.

Lemma count_set_nth (l : list (option nat)) i x old y : nth_error l i = Some old ->
  count_occ opt_dec (set_nth l i x) y + (if opt_dec old y then 1 else 0) = count_occ opt_dec l y + (if opt_dec x y then 1 else 0).
Proof.
  revert i; induction l as [|z l IH]; intros [|i] E; cbn in *; try discriminate.
  - injection E as ->. destruct (opt_dec x y), (opt_dec old y); lia.
  - specialize (IH _ E). destruct (opt_dec z y); lia.
Qed.

Lemma in_set_nth (l : list (option nat)) i x old y : nth_error l i = Some old ->
  In y (set_nth l i x) <-> (x = y \/ count_occ opt_dec l y > (if opt_dec old y then 1 else 0)).
Proof.
  intros E. rewrite (count_occ_In opt_dec). pose proof (count_set_nth l i x old y E) as C.
  assert (G : old = y -> count_occ opt_dec l y > 0).
  { intros <-. apply (count_occ_In opt_dec). eapply nth_error_In; eauto. }
  destruct (opt_dec x y), (opt_dec old y) as [O|O]; try specialize (G O); split; intros K; auto; try lia.
  all: try (right; lia). all: destruct K; [congruence|lia].
Qed.

Lemma erase_ok l p : In p l -> NoDup l -> exists l', erase l p = Ok l' /\ NoDup l' /\ forall q, In q l' <-> In q l /\ q <> p.
Proof.
  intros I N. unfold erase, guard. replace (existsb (Nat.eqb p) l) with true.
  2:{ symmetry. apply existsb_exists. exists p. split; auto. apply Nat.eqb_refl. }
  eexists; split; [reflexivity|]. split; [now apply NoDup_filter|].
  intros q. rewrite filter_In, negb_true_iff, Nat.eqb_neq. intuition congruence.
Qed.

(** The central lemma.  [s] is a pool in which the reference of the new value [x] has been counted and,
    if it comes from the pool, is in the used list; then storing it restores the relation. *)
Lemma store_ok u s v x m : v < length (ptrs u) ->
  vars s = ptrs u -> next s = m -> deleted s = gone u -> exists_ s = open_ u -> made u <= m ->
  (forall p, refs s p = count_occ opt_dec (ptrs u) (Some p) + (if opt_dec x (Some p) then 1 else 0)) ->
  NoDup (m_free s) -> (forall p, In p (m_free s) <-> (p < m /\ ~ In p (gone u) /\ ~ referenced u p /\ x <> Some p)) ->
  NoDup (m_used s) -> (forall p, In p (m_used s) <-> referenced u p \/ x = Some p) ->
  (forall p, referenced u p \/ x = Some p -> p < m /\ ~ In p (gone u)) ->
  (forall p, In p (gone u) -> p < m) ->
  (open_ u = false -> forall p, ~ (referenced u p \/ x = Some p)) ->
  exists s', store s v x = Ok s' /\ rel (User (set_nth (ptrs u) v x) m (gone u) (open_ u)) s'.
Proof.
  intros L EV EN EG EO LM ER NF F NU U LV B CL. unfold store. rewrite EV.
  destruct (nth_error (ptrs u) v) as [old|] eqn:E.
  2:{ apply nth_error_None in E. lia. }
  assert (REF : forall p, referenced (User (set_nth (ptrs u) v x) m (gone u) (open_ u)) p <->
      (x = Some p \/ count_occ opt_dec (ptrs u) (Some p) > (if opt_dec old (Some p) then 1 else 0))).
  { intros p. unfold referenced. cbn. now apply in_set_nth. }
  assert (CNT : forall p, referenced u p <-> count_occ opt_dec (ptrs u) (Some p) > 0).
  { intros p. apply (count_occ_In opt_dec). }
  unfold drop. cbn [vars refs m_free m_used next deleted exists_].
  destruct old as [p|].
  - assert (RP : referenced u p) by (unfold referenced; eapply nth_error_In; eauto).
    rewrite ER. pose proof (proj1 (CNT p) RP) as CP.
    destruct (count_occ opt_dec (ptrs u) (Some p)) as [|k] eqn:CK; [lia|].
    cbn [plus]. destruct (Nat.eqb_spec (k + (if opt_dec x (Some p) then 1 else 0)) 0) as [K0|K1].
    + (* the last reference *)
      destruct (opt_dec x (Some p)) as [X|X]; [lia|]. assert (k = 0) as -> by lia.
      unfold deleter. cbn [vars refs m_free m_used next deleted exists_].
      assert (OP : open_ u = true). { destruct (open_ u) eqn:Q; auto. exfalso. apply (CL eq_refl p). auto. }
      rewrite EO, OP. cbn [guard].
      destruct (erase_ok (m_used s) p) as (l' & -> & NU' & U'); auto. { apply U; auto. }
      cbn [rbind]. eexists; split; [reflexivity|].
      assert (NRp : ~ referenced (User (set_nth (ptrs u) v x) m (gone u) true) p).
      { rewrite <- OP. rewrite REF, CK. destruct (opt_dec (Some p) (Some p)); [|congruence]. intros [|]; [congruence|lia]. }
      assert (RQ : forall q, q <> p -> referenced (User (set_nth (ptrs u) v x) m (gone u) true) q <-> (x = Some q \/ referenced u q)).
      { intros q N. rewrite <- OP, REF, CNT. destruct (opt_dec (Some p) (Some q)); [congruence|]. tauto. }
      constructor; cbn [vars refs m_free m_used next deleted exists_ ptrs made gone open_]; auto; try congruence.
      * intros q. unfold upd. pose proof (count_set_nth (ptrs u) v x (Some p) (Some q) E) as CS.
        destruct (Nat.eqb_spec q p) as [->|N].
        -- destruct (opt_dec (Some p) (Some p)); [|congruence]. destruct (opt_dec x (Some p)); [congruence|]. lia.
        -- rewrite ER. destruct (opt_dec (Some p) (Some q)); [congruence|]. destruct (opt_dec x (Some q)); lia.
      * apply (Permutation_NoDup (l := p :: m_free s)).
        -- apply Permutation_cons_append.
        -- constructor; auto. rewrite F. tauto.
      * intros q. rewrite in_app_iff, F. unfold available. cbn [ptrs made gone open_].
        destruct (Nat.eq_dec q p) as [->|N].
        -- split; [|cbn; tauto]. intros _. destruct (LV p ltac:(auto)). tauto.
        -- rewrite RQ by auto. cbn. intuition congruence.
      * intros q. rewrite U', U. destruct (Nat.eq_dec q p) as [->|N]; [tauto|]. rewrite RQ by auto. tauto.
      * intros q Q. apply LV. destruct (Nat.eq_dec q p) as [->|N]; [tauto|]. rewrite RQ in Q by auto. tauto.
    + (* other references remain *)
      eexists; split; [reflexivity|].
      assert (RQ : forall q, referenced (User (set_nth (ptrs u) v x) m (gone u) (open_ u)) q <-> (x = Some q \/ referenced u q)).
      { intros q. rewrite REF, CNT. destruct (opt_dec (Some p) (Some q)) as [Q|Q]; [|tauto]. injection Q as <-.
        rewrite CK. destruct (opt_dec x (Some p)); [tauto|]. split; [intros [|]; [tauto|right; lia]|intros [|]; [tauto|right; lia]]. }
      constructor; cbn [vars refs m_free m_used next deleted exists_ ptrs made gone open_]; auto; try congruence.
      * intros q. unfold upd. pose proof (count_set_nth (ptrs u) v x (Some p) (Some q) E) as CS.
        destruct (Nat.eqb_spec q p) as [->|N].
        -- destruct (opt_dec (Some p) (Some p)); [|congruence]. destruct (opt_dec x (Some p)); lia.
        -- rewrite ER. destruct (opt_dec (Some p) (Some q)); [congruence|]. destruct (opt_dec x (Some q)); lia.
      * intros q. rewrite F. unfold available. cbn [ptrs made gone open_]. rewrite RQ. tauto.
      * intros q. rewrite U, RQ. tauto.
      * intros q Q. apply LV. rewrite RQ in Q. tauto.
      * intros O q Q. apply (CL O q). rewrite RQ in Q. tauto.
  - eexists; split; [reflexivity|].
    assert (RQ : forall q, referenced (User (set_nth (ptrs u) v x) m (gone u) (open_ u)) q <-> (x = Some q \/ referenced u q)).
    { intros q. rewrite REF, CNT. destruct (opt_dec None (Some q)); [congruence|]. tauto. }
    constructor; cbn [vars refs m_free m_used next deleted exists_ ptrs made gone open_]; auto; try congruence.
    + intros q. pose proof (count_set_nth (ptrs u) v x None (Some q) E) as CS. rewrite ER.
      destruct (opt_dec None (Some q)); [congruence|]. destruct (opt_dec x (Some q)); lia.
    + intros q. rewrite F. unfold available. cbn [ptrs made gone open_]. rewrite RQ. tauto.
    + intros q. rewrite U, RQ. tauto.
    + intros q Q. apply LV. rewrite RQ in Q. tauto.
    + intros O q Q. apply (CL O q). rewrite RQ in Q. tauto.
Qed.

Lemma clear_from_spec f s : m_free s = f -> clear_from f s = Pool (vars s) (refs s) [] (m_used s) (next s) (deleted s ++ f) (exists_ s).
Proof.
  revert s; induction f as [|p f IH]; intros s E; cbn.
  - destruct s; cbn in *; subst. now rewrite app_nil_r.
  - rewrite IH by reflexivity. cbn. now rewrite <- app_assoc.
Qed.

Lemma upd_same (f : nat -> nat) k v q : upd f k v q = if Nat.eqb q k then v else f q.
Proof. reflexivity. Qed.

Lemma step_rel u s o : rel u s -> allowed u o ->
  exists s' u' a, pstep s o = Ok (s', a) /\ ustep u o u' a /\ rel u' s'.
Proof.
  intros [RV RN RG RO RR NF F NU U LV B CL] A. destruct o as [v|v|v w|v| |]; cbn [allowed] in A; cbn [pstep].
  - (* make *)
    destruct A as [OP L]. rewrite RO, OP. cbn [guard]. unfold make.
    destruct (m_free s) as [|p f] eqn:MF.
    + assert (NA : forall p, ~ available u p) by (intros p; rewrite <- F; cbn; tauto).
      assert (NM : ~ referenced u (made u)) by (intros H; apply LV in H; lia).
      assert (NG : ~ In (made u) (gone u)) by (intros H; apply B in H; lia).
      destruct (store_ok u (add (Pool (vars s) (refs s) [] (m_used s) (S (next s)) (deleted s) (exists_ s)) (next s)) v (Some (next s)) (S (made u)))
        as (s' & -> & R); cbn [add vars refs m_free m_used next deleted exists_]; auto; rewrite ?RN; auto.
      * intros q. rewrite upd_same, RR. destruct (Nat.eqb_spec q (made u)) as [->|N].
        -- destruct (opt_dec (Some (made u)) (Some (made u))); [|congruence].
           replace (count_occ opt_dec (ptrs u) (Some (made u))) with 0; auto. symmetry. now apply count_occ_not_In.
        -- destruct (opt_dec (Some (made u)) (Some q)); [congruence|lia].
      * intros q. cbn. split; [tauto|]. intros (L1 & G1 & R1 & X1). apply (NA q). unfold available.
        assert (q <> made u) by congruence. split; [lia|tauto].
      * apply (Permutation_NoDup (l := made u :: m_used s)); [apply Permutation_cons_append|]. constructor; auto. now rewrite U.
      * intros q. rewrite in_app_iff, U. cbn. intuition congruence.
      * intros q [Q|Q]; [apply LV in Q; split; [lia|tauto]|]. injection Q as <-. split; [lia|auto].
      * intros q Q. apply B in Q. lia.
      * congruence.
      * cbn [rbind]. eexists; eexists; eexists; split; [reflexivity|]. rewrite RN in R. split; [|exact R].
        now apply UMakeNew.
    + assert (AV : available u p) by (apply F; now left). inversion NF as [|? ? NP NF']; subst.
      destruct AV as (LP & GP & RP).
      destruct (store_ok u (add (Pool (vars s) (refs s) f (m_used s) (next s) (deleted s) (exists_ s)) p) v (Some p) (made u))
        as (s' & -> & R); cbn [add vars refs m_free m_used next deleted exists_]; auto.
      * intros q. rewrite upd_same, RR. destruct (Nat.eqb_spec q p) as [->|N].
        -- destruct (opt_dec (Some p) (Some p)); [|congruence].
           replace (count_occ opt_dec (ptrs u) (Some p)) with 0; auto. symmetry. now apply count_occ_not_In.
        -- destruct (opt_dec (Some p) (Some q)); [congruence|lia].
      * intros q. specialize (F q). cbn in F. unfold available in F. split.
        -- intros I. assert (p <> q) by congruence. assert (~ In q (gone u)) by tauto. intuition congruence.
        -- intros (L1 & G1 & R1 & X1). assert (p <> q) by congruence. tauto.
      * apply (Permutation_NoDup (l := p :: m_used s)); [apply Permutation_cons_append|]. constructor; auto. now rewrite U.
      * intros q. rewrite in_app_iff, U. cbn. intuition congruence.
      * intros q [Q|Q]; [now apply LV|]. injection Q as <-. tauto.
      * congruence.
      * cbn [rbind]. eexists; eexists; eexists; split; [reflexivity|]. split; [|exact R].
        apply UMakeOld. unfold available. tauto.
  - (* add *)
    destruct A as [OP L]. rewrite RO, OP. cbn [guard].
    assert (NM : ~ referenced u (made u)) by (intros H; apply LV in H; lia).
    assert (NG : ~ In (made u) (gone u)) by (intros H; apply B in H; lia).
    destruct (store_ok u (add (Pool (vars s) (refs s) (m_free s) (m_used s) (S (next s)) (deleted s) true) (next s)) v (Some (next s)) (S (made u)))
      as (s' & -> & R); cbn [add vars refs m_free m_used next deleted exists_]; auto; rewrite ?RN; auto.
    + intros q. rewrite upd_same, RR. destruct (Nat.eqb_spec q (made u)) as [->|N].
      * destruct (opt_dec (Some (made u)) (Some (made u))); [|congruence].
        replace (count_occ opt_dec (ptrs u) (Some (made u))) with 0; auto. symmetry. now apply count_occ_not_In.
      * destruct (opt_dec (Some (made u)) (Some q)); [congruence|lia].
    + intros q. rewrite F. unfold available. split.
      * intros (L1 & G1 & R1). assert (made u <> q) by lia. repeat split; auto; congruence.
      * intros (L1 & G1 & R1 & X1). assert (q <> made u) by congruence. repeat split; auto. lia.
    + apply (Permutation_NoDup (l := made u :: m_used s)); [apply Permutation_cons_append|]. constructor; auto. now rewrite U.
    + intros q. rewrite in_app_iff, U. cbn. intuition congruence.
    + intros q [Q|Q]; [apply LV in Q; split; [lia|tauto]|]. injection Q as <-. split; [lia|auto].
    + intros q Q. apply B in Q. lia.
    + congruence.
    + cbn [rbind]. eexists; eexists; eexists; split; [reflexivity|]. rewrite RN in R. split; [|exact R]. apply UAdd.
  - (* copy *)
    destruct A as [L LW]. rewrite RV. destruct (nth_error (ptrs u) w) as [x|] eqn:E.
    2:{ apply nth_error_None in E. lia. }
    assert (RX : forall p, x = Some p -> referenced u p) by (intros p ->; eapply nth_error_In; eauto).
    match goal with |- context [store ?a v x] => set (s1 := a) end.
    assert (D : vars s1 = vars s /\ m_free s1 = m_free s /\ m_used s1 = m_used s /\ next s1 = next s /\ deleted s1 = deleted s /\ exists_ s1 = exists_ s).
    { unfold s1. destruct x; cbn; rewrite ?RV; auto 10. }
    destruct D as (D1 & D2 & D3 & D4 & D5 & D6).
    destruct (store_ok u s1 v x (made u)) as (s' & -> & R); rewrite ?D1, ?D2, ?D3, ?D4, ?D5, ?D6; auto.
    + intros q. unfold s1. destruct x as [p|]; cbn [refs].
      * rewrite upd_same, !RR. destruct (Nat.eqb_spec q p) as [->|N].
        -- destruct (opt_dec (Some p) (Some p)); [lia|congruence].
        -- destruct (opt_dec (Some p) (Some q)); [congruence|lia].
      * rewrite RR. destruct (opt_dec None (Some q)); [congruence|lia].
    + intros q. rewrite F. unfold available. intuition eauto.
    + intros q. rewrite U. intuition eauto.
    + intros q [Q|Q]; apply LV; auto.
    + intros O q [Q|Q]; apply (CL O q); auto.
    + cbn [rbind]. eexists; eexists; eexists; split; [reflexivity|]. split; [|exact R]. now apply UCopy.
  - (* reset *)
    destruct (store_ok u s v None (made u)) as (s' & -> & R); auto.
    + intros q. rewrite RR. destruct (opt_dec None (Some q)); [congruence|lia].
    + intros q. rewrite F. unfold available. intuition congruence.
    + intros q. rewrite U. intuition congruence.
    + intros q [Q|Q]; [auto|congruence].
    + intros O q [Q|Q]; [now apply (CL O q)|congruence].
    + cbn [rbind]. eexists; eexists; eexists; split; [reflexivity|]. split; [|exact R]. apply UReset.
  - (* clear *)
    rewrite RO, A. cbn [guard]. unfold clear. rewrite clear_from_spec by auto.
    eexists; eexists; eexists; split; [reflexivity|]. split; [apply (UClear u (m_free s)); split; auto|].
    constructor; cbn [vars refs m_free m_used next deleted exists_ ptrs made gone open_]; auto; try congruence.
    + constructor.
    + intros q. unfold available, referenced. cbn [ptrs made gone]. rewrite in_app_iff, F. unfold available, referenced. cbn. tauto.
    + intros q Q. specialize (LV q Q). rewrite in_app_iff, F. unfold available. tauto.
    + intros q. rewrite in_app_iff, F. unfold available. intros [Q|Q]; [auto|tauto].
  - (* destroy *)
    destruct A as [OP NR]. rewrite RO, OP. cbn [guard]. unfold destroy_pool.
    assert (UE : m_used s = []).
    { destruct (m_used s) as [|p l] eqn:Q; auto. exfalso. apply (NR p). apply U. now left. }
    rewrite UE. unfold clear. rewrite clear_from_spec by auto. cbn [rbind vars refs m_free m_used next deleted exists_].
    eexists; eexists; eexists; split; [reflexivity|]. split; [apply (UDestroy u (m_free s)); split; auto|].
    constructor; cbn [vars refs m_free m_used next deleted exists_ ptrs made gone open_]; auto; try congruence.
    + intros q. unfold available, referenced. cbn [ptrs made gone]. rewrite in_app_iff, F. unfold available, referenced. cbn. tauto.
    + intros q Q. exfalso. now apply (NR q).
    + intros q. rewrite in_app_iff, F. unfold available. intros [Q|Q]; [auto|tauto].
Qed.

Lemma run_rel os : forall u s, rel u s -> safe u os ->
  exists s' u' l, prun s os = Ok (s', l) /\ uruns u os u' l /\ rel u' s'.
Proof.
  induction os as [|o os IH]; intros u s R SF.
  - exists s, u, []. split; [reflexivity|]. split; [constructor|auto].
  - inversion SF as [|? ? ? A N]; subst. destruct (step_rel _ _ _ R A) as (s1 & u1 & a & E & US & R1).
    destruct (IH _ _ R1 (N _ _ US)) as (s2 & u2 & l & E2 & U2 & R2).
    exists s2, u2, (a :: l). split; [|split; [econstructor; eauto|auto]].
    cbn [prun]. rewrite E. cbn [rbind]. rewrite E2. reflexivity.
Qed.

Lemma rel_init n : rel (uinit n) (pinit n).
Proof.
  assert (NR : forall p, ~ referenced (uinit n) p) by (intros p H; apply repeat_spec in H; discriminate).
  constructor; cbn [pinit uinit vars refs m_free m_used next deleted exists_ ptrs made gone open_]; auto; try apply NoDup_nil.
  - intros p. clear. induction n; cbn; auto. destruct (opt_dec None (Some p)); [congruence|auto].
  - intros p. unfold available. cbn. split; [tauto|lia].
  - intros p. cbn. split; [tauto|apply NR].
  - intros p H. now apply NR in H.
  - intros p [].
Qed.

(** *** Histories of make, add, copy, reset and clear with existing variables *)
Definition simple (n : nat) (o : pop_) : Prop :=
  match o with PMake v | PAdd v | PReset v => v < n | PCopy v w => v < n /\ w < n | PClear => True | PDestroy => False end.

Lemma simple_step n u o u' a : simple n o -> open_ u = true -> length (ptrs u) = n -> ustep u o u' a ->
  open_ u' = true /\ length (ptrs u') = n.
Proof. intros S O L H. inversion H; subst; cbn in *; rewrite ?set_nth_length; auto; tauto. Qed.

Lemma simple_safe n os tl : Forall (simple n) os -> forall u, open_ u = true -> length (ptrs u) = n ->
  (forall u', open_ u' = true -> length (ptrs u') = n -> (exists l, uruns u os u' l) -> safe u' tl) -> safe u (os ++ tl).
Proof.
  induction 1 as [|o os S F IH]; intros u O L T; cbn [app].
  - apply T; auto. exists []. constructor.
  - assert (A : allowed u o) by (destruct o; cbn in *; rewrite ?L; tauto).
    constructor; auto. intros u' a H. destruct (simple_step _ _ _ _ _ S O L H) as [O' L'].
    apply IH; auto. intros u2 O2 L2 (l & R). apply T; auto. exists (a :: l). econstructor; eauto.
Qed.

Lemma uruns_app u os os' u' l : uruns u (os ++ os') u' l -> exists u1 l1 l2, uruns u os u1 l1 /\ uruns u1 os' u' l2.
Proof.
  revert u l. induction os as [|o os IH]; intros u l H; cbn in H.
  - exists u, [], l. split; [constructor|auto].
  - inversion H as [|? ? v a ? ? l0 AL ST RR]; subst. destruct (IH _ _ RR) as (u1 & l1 & l2 & A & B). exists u1, (a :: l1), l2. split; auto. econstructor; eauto.
Qed.

(** Destroyed objects are distinct and were constructed. *)
Definition once (u : user) : Prop := NoDup (gone u) /\ forall p, In p (gone u) -> p < made u.

Lemma nodup_app {A} (a b : list A) : NoDup a -> NoDup b -> (forall x, In x a -> ~ In x b) -> NoDup (a ++ b).
Proof.
  induction 1 as [|x a NI N IH]; cbn; intros Nb D; auto. constructor.
  - rewrite in_app_iff. intros [H|H]; [auto|]. apply (D x); auto.
  - apply IH; auto.
Qed.

Lemma once_step u o u' a : once u -> ustep u o u' a -> once u'.
Proof.
  intros [N B] H. inversion H; subst; unfold once; cbn; auto.
  1-2: split; auto; intros p I; apply B in I; lia.
  1-2: destruct H0 as [ND AV]; split; [apply nodup_app; auto; intros p I J; apply AV in J; destruct J as (_ & J & _); auto|].
  1-2: intros p I; apply in_app_or in I; destruct I as [I|I]; [auto|]; apply AV in I; apply I.
Qed.

Lemma once_runs u os u' l : once u -> uruns u os u' l -> once u'.
Proof. intros O R. induction R; auto. apply IHR. eapply once_step; eauto. Qed.

Lemma resets_clear : forall k u u' l m, uruns u (map PReset (seq m k)) u' l ->
  length (ptrs u) = m + k -> (forall i, i < m -> nth_error (ptrs u) i = Some None) -> forall p, ~ referenced u' p.
Proof.
  induction k as [|k IH]; intros u u' l m R L Z p; cbn in R.
  - inversion R; subst. intros I. apply In_nth_error in I. destruct I as [i I].
    assert (i < length (ptrs u')) by (apply nth_error_Some; congruence).
    rewrite Z in I by lia. discriminate.
  - inversion R as [|? ? u1 a ? ? l1 AL ST RR]; subst. inversion ST; subst. refine (IH _ _ _ _ RR _ _ p); cbn [ptrs].
    + rewrite set_nth_length. lia.
    + intros i Li. destruct (Nat.eq_dec i m) as [->|N].
      * apply nth_error_set_nth_eq. lia.
      * rewrite nth_error_set_nth_neq by congruence. apply Z. lia.
Qed.

Lemma simple_runs n os : Forall (simple n) os -> forall u u' l, open_ u = true -> length (ptrs u) = n -> uruns u os u' l ->
  open_ u' = true /\ length (ptrs u') = n.
Proof.
  induction 1 as [|o os S F IH]; intros u u' l O L R; inversion R as [|? ? u1 a ? ? l1 AL ST RR]; subst; auto.
  destruct (simple_step _ _ _ _ _ S O eq_refl ST) as [O' L']. rewrite <- L' in *. eapply IH; eauto.
Qed.

(** ** Theorems *)

(** Every history of the user goes as specified: make() returns an object that no pointer refers to,
    an old one whenever there is one, and clear() destroys exactly the objects that are not referred to;
    nothing is undefined. *)
Theorem pool_correct n os : Forall (simple n) os ->
  exists s u l, prun (pinit n) os = Ok (s, l) /\ uruns (uinit n) os u l /\
    vars s = ptrs u /\ next s = made u /\ deleted s = gone u.
Proof.
  intros F. assert (SF : safe (uinit n) os).
  { rewrite <- (app_nil_r os). apply (simple_safe n); auto; [apply repeat_length|]. intros; constructor. }
  destruct (run_rel os _ _ (rel_init n) SF) as (s & u & l & E & R & RL). exists s, u, l.
  destruct RL. auto.
Qed.
Print Assumptions pool_correct.

(** No object is destroyed twice. *)
Theorem pool_destroys_at_most_once n os s l : Forall (simple n) os -> prun (pinit n) os = Ok (s, l) ->
  NoDup (deleted s) /\ forall p, In p (deleted s) -> p < next s /\ ~ In (Some p) (vars s).
Proof.
  intros F E. assert (SF : safe (uinit n) os).
  { rewrite <- (app_nil_r os). apply (simple_safe n); auto; [apply repeat_length|]. intros; constructor. }
  destruct (run_rel os _ _ (rel_init n) SF) as (s' & u & l' & E' & R & RL).
  rewrite E in E'. injection E' as <- <-.
  assert (O : once u) by (eapply once_runs; [|exact R]; split; [constructor|intros p []]).
  destruct O as [N B], RL. rewrite r_gone0, r_next0, r_vars0. split; auto. intros p I. split; auto.
  intros J. apply (proj2 (r_live0 p J)). exact I.
Qed.
Print Assumptions pool_destroys_at_most_once.

(** When the user drops all pointers and the pool is destroyed, every object has been destroyed exactly once. *)
Theorem pool_destroys_exactly_once n os : Forall (simple n) os ->
  exists s l, prun (pinit n) (os ++ map PReset (seq 0 n) ++ [PDestroy]) = Ok (s, l) /\
    Permutation (deleted s) (seq 0 (next s)).
Proof.
  intros F.
  assert (F2 : Forall (simple n) (map PReset (seq 0 n))).
  { apply Forall_forall. intros o I. apply in_map_iff in I. destruct I as (v & <- & I). apply in_seq in I. cbn. lia. }
  assert (SF : safe (uinit n) (os ++ map PReset (seq 0 n) ++ [PDestroy])).
  { apply (simple_safe n); auto; [apply repeat_length|]. intros u O L _.
    apply (simple_safe n); auto. intros u' O' L' (l' & R'). constructor; [|intros; constructor].
    split; auto. eapply resets_clear; eauto. intros i Li. lia. }
  destruct (run_rel _ _ _ (rel_init n) SF) as (s & u & l & E & R & RL). exists s, l. split; auto.
  assert (O : once u) by (eapply once_runs; [|exact R]; split; [constructor|intros p []]).
  rewrite app_assoc in R. destruct (uruns_app _ _ _ _ _ R) as (u1 & l1 & l2 & R1 & R2).
  inversion R2 as [|? ? v a ? ? l0 AL ST RR]; subst. inversion RR; subst. inversion ST as [| | | | | |? d [ND AV]]; subst.
  destruct O as [N B], RL. cbn in *. rewrite r_gone0, r_next0.
  apply NoDup_Permutation; auto; [apply seq_NoDup|]. intros p. rewrite in_seq. split.
  - intros I. apply B in I. lia.
  - intros [_ L]. rewrite in_app_iff. destruct (in_dec Nat.eq_dec p (gone u1)) as [I|I]; auto. right.
    apply AV. repeat split; auto. apply AL.
Qed.
Print Assumptions pool_destroys_exactly_once.

(** Two pointers; the object dropped by pointer 0 is handed out again, one is copied. *)
Example pool_demo : exists s, prun (pinit 3) [PMake 0; PMake 1; PReset 0; PMake 2; PCopy 0 2; PReset 2; PMake 1; PClear; PMake 2]
  = Ok (s, [Some 0; Some 1; None; Some 0; None; None; Some 2; None; Some 3]) /\ vars s = [Some 0; Some 2; Some 3] /\ deleted s = [1].
Proof. eexists; split; [vm_compute; reflexivity|split; reflexivity]. Qed.
