(** Rotations, recolouring and node insertion on ghost trees. *)
From Verif Require Import Common VSetModel VSetTree.
From Coq Require Import ZifyBool ZifyNat.

Section Rotate.
Context {T : Type}.
Implicit Types (s : st T).

(** The set is focused at subtree [t] in context [C]. *)
Record foc s (t : tree) (C : ctx) : Prop := {
  ft : tst s t (up C);
  fx : cst s C (ptr t);
  fnd : forall b, tm t b + cm C b <= 1;
  ftc : tct s t;
  fcc : cct s C (sz t);
  ffr : forall b, 1 <= tm t b + cm C b -> b < fresh s
}.

Lemma foc_zip s d c t a sb C : foc s (mkN d c t a sb) C <-> foc s t (Fr d c a sb :: C).
Proof.
  split; intros [H1 H2 H3 H4 H5 H6].
  - apply tst_mkN in H1. apply tct_mkN in H4. rewrite ptr_mkN in H2. rewrite sz_mkN in H5.
    split; simpl; try tauto.
    + intros b. specialize (H3 b). rewrite tm_mkN in H3. lia.
    + intros b Hb. apply H6. rewrite tm_mkN. lia.
  - simpl in *. split.
    + apply tst_mkN. tauto.
    + rewrite ptr_mkN. tauto.
    + intros b. specialize (H3 b). rewrite tm_mkN. lia.
    + apply tct_mkN. tauto.
    + rewrite sz_mkN. tauto.
    + intros b Hb. apply H6. rewrite tm_mkN in Hb. lia.
Qed.

Lemma foc_plug s t C : foc s t C <-> foc s (plug t C) [].
Proof.
  revert t; induction C as [|[d c a sb] C IH]; intros t; simpl; [tauto|].
  rewrite <- IH. symmetry. apply foc_zip.
Qed.

Lemma foc_length s t C : foc s t C -> sz t + length C <= fresh s.
Proof.
  intros [H1 H2 H3 H4 H5 H6].
  transitivity (sz (plug t C)); [apply depth_plug|]. apply sz_le_fresh.
  - intros b. rewrite tm_plug. auto.
  - intros b. rewrite tm_plug. auto.
Qed.

Lemma foc_cnt_only s s' t C : foc s t C -> cnt_only s s' -> cct s' C (sz t) -> tct s' t -> foc s' t C.
Proof.
  intros [H1 H2 H3 H4 H5 H6] O Hc Ht. split; auto.
  - eapply tst_frame; [|exact H1]. intros b _. now apply cnt_only_eq_at.
  - eapply cst_frame; [| |exact H2]; [|apply O]. intros b _. now apply cnt_only_eq_at.
  - destruct O as ((_ & _ & _ & ->) & _). auto.
Qed.

(** ** Recolouring *)
Lemma foc_col s c c' l a r C :
  foc s (N c l a r) C ->
  alive s a = true /\ foc (set_col a c' s) (N c' l a r) C /\ same s (set_col a c' s).
Proof.
  intros [H1 H2 H3 H4 H5 H6].
  assert (H1' := H1). destruct H1' as (Ha & Hp & Hl & Hr & Hc & Tl & Tr).
  pose proof (H3 a) as Hnd. simpl in Hnd. rewrite Nat.eqb_refl in Hnd.
  assert (Heq : forall b, b <> a -> eq_at s (set_col a c' s) b).
  { intros b Hb. repeat split. cbn [col set_col]. now apply upd_neq. }
  split; [exact Ha|]. split; [|repeat split]. split; auto.
  - simpl. repeat split; auto.
    + apply upd_eq.
    + eapply tst_frame; [|exact Tl]. intros b Hb. apply Heq. intros ->. lia.
    + eapply tst_frame; [|exact Tr]. intros b Hb. apply Heq. intros ->. lia.
  - eapply cst_frame; [| |exact H2]; [|reflexivity]. intros b Hb. apply Heq. intros ->. lia.
  - change (tct (set_col a c' s) (N c l a r)). eapply tct_frame; [|exact H4]. reflexivity.
  - change (cct (set_col a c' s) C (sz (N c l a r))). eapply cct_frame; [|exact H5]. reflexivity.
Qed.

Lemma foc_col_mk s d c c' l a r C :
  foc s (mkN d c l a r) C ->
  alive s a = true /\ foc (set_col a c' s) (mkN d c' l a r) C /\ same s (set_col a c' s).
Proof. destruct d; apply foc_col. Qed.

(** ** Rotation, for both directions at once *)
Definition rotate (d : dir) (x : option nat) : @M T unit :=
  match d with L => rotate_left x | R => rotate_right x end.

Ltac cbns := cbn [par lft rgt col cnt val nxt prv fresh root set_root set_par set_lft set_rgt set_col set_cnt
                  child setc opp ptr is_null up fa fd fc fs] in *.

Ltac nd_absurd Hnd :=
  match goal with
  | x : nat |- _ => let H := fresh in pose proof (Hnd x) as H; cbn [tm cm fa fs mkN] in H;
                    rewrite ?Nat.eqb_refl in H; lia
  end.

Lemma upd_neq_if {B} (f : nat -> B) k v x : (x =? k) = false -> upd f k v x = f x.
Proof. unfold upd. now intros ->. Qed.

(** Writing the child pointer of the parent, or the root pointer. *)
Definition hook (C : ctx) (y : option nat) s : st T :=
  match C with
  | [] => set_root y s
  | Fr d _ p _ :: _ => setc d p y s
  end.

Lemma ptr_eqb_refl a : ptr_eqb a a = true.
Proof. destruct a; simpl; auto. apply Nat.eqb_refl. Qed.
Lemma ptr_eqb_neq a b : a <> b -> ptr_eqb a b = false.
Proof. destruct a, b; simpl; intros H; auto; try congruence. apply Nat.eqb_neq. congruence. Qed.
Lemma ptr_neq_tm t x : tm t x = 0 -> ptr t <> Some x.
Proof. destruct t as [|c l a r]; simpl; [discriminate|]. intros H HH. injection HH as ->. rewrite Nat.eqb_refl in H. lia. Qed.

(** "if (xp == nullptr) m_root = y; else if (x == xp->left) xp->left = y; else xp->right = y;" *)
Lemma hook_run C x s0 s y {B} (k : unit -> @M T B) :
  cst s0 C (Some x) -> (forall b, (if x =? b then 1 else 0) + cm C b <= 1) ->
  val s = val s0 -> (match C with [] => True | Fr _ _ p _ :: _ => lft s p = lft s0 p end) ->
  bind (if is_null (up C) then put_root y
        else xpl <- rd lft (up C) ;;
             if ptr_eqb (Some x) xpl then wr set_lft (up C) y else wr set_rgt (up C) y) k s
  = k tt (hook C y s).
Proof.
  intros Hc Hnd Hv Hl. destruct C as [|[d c p sb] C]; cbns.
  - reflexivity.
  - destruct Hc as (Ha & Hp & H3 & H4 & H5 & H6 & H7).
    assert (Ha' : alive s p = true) by (unfold alive; rewrite Hv; exact Ha).
    rewrite bind_assoc, bind_rd by exact Ha'. rewrite Hl.
    destruct d; cbns.
    + rewrite H3, ptr_eqb_refl. rewrite bind_wr by exact Ha'. reflexivity.
    + rewrite H4, ptr_eqb_neq. rewrite bind_wr by exact Ha'. reflexivity.
      intros HH. symmetry in HH. revert HH. apply ptr_neq_tm. pose proof (Hnd x) as Hx. simpl in Hx. rewrite Nat.eqb_refl in Hx. lia.
Qed.

Lemma hook_cst C h y s :
  cst s C h -> (forall b, cm C b <= 1) -> cst (hook C y s) C y.
Proof.
  intros Hc Hnd. destruct C as [|[d c p sb] C].
  - reflexivity.
  - simpl in Hc. destruct Hc as (Ha & Hp & H3 & H4 & H5 & H6 & H7).
    pose proof (Hnd p) as Hx. simpl in Hx. rewrite Nat.eqb_refl in Hx.
    assert (Heq : forall b, b <> p -> eq_at s (setc d p y s) b).
    { intros b Hb. destruct d; repeat split; cbns; now apply upd_neq. }
    simpl. repeat split; auto.
    + destruct d; exact Ha.
    + destruct d; exact Hp.
    + destruct d; simpl; apply upd_eq.
    + destruct d; exact H4.
    + destruct d; exact H5.
    + eapply tst_frame; [|exact H6]. intros b Hb. apply Heq. intros ->. lia.
    + eapply cst_frame; [| |exact H7]; [|now destruct d]. intros b Hb. apply Heq. intros ->. lia.
Qed.

Lemma rotate_ok s d cx ta x cy tb y tc C :
  foc s (mkN d cx ta x (mkN d cy tb y tc)) C ->
  exists s', rotate d (Some x) s = Ok (s', tt) /\ same s s' /\
    foc s' (mkN d cy (mkN d cx ta x tb) y tc) C.
Proof.
  intros F. pose proof (foc_length _ _ _ F) as HL.
  destruct F as [H1 H2 H3 H4 H5 H6].
  apply tst_mkN in H1 as (Hax & Hpx & Hlx & Hrx & Hcx & Tta & H1).
  apply tst_mkN in H1 as (Hay & Hpy & Hly & Hry & Hcy & Ttb & Ttc).
  rewrite ptr_mkN in *. apply tct_mkN in H4 as (Nx & Cta & H4). apply tct_mkN in H4 as (Ny & Ctb & Ctc).
  rewrite !sz_mkN in *.
  assert (Hnd : forall b, tm ta b + (if x =? b then 1 else 0) + (tm tb b + (if y =? b then 1 else 0) + tm tc b) + cm C b <= 1).
  { intros b. specialize (H3 b). rewrite !tm_mkN in H3. lia. }
  pose proof (Hnd x) as Nxx. rewrite Nat.eqb_refl in Nxx.
  pose proof (Hnd y) as Nyy. rewrite Nat.eqb_refl in Nyy.
  assert (Hxy : x <> y). { intros ->. rewrite Nat.eqb_refl in *. lia. }
  (* the state before the counts are updated *)
  set (s1 := setc (opp d) x (ptr tb) s).
  set (s2 := match tb with E => s1 | N _ _ b _ => set_par b (Some x) s1 end).
  set (s3 := set_par y (up C) s2).
  set (s4 := hook C (Some y) s3).
  set (s5 := set_par x (Some y) (setc d y (Some x) s4)).
  assert (Hval : val s5 = val s /\ nxt s5 = nxt s /\ prv s5 = prv s /\ fresh s5 = fresh s /\ cnt s5 = cnt s /\ col s5 = col s).
  { unfold s5, s4, s3, s2, s1, hook. destruct d, tb, C as [|[[] ? ? ?] ?]; cbn; auto 10. }
  destruct Hval as (Hv5 & Hn5 & Hp5 & Hf5 & Hc5 & Hcol5).
  assert (Hb : forall b l r c, tb = N c l b r -> b <> x /\ b <> y /\ cm C b = 0 /\ tm ta b = 0 /\ tm tc b = 0).
  { intros b l r c ->. pose proof (Hnd b) as Hb. simpl in Hb. rewrite Nat.eqb_refl in Hb.
    destruct (Nat.eqb_spec x b), (Nat.eqb_spec y b); lia. }
  assert (Hup : forall p, up C = Some p -> p <> x /\ p <> y /\ tm ta p = 0 /\ tm tb p = 0 /\ tm tc p = 0).
  { intros p Hp. destruct C as [|[dd cc pp ss] C]; simpl in Hp; [discriminate|]. injection Hp as ->.
    pose proof (Hnd p) as Hp. simpl in Hp. rewrite Nat.eqb_refl in Hp.
    destruct (Nat.eqb_spec x p), (Nat.eqb_spec y p); lia. }
  (* run it *)
  assert (Hrun : rotate d (Some x) s = update_count (Some x) s5).
  { assert (Hparx : par s2 x = up C).
    { unfold s2, s1. destruct tb as [|tbc tbl b tbr]; destruct d; cbns; auto;
      (rewrite upd_neq; [auto|]); destruct (Hb b tbl tbr tbc eq_refl); congruence. }
    assert (Hparx3 : par s3 x = up C). { unfold s3. cbns. rewrite upd_neq by congruence. exact Hparx. }
    assert (Hal : forall a, alive s2 a = alive s a). { intros a. unfold s2, s1. destruct tb, d; reflexivity. }
    assert (Hbal : forall b l r c, tb = N c l b r -> alive s b = true). { intros b l r c ->. apply Ttb. }
    assert (H3x : forall k : unit -> @M T unit, bind (if is_null (up C) then put_root (Some y)
        else xpl <- rd lft (up C) ;;
             if ptr_eqb (Some x) xpl then wr set_lft (up C) (Some y) else wr set_rgt (up C) (Some y)) k s3
        = k tt s4).
    { intros k. apply (hook_run C x s s3); auto.
      - intros b. specialize (Hnd b). destruct (x =? b); lia.
      - unfold s3, s2, s1. destruct tb, d; reflexivity.
      - destruct C as [|[dd cc p ss] C]; auto. destruct (Hup p eq_refl) as (P1 & P2 & _).
        unfold s3, s2, s1. destruct tb as [|tbc tbl b tbr]; destruct d; cbns; auto; now rewrite upd_neq by congruence. }
    assert (Hax4 : alive s4 x = true /\ alive s4 y = true).
    { unfold s4, hook. destruct C as [|[[] ? ? ?] ?]; cbn; unfold s3; (split; [rewrite <- Hax|rewrite <- Hay]; apply Hal). }
    destruct Hax4 as [Hax4 Hay4].
    destruct d; unfold rotate.
    - unfold rotate_left. cbns.
      rewrite bind_rd by exact Hax. rewrite Hrx.
      rewrite bind_rd by exact Hay. rewrite Hly. rewrite bind_wr by exact Hax.
      fold s1. rewrite bind_rd by exact Hay. change (lft s1 y) with (lft s y). rewrite Hly.
      assert (E2 : forall k : unit -> @M T unit, bind (if is_null (ptr tb) then ret tt else wr set_par (ptr tb) (Some x)) k s1 = k tt s2).
      { intros k. unfold s2. destruct tb as [|tbc tbl b tbr]; cbns; [reflexivity|]. rewrite bind_wr; [reflexivity|]. apply (Hbal b tbl tbr tbc eq_refl). }
      rewrite E2. rewrite bind_rd by (rewrite Hal; exact Hax). rewrite Hparx.
      rewrite bind_wr by (rewrite Hal; exact Hay). fold s3.
      rewrite bind_rd by (unfold s3; rewrite <- Hax; apply Hal). rewrite Hparx3. rewrite H3x.
      rewrite bind_wr by exact Hay4. rewrite bind_wr by exact Hax4. reflexivity.
    - unfold rotate_right. cbns.
      rewrite bind_rd by exact Hax. rewrite Hrx.
      rewrite bind_rd by exact Hay. rewrite Hly. rewrite bind_wr by exact Hax.
      fold s1. rewrite bind_rd by exact Hay. change (rgt s1 y) with (rgt s y). rewrite Hly.
      assert (E2 : forall k : unit -> @M T unit, bind (if is_null (ptr tb) then ret tt else wr set_par (ptr tb) (Some x)) k s1 = k tt s2).
      { intros k. unfold s2. destruct tb as [|tbc tbl b tbr]; cbns; [reflexivity|]. rewrite bind_wr; [reflexivity|]. apply (Hbal b tbl tbr tbc eq_refl). }
      rewrite E2. rewrite bind_rd by (rewrite Hal; exact Hax). rewrite Hparx.
      rewrite bind_wr by (rewrite Hal; exact Hay). fold s3.
      rewrite bind_rd by (unfold s3; rewrite <- Hax; apply Hal). rewrite Hparx3. rewrite H3x.
      rewrite bind_wr by exact Hay4. rewrite bind_wr by exact Hax4. reflexivity. }
  rewrite Hrun. clear Hrun.
  (* pointwise description of s5 *)
  assert (Hpar5 : forall a, par s5 a = if a =? x then Some y else if a =? y then up C else
                     match ptr tb with Some b => if a =? b then Some x else par s a | None => par s a end).
  { intros a. unfold s5, s4, s3, s2, s1, hook, upd.
    destruct d, tb, C as [|[[] ? ? ?] ?]; cbn; unfold upd; destruct (a =? x); auto; destruct (a =? y); auto. }
  assert (Hd5 : forall a, child d s5 a = if a =? y then Some x else
                     match C with Fr dd _ p _ :: _ => if (match dd, d with L, L | R, R => true | _, _ => false end) && (a =? p) then Some y else child d s a | [] => child d s a end).
  { intros a. unfold s5, s4, s3, s2, s1, hook, upd.
    destruct d, tb, C as [|[[] ? ? ?] ?]; cbn; unfold upd; destruct (a =? y); auto. }
  assert (Ho5 : forall a, child (opp d) s5 a =
                     match C with Fr dd _ p _ :: _ => if (match dd, d with L, R | R, L => true | _, _ => false end) && (a =? p) then Some y
                       else if a =? x then ptr tb else child (opp d) s a | [] => if a =? x then ptr tb else child (opp d) s a end).
  { intros a. unfold s5, s4, s3, s2, s1, hook, upd.
    destruct d, tb, C as [|[[] ? ? ?] ?]; cbn; unfold upd; auto; destruct (a =? x); auto. }
  assert (Hroot5 : root s5 = root (hook C (Some y) s)).
  { unfold s5, s4, s3, s2, s1, hook. destruct d, tb, C as [|[[] ? ? ?] ?]; reflexivity. }
  clearbody s5. clear s1 s2 s3 s4.
  assert (Heq : forall a, a <> x -> a <> y -> ptr tb <> Some a -> up C <> Some a -> eq_at s s5 a).
  { intros a A1 A2 A3 A4. apply Nat.eqb_neq in A1, A2.
    assert (Hl' : child d s5 a = child d s a /\ child (opp d) s5 a = child (opp d) s a).
    { rewrite Hd5, Ho5, A1, A2. destruct C as [|[dd cc p ss] C]; auto. simpl in A4.
      assert (Q : (a =? p) = false) by (apply Nat.eqb_neq; congruence). rewrite Q, !andb_false_r. auto. }
    unfold eq_at. repeat split.
    - unfold alive. rewrite Hv5. reflexivity.
    - rewrite Hpar5, A1, A2. destruct (ptr tb) as [b|]; auto.
      assert (Q : (a =? b) = false) by (apply Nat.eqb_neq; congruence). now rewrite Q.
    - destruct d; apply Hl'.
    - destruct d; apply Hl'.
    - now rewrite Hcol5. }
  assert (Hptb : forall b, 1 <= tm tb b \/ ptr tb <> Some b).
  { intros b. destruct tb as [|c l b' r]; simpl; [right; discriminate|].
    destruct (Nat.eqb_spec b' b); [left; lia|right; congruence]. }
  assert (Hupn : forall b, 1 <= cm C b \/ up C <> Some b).
  { intros b. destruct C as [|[dd cc p ss] C]; simpl; [right; discriminate|].
    destruct (Nat.eqb_spec p b); [left; lia|right; congruence]. }
  assert (Hyx : (y =? x) = false) by (apply Nat.eqb_neq; congruence).
  assert (Hxy' : (x =? y) = false) by (apply Nat.eqb_neq; congruence).
  assert (Hsub : forall t p, (t = ta \/ t = tc) -> tst s t p -> tst s5 t p).
  { intros t p Ht Hts. eapply tst_frame; [|exact Hts]. intros a Ha. pose proof (Hnd a) as Hn.
    assert (1 <= tm ta a \/ 1 <= tm tc a) by (destruct Ht; subst; auto).
    apply Heq.
    - intros ->. rewrite Nat.eqb_refl in Hn. lia.
    - intros ->. rewrite Nat.eqb_refl in Hn. lia.
    - destruct (Hptb a); auto. lia.
    - destruct (Hupn a); auto. lia. }
  assert (Ttb5 : tst s5 tb (Some x)).
  { destruct tb as [|c l b r]; simpl; auto. destruct Ttb as (B1 & B2 & B3 & B4 & B5 & B6 & B7).
    destruct (Hb b l r c eq_refl) as (X1 & X2 & X3 & X4 & X5).
    assert (Q1 : (b =? x) = false) by (apply Nat.eqb_neq; congruence).
    assert (Q2 : (b =? y) = false) by (apply Nat.eqb_neq; congruence).
    assert (Hl' : child d s5 b = child d s b /\ child (opp d) s5 b = child (opp d) s b).
    { rewrite Hd5, Ho5, Q1, Q2. destruct C as [|[dd cc p ss] C]; auto.
      assert (Q : (b =? p) = false). { apply Nat.eqb_neq. intros ->. simpl in X3. rewrite Nat.eqb_refl in X3. lia. }
      rewrite Q, !andb_false_r. auto. }
    assert (Hrest : forall t, (t = l \/ t = r) -> tst s t (Some b) -> tst s5 t (Some b)).
    { intros t Ht Hts. eapply tst_frame; [|exact Hts]. intros a Ha. pose proof (Hnd a) as Hn. simpl in Hn.
      assert (1 <= tm l a \/ 1 <= tm r a) by (destruct Ht; subst; auto).
      apply Heq.
      - intros ->. rewrite Nat.eqb_refl in Hn. lia.
      - intros ->. rewrite Nat.eqb_refl in Hn. lia.
      - simpl. intros HH. injection HH as ->. rewrite Nat.eqb_refl in Hn. lia.
      - destruct (Hupn a); auto. lia. }
    repeat split.
    - unfold alive. rewrite Hv5. exact B1.
    - rewrite Hpar5, Q1, Q2. simpl. now rewrite Nat.eqb_refl.
    - destruct d; simpl in *; destruct Hl'; congruence.
    - destruct d; simpl in *; destruct Hl'; congruence.
    - rewrite Hcol5. exact B5.
    - apply Hrest; auto.
    - apply Hrest; auto. }
  assert (Hcst5 : cst s5 C (Some y)).
  { assert (Hh : cst (hook C (Some y) s) C (Some y)).
    { apply (hook_cst C (Some x)); auto. intros b. specialize (Hnd b). lia. }
    eapply cst_frame; [| |exact Hh].
    2:{ exact Hroot5. }
    intros a Ha. pose proof (Hnd a) as Hn.
    assert (a <> x). { intros ->. rewrite Nat.eqb_refl in Hn. lia. }
    assert (a <> y). { intros ->. rewrite Nat.eqb_refl in Hn. lia. }
    assert (ptr tb <> Some a). { destruct (Hptb a); auto. lia. }
    assert (Q1 : (a =? x) = false) by (apply Nat.eqb_neq; congruence).
    assert (Q2 : (a =? y) = false) by (apply Nat.eqb_neq; congruence).
    assert (Hl' : child d s5 a = child d (hook C (Some y) s) a /\ child (opp d) s5 a = child (opp d) (hook C (Some y) s) a).
    { rewrite Hd5, Ho5, Q1, Q2. destruct C as [|[dd cc p ss] C]; [destruct d; auto|].
      destruct d, dd; simpl; unfold upd; destruct (a =? p); auto. }
    unfold eq_at. repeat split.
    - unfold alive. rewrite Hv5. destruct C as [|[[] ? ? ?] ?]; reflexivity.
    - rewrite Hpar5, Q1, Q2. destruct (ptr tb) as [b|].
      + assert (Q : (a =? b) = false) by (apply Nat.eqb_neq; congruence). rewrite Q. destruct C as [|[[] ? ? ?] ?]; reflexivity.
      + destruct C as [|[[] ? ? ?] ?]; reflexivity.
    - destruct d; apply Hl'.
    - destruct d; apply Hl'.
    - rewrite Hcol5. destruct C as [|[[] ? ? ?] ?]; reflexivity. }
  assert (Htx5 : tst s5 (mkN d cx ta x tb) (Some y)).
  { apply tst_mkN. split; [|split; [|split; [|split; [|split; [|split]]]]].
    - unfold alive. rewrite Hv5. exact Hax.
    - rewrite Hpar5, Nat.eqb_refl. reflexivity.
    - rewrite Hd5, Hxy'. destruct C as [|[dd cc p ss] C]; auto.
      destruct (Hup p eq_refl) as (P1 & _). assert (Q : (x =? p) = false) by (apply Nat.eqb_neq; congruence).
      rewrite Q, andb_false_r. auto.
    - rewrite Ho5, Nat.eqb_refl. destruct C as [|[dd cc p ss] C]; auto.
      destruct (Hup p eq_refl) as (P1 & _). assert (Q : (x =? p) = false) by (apply Nat.eqb_neq; congruence).
      rewrite Q, andb_false_r. auto.
    - rewrite Hcol5. exact Hcx.
    - apply Hsub; auto.
    - exact Ttb5. }
  assert (Hty5 : tst s5 (mkN d cy (mkN d cx ta x tb) y tc) (up C)).
  { apply tst_mkN. rewrite ptr_mkN. split; [|split; [|split; [|split; [|split; [|split]]]]].
    - unfold alive. rewrite Hv5. exact Hay.
    - rewrite Hpar5, Hyx, Nat.eqb_refl. reflexivity.
    - rewrite Hd5, Nat.eqb_refl. reflexivity.
    - rewrite Ho5, Hyx. destruct C as [|[dd cc p ss] C]; auto.
      destruct (Hup p eq_refl) as (_ & P1 & _). assert (Q : (y =? p) = false) by (apply Nat.eqb_neq; congruence).
      rewrite Q, andb_false_r. auto.
    - rewrite Hcol5. exact Hcy.
    - exact Htx5.
    - apply Hsub; auto. }
  assert (Hct5 : forall t, tct s t -> tct s5 t).
  { intros t. apply tct_frame. intros. now rewrite Hc5. }
  (* x's count, then y's, then nothing changes above *)
  assert (Hstepx : forall f, exists s6, cnt_only s5 s6 /\ cnt s6 x = sz ta + sz tb /\ (forall b, b <> x -> cnt s6 b = cnt s b) /\
     update_count_f (S f) (Some x) s5 = update_count_f f (Some y) s6).
  { intros f. destruct d; simpl in Htx5.
    - destruct (update_count_step f s5 cx ta x tb (Some y) Htx5) as (s6 & A1 & A2 & A3 & A4); auto; try lia.
      exists s6. repeat split; auto; try apply A1.
      + intros b Hbx. rewrite A3 by auto. now rewrite Hc5.
      + rewrite A4. rewrite Hc5, Nx. replace (sz ta + sz tb =? sz ta + (sz tb + sz tc + 1)) with false; [reflexivity|].
        symmetry. apply Nat.eqb_neq. lia.
    - destruct (update_count_step f s5 cx tb x ta (Some y) Htx5) as (s6 & A1 & A2 & A3 & A4); auto; try lia.
      exists s6. repeat split; auto; try apply A1; try lia.
      + intros b Hbx. rewrite A3 by auto. now rewrite Hc5.
      + rewrite A4. rewrite Hc5, Nx. replace (sz tb + sz ta =? sz ta + (sz tb + sz tc + 1)) with false; [reflexivity|].
        symmetry. apply Nat.eqb_neq. lia. }
  unfold update_count, fuelled. rewrite Hf5.
  destruct (Hstepx (fresh s)) as (s6 & O6 & Cx6 & Cb6 & E6). rewrite E6. clear E6 Hstepx.
  assert (Ht6 : forall t p, tst s5 t p -> tst s6 t p).
  { intros t p. apply tst_frame. intros. now apply cnt_only_eq_at. }
  assert (Hc6 : forall C h, cst s5 C h -> cst s6 C h).
  { intros C' h. apply cst_frame. intros. now apply cnt_only_eq_at. apply O6. }
  assert (Hct6 : forall t, tm t x = 0 -> tct s t -> tct s6 t).
  { intros t Hz. apply tct_frame. intros b Hbb. apply Cb6. intros ->. lia. }
  assert (Htct6 : tct s6 (mkN d cx ta x tb)).
  { apply tct_mkN. repeat split; [exact Cx6| |]; apply Hct6; auto; lia. }
  assert (Hcct6 : cct s6 C (sz ta + (sz tb + sz tc + 1) + 1)).
  { eapply cct_frame; [|exact H5]. intros b Hbb. apply Cb6. intros ->. lia. }
  assert (Hlen : S (length C) < fresh s) by lia.
  destruct (fresh s) as [|f] eqn:Ef; [lia|].
  assert (Hstepy : exists s7, cnt_only s6 s7 /\ cnt s7 y = sz ta + sz tb + 1 + sz tc /\ (forall b, b <> y -> cnt s7 b = cnt s6 b) /\
     update_count_f (S f) (Some y) s6 = if is_null (up C) then Ok (s7, tt) else update_count_f f (up C) s7).
  { pose proof (Ht6 _ _ Hty5) as Hty6.
    assert (Zx : tm (mkN d cx ta x tb) y = 0) by (rewrite tm_mkN, Hxy'; lia).
    assert (Ctc6 : tct s6 tc) by (apply Hct6; auto; lia).
    assert (Cy6 : cnt s6 y = sz tb + sz tc) by (rewrite Cb6; auto).
    destruct d; cbn [mkN] in Hty6, Htct6, Zx.
    - destruct (update_count_step f s6 cy (N cx ta x tb) y tc (up C) Hty6) as (s7 & A1 & A2 & A3 & A4); auto; try lia.
      exists s7. simpl sz in *. repeat split; auto; try apply A1; try lia.
      rewrite A4, Cy6. replace (sz ta + sz tb + 1 + sz tc =? sz tb + sz tc) with false; [simpl; now destruct (is_null (up C))|].
      symmetry. apply Nat.eqb_neq. lia.
    - destruct (update_count_step f s6 cy tc y (N cx tb x ta) (up C) Hty6) as (s7 & A1 & A2 & A3 & A4); auto; try lia.
      exists s7. simpl sz in *. repeat split; auto; try apply A1; try lia.
      rewrite A4, Cy6. replace (sz tc + (sz tb + sz ta + 1) =? sz tb + sz tc) with false; [simpl; now destruct (is_null (up C))|].
      symmetry. apply Nat.eqb_neq. lia. }
  destruct Hstepy as (s7 & O7 & Cy7 & Cb7 & E7). rewrite E7. clear E7.
  assert (O57 : cnt_only s5 s7) by (eapply cnt_only_trans; eauto).
  assert (Ht7 : forall t p, tst s5 t p -> tst s7 t p).
  { intros t p. apply tst_frame. intros. now apply cnt_only_eq_at. }
  assert (Hc7 : forall C h, cst s5 C h -> cst s7 C h).
  { intros C' h. apply cst_frame. intros. now apply cnt_only_eq_at. apply O57. }
  assert (Htct7 : tct s7 (mkN d cy (mkN d cx ta x tb) y tc)).
  { apply tct_mkN. rewrite sz_mkN. repeat split.
    - lia.
    - eapply tct_frame; [|exact Htct6]. intros b Hbb. apply Cb7. intros ->. rewrite tm_mkN, Hxy' in Hbb. lia.
    - eapply tct_frame; [|apply Hct6; [|exact Ctc]; lia]. intros b Hbb. apply Cb7. intros ->. lia. }
  assert (Hcct7 : cct s7 C (sz (mkN d cy (mkN d cx ta x tb) y tc))).
  { rewrite !sz_mkN. replace (sz ta + sz tb + 1 + sz tc + 1) with (sz ta + (sz tb + sz tc + 1) + 1) by lia.
    eapply cct_frame; [|exact Hcct6]. intros b Hbb. apply Cb7. intros ->. lia. }
  assert (Hnd7 : forall b, tm (mkN d cy (mkN d cx ta x tb) y tc) b + cm C b <= 1).
  { intros b. specialize (Hnd b). rewrite !tm_mkN. lia. }
  assert (S57 : same s s7).
  { destruct O57 as ((V1 & V2 & V3 & V4) & _). repeat split; congruence. }
  assert (F7 : foc s7 (mkN d cy (mkN d cx ta x tb) y tc) C).
  { split; auto.
    - rewrite ptr_mkN. auto.
    - intros b Hbb. destruct S57 as (_ & _ & _ & ->). rewrite Ef. apply H6. rewrite !tm_mkN in *. lia. }
  destruct C as [|fr C'].
  - simpl. eauto.
  - cbn [is_null up].
    destruct (update_count_ctx (fr :: C') f s7 (mkN d cy (mkN d cx ta x tb) y tc) (sz (mkN d cy (mkN d cx ta x tb) y tc)))
      as (s8 & E8 & O8 & Cc8 & Tc8 & _); auto; try apply F7.
    + lia.
    + discriminate.
    + simpl up in E8. rewrite E8. exists s8. split; [reflexivity|]. split.
      * eapply same_trans; [exact S57|]. apply O8.
      * eapply foc_cnt_only; eauto.
Qed.

End Rotate.
