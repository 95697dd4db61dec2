(** BalanceAfterInsert and InsertNode on ghost trees. *)
From Verif Require Import Common VSetModel VSetTree VSetRotate.
From Coq Require Import ZifyBool ZifyNat.

Section Insert.
Context {T : Type}.
Implicit Types (s : st T).

Lemma foc_node s d c l a r C : foc s (mkN d c l a r) C ->
  alive s a = true /\ par s a = up C /\ child d s a = ptr l /\ child (opp d) s a = ptr r /\ col s a = c.
Proof. intros [H _ _ _ _ _]. apply tst_mkN in H. tauto. Qed.

Lemma foc_frame s t d c a sb C : foc s t (Fr d c a sb :: C) ->
  alive s a = true /\ par s a = up C /\ child d s a = ptr t /\ child (opp d) s a = ptr sb /\ col s a = c.
Proof. intros H. apply foc_zip in H. now apply foc_node in H. Qed.

Lemma opp_opp d : opp (opp d) = d. Proof. now destruct d. Qed.
Lemma mkN_opp d c l a r : mkN (opp d) c l a r = mkN d c r a l. Proof. now destruct d. Qed.

Lemma cst_root s C h : cst s C h -> C <> [] -> exists a, root s = Some a /\ 1 <= cm C a.
Proof.
  revert h; induction C as [|[d c a sb] C IH]; intros h H Hne; [congruence|].
  destruct H as (_ & _ & _ & _ & _ & _ & H). destruct C as [|f C].
  - exists a. split; [exact H|]. simpl. rewrite Nat.eqb_refl. lia.
  - destruct (IH _ H) as (b & Hb & Hc); [discriminate|]. exists b. split; auto. simpl in *. lia.
Qed.

Lemma foc_at_root s c l a r C : foc s (N c l a r) C -> ptr_eqb (Some a) (root s) = match C with [] => true | _ => false end.
Proof.
  intros F. destruct C as [|f C].
  - destruct F as [_ H _ _ _ _]. simpl in H. rewrite H. apply ptr_eqb_refl.
  - pose proof (fx _ _ _ F) as H. pose proof (fnd _ _ _ F) as Hn.
    destruct (cst_root _ _ _ H) as (b & Hb & Hc); [discriminate|]. rewrite Hb.
    apply ptr_eqb_neq. intros HH. injection HH as <-. specialize (Hn a).
    simpl in Hn, Hc. rewrite Nat.eqb_refl in Hn. lia.
Qed.

Definition blk (t : tree) : tree := match t with E => E | N _ l a r => N Black l a r end.
Definition is_redt (t : tree) : bool := match t with N Red _ _ _ => true | _ => false end.
Definition eqd (d e : dir) : bool := match d, e with L, L | R, R => true | _, _ => false end.

(** The topmost frame is black. *)
Fixpoint topb (C : ctx) : Prop :=
  match C with
  | [] => True
  | f :: C' => match C' with [] => fc f = Black | _ => topb C' end
  end.

Definition side (d : dir) (t : tree) : tree :=
  match t with E => E | N _ l _ r => match d with L => l | R => r end end.
Lemma side_mkN d c l a r : N c l a r = mkN d c (side d (N c l a r)) a (side (opp d) (N c l a r)).
Proof. now destruct d. Qed.

(** What the loop of BalanceAfterInsert computes. *)
Fixpoint fix_ins (t : tree) (C : ctx) : tree :=
  match C with
  | Fr d1 Red p s1 :: Fr d2 cg g u :: C' =>
      if is_redt u then fix_ins (mkN d2 Red (mkN d1 Black t p s1) g (blk u)) C'
      else if eqd d1 d2 then plug (mkN d2 Black t p (mkN d2 Red s1 g u)) C'
      else match t with
           | N _ _ x _ => plug (mkN d2 Black (mkN d2 Red s1 p (side d2 t)) x (mkN d2 Red (side (opp d2) t) g u)) C'
           | E => plug t C
           end
  | _ => plug t C
  end.

Definition bil_body (d : dir) (f : nat) (x xp xpp : option nat) : @M T unit :=
  y <- rd (child (opp d)) xpp ;;
  yred <- red_ptr y ;;
  if yred : bool then
    wr set_col xp Black ;;;
    wr set_col y Black ;;;
    wr set_col xpp Red ;;;
    balance_insert_loop f xpp
  else
    xpr <- rd (child (opp d)) xp ;;
    x <- (if ptr_eqb x xpr then rotate d xp ;;; ret xp else ret x) ;;
    xp <- rd par x ;;
    wr set_col xp Black ;;;
    xpp <- rd par xp ;;
    wr set_col xpp Red ;;;
    rotate (opp d) xpp ;;;
    balance_insert_loop f x.

Lemma bil_unfold f x :
  balance_insert_loop (T:=T) (S f) x =
      (r <- get_root ;;
      if ptr_eqb x r then ret tt else
      xp <- rd par x ;;
      xpc <- rd col xp ;;
      if negb (is_red xpc) then ret tt else
      xpp <- rd par xp ;;
      xppl <- rd lft xpp ;;
      if ptr_eqb xp xppl then bil_body L f x xp xpp else bil_body R f x xp xpp).
Proof. reflexivity. Qed.

Lemma same_alive s s' a : same s s' -> alive s' a = alive s a.
Proof. intros (H & _). unfold alive. now rewrite H. Qed.

Lemma bil_black f s c l x r C :
  foc s (N c l x r) C -> match C with [] => True | f :: _ => fc f = Black end ->
  balance_insert_loop (S f) (Some x) s = Ok (s, tt).
Proof.
  intros F Hc. rewrite bil_unfold. change (bind get_root ?k s) with (k (root s) s). cbv beta.
  rewrite (foc_at_root _ _ _ _ _ _ F). destruct C as [|[d cc a sb] C]; [reflexivity|].
  simpl in Hc. subst cc. pose proof (foc_node s L _ _ _ _ _ F) as (A1 & A2 & _).
  pose proof (foc_frame _ _ _ _ _ _ _ F) as (B1 & B2 & _ & _ & B5).
  rewrite bind_rd by exact A1. rewrite A2. simpl up. rewrite bind_rd by exact B1. rewrite B5. reflexivity.
Qed.

Lemma bil_body_pick {B} s d1 c1 p z1 d2 cg g u C t (k1 k2 : @M T B) :
  foc s t (Fr d1 c1 p z1 :: Fr d2 cg g u :: C) ->
  (if ptr_eqb (Some p) (lft s g) then k1 else k2) = match d2 with L => k1 | R => k2 end.
Proof.
  intros F. apply foc_zip in F. pose proof (foc_frame _ _ _ _ _ _ _ F) as (B1 & B2 & B3 & B4 & B5).
  rewrite ptr_mkN in B3.
  destruct d2; cbn [child opp] in *.
  - rewrite B3, ptr_eqb_refl. reflexivity.
  - rewrite B4, ptr_eqb_neq; auto. intros HH. symmetry in HH. revert HH. apply ptr_neq_tm.
    pose proof (fnd _ _ _ F p) as Hn. rewrite tm_mkN in Hn. simpl in Hn. rewrite Nat.eqb_refl in Hn. lia.
Qed.

Lemma red_ptr_run {B} s t p (k : bool -> @M T B) : tst s t p -> bind (red_ptr (ptr t)) k s = k (is_redt t) s.
Proof.
  intros H. destruct t as [|c l a r]; simpl ptr; unfold red_ptr; cbn [is_null].
  - reflexivity.
  - destruct H as (Ha & _ & _ & _ & Hc & _). rewrite bind_assoc, bind_rd by exact Ha.
    rewrite Hc. destruct c; reflexivity.
Qed.

Lemma foc_sib s t d c a sb C : foc s t (Fr d c a sb :: C) -> foc s sb (Fr (opp d) c a t :: C).
Proof. intros H. apply foc_zip in H. apply foc_zip. now rewrite mkN_opp. Qed.

Ltac wrcol F Hal s1 :=
  match goal with |- bind (wr set_col (Some ?a) ?c) _ ?s = _ =>
    rewrite (bind_wr s set_col a c) by exact Hal
  end.

Lemma bil_ok n : forall f s l x r C,
  length C <= n -> length C < f -> foc s (N Red l x r) C -> topb C ->
  exists s', balance_insert_loop f (Some x) s = Ok (s', tt) /\ same s s' /\ foc s' (fix_ins (N Red l x r) C) [].
Proof.
  induction n as [n IH] using lt_wf_ind. intros f s l x r C Hn Hf F Htb.
  destruct f as [|f]; [lia|].
  destruct C as [|[d1 c1 p s1] [|[d2 cg g u] C]].
  - exists s. split; [eapply bil_black; eauto|]. split; [apply same_refl|]. exact F.
  - simpl in Htb. subst c1. exists s. split; [eapply bil_black; eauto; reflexivity|]. split; [apply same_refl|].
    apply foc_plug in F. exact F.
  - destruct c1.
    2:{ exists s. split; [eapply bil_black; eauto; reflexivity|]. split; [apply same_refl|]. apply foc_plug in F. exact F. }
    pose proof (foc_node s L _ _ _ _ _ F) as (A1 & A2 & _).
    pose proof (foc_frame _ _ _ _ _ _ _ F) as (B1 & B2 & B3 & B4 & B5).
    pose proof F as F2. apply foc_zip in F2.
    pose proof (foc_frame _ _ _ _ _ _ _ F2) as (G1 & G2 & G3 & G4 & G5).
    rewrite ptr_mkN in G3.
    assert (Hrun : balance_insert_loop (S f) (Some x) s = bil_body d2 f (Some x) (Some p) (Some g) s).
    { rewrite bil_unfold. change (bind get_root ?k s) with (k (root s) s). cbv beta.
      rewrite (foc_at_root _ _ _ _ _ _ F).
      rewrite bind_rd by exact A1. rewrite A2. simpl up. rewrite bind_rd by exact B1. rewrite B5. cbn [is_red negb].
      rewrite bind_rd by exact B1. rewrite B2. simpl up. rewrite bind_rd by exact G1.
      rewrite (bil_body_pick s d1 Red p s1 d2 cg g u C (N Red l x r) _ _ F). now destruct d2. }
    rewrite Hrun. clear Hrun. unfold bil_body.
    rewrite bind_rd by exact G1. rewrite G4.
    pose proof (foc_sib _ _ _ _ _ _ _ F2) as F3.
    rewrite (red_ptr_run s u _ _ (ft _ _ _ F3)).
    cbn [fix_ins]. destruct (is_redt u) eqn:Hu.
    + destruct u as [|[] ul ua ur]; try discriminate. simpl ptr.
      (* parent black *)
      destruct (foc_col_mk s d1 Red Black _ _ _ _ F2) as (_ & F4 & S4).
      rewrite bind_wr by exact B1. set (sa := set_col p Black s) in *.
      apply foc_sib in F4. destruct (foc_col sa Red Black _ _ _ _ F4) as (Hua & F5 & S5).
      rewrite bind_wr by exact Hua. set (sb := set_col ua Black sa) in *.
      apply foc_zip in F5. rewrite mkN_opp in F5.
      destruct (foc_col_mk sb d2 cg Red _ _ _ _ F5) as (Hg & F6 & S6).
      rewrite bind_wr by exact Hg. set (sc := set_col g Red sb) in *.
      assert (Hex : exists l' r', mkN d2 Red (mkN d1 Black (N Red l x r) p s1) g (N Black ul ua ur) = N Red l' g r').
      { destruct d2; simpl; eauto. }
      cbn [blk]. destruct Hex as (l' & r' & Hex). rewrite Hex in *.
      destruct (IH (length C)) with (f := f) (s := sc) (l := l') (x := g) (r := r') (C := C) as (s' & E' & S' & F'); try exact F6; try apply le_n; try (simpl in Hn, Hf; lia); try (destruct C; [exact I|exact Htb]).
      exists s'. split; [exact E'|]. split; [|exact F'].
      eapply same_trans; [exact S4|]. eapply same_trans; [exact S5|]. eapply same_trans; [exact S6|]. exact S'.
    + assert (Hchild : forall k : option nat -> @M T unit, bind (rd (child (opp d2)) (Some p)) k s = k (child (opp d2) s p) s).
      { intros k. now rewrite bind_rd by exact B1. }
      rewrite Hchild. clear Hchild. simpl in Hf. destruct f as [|f]; [lia|].
      destruct (eqd d1 d2) eqn:Hd.
      * assert (d1 = d2) by (destruct d1, d2; auto; discriminate). subst d1.
        rewrite B4. rewrite ptr_eqb_neq.
        2:{ intros HH. symmetry in HH. revert HH. apply ptr_neq_tm.
            pose proof (fnd _ _ _ F x) as Hx. simpl in Hx. rewrite Nat.eqb_refl in Hx. lia. }
        rewrite bind_ret. rewrite bind_rd by exact A1. rewrite A2. simpl up.
        destruct (foc_col_mk s d2 Red Black _ _ _ _ F2) as (_ & F4 & S4).
        rewrite bind_wr by exact B1. set (sa := set_col p Black s) in *.
        pose proof (foc_node _ _ _ _ _ _ _ F4) as (C1 & C2 & _).
        rewrite bind_rd by exact C1. rewrite C2. simpl up.
        apply (proj2 (foc_zip _ _ _ _ _ _ _)) in F4. destruct (foc_col_mk sa d2 cg Red _ _ _ _ F4) as (Hg & F5 & S5).
        rewrite bind_wr by exact Hg. set (sb := set_col g Red sa) in *.
        rewrite <- (mkN_opp d2 Red), <- (mkN_opp d2 Black) in F5.
        destruct (rotate_ok sb (opp d2) Red u g Black s1 p (N Red l x r) C F5) as (sc & Ec & S6 & F6).
        rewrite (bind_ok _ _ _ _ _ Ec). rewrite !mkN_opp in F6.
        exists sc. split; [|split].
        -- apply (proj1 (foc_zip _ _ _ _ _ _ _)) in F6. eapply bil_black; [exact F6|reflexivity].
        -- eapply same_trans; [exact S4|]. eapply same_trans; [exact S5|]. exact S6.
        -- apply (proj1 (foc_plug _ _ _)). exact F6.
      * assert (Ho : d1 = opp d2) by (destruct d1, d2; auto; discriminate). subst d1.
        rewrite B3. simpl ptr. rewrite ptr_eqb_refl.
        rewrite mkN_opp in F2. rewrite (side_mkN d2 Red l x r) in F2.
        destruct (rotate_ok s d2 Red s1 p Red _ x _ _ F2) as (sa & Ea & Sa & Fa).
        rewrite bind_assoc. rewrite (bind_ok _ _ _ _ _ Ea). rewrite bind_ret.
        pose proof Fa as Fa'. apply (proj1 (foc_zip _ _ _ _ _ _ _)) in Fa'. pose proof (foc_node _ _ _ _ _ _ _ Fa') as (C1 & C2 & _).
        rewrite bind_rd by exact C1. rewrite C2. simpl up.
        destruct (foc_col_mk sa d2 Red Black _ _ _ _ Fa) as (C3 & F4 & S4).
        rewrite bind_wr by exact C3. set (sb := set_col x Black sa) in *.
        pose proof (foc_node _ _ _ _ _ _ _ F4) as (D1 & D2 & _).
        rewrite bind_rd by exact D1. rewrite D2. simpl up.
        apply (proj2 (foc_zip _ _ _ _ _ _ _)) in F4. destruct (foc_col_mk sb d2 cg Red _ _ _ _ F4) as (Hg & F5 & S5).
        rewrite bind_wr by exact Hg. set (sc := set_col g Red sb) in *.
        rewrite <- (mkN_opp d2 Red _ g), <- (mkN_opp d2 Black) in F5.
        destruct (rotate_ok sc (opp d2) Red u g Black _ x _ C F5) as (sd & Ed & S6 & F6).
        rewrite (bind_ok _ _ _ _ _ Ed). rewrite !mkN_opp in F6.
        exists sd. split; [|split].
        -- apply (proj1 (foc_zip _ _ _ _ _ _ _)) in F6. rewrite (side_mkN d2 Red l x r) in F6.
           assert (Hex : exists l' r' c', mkN d2 Red s1 p (side d2 (N Red l x r)) = N c' l' p r') by (destruct d2; simpl; eauto).
           rewrite <- (side_mkN d2 Red l x r) in F6. destruct Hex as (l' & r' & c' & Hex). rewrite Hex in F6.
           eapply bil_black; [exact F6|reflexivity].
        -- eapply same_trans; [exact Sa|]. eapply same_trans; [exact S4|]. eapply same_trans; [exact S5|]. exact S6.
        -- apply (proj1 (foc_plug _ _ _)). exact F6.
Qed.

(** Recolouring the root black. *)
Lemma blacken_root {B} s t (k : unit -> @M T B) : foc s t [] -> t <> E ->
  exists s', bind (r <- get_root ;; wr set_col r Black) k s = k tt s' /\ same s s' /\ foc s' (blk t) [].
Proof.
  intros F Hne. destruct t as [|c l a r]; [congruence|].
  destruct (foc_col s c Black l a r [] F) as (Ha & F1 & S1).
  exists (set_col a Black s). split; [|split; auto].
  pose proof (fx _ _ _ F) as Hr. simpl in Hr.
  rewrite bind_assoc. change (bind get_root ?k s) with (k (root s) s). cbv beta. rewrite Hr.
  rewrite bind_wr by exact Ha. reflexivity.
Qed.

Lemma ino_blk t : ino (blk t) = ino t. Proof. now destruct t. Qed.
Lemma ino_fix n : forall t C, length C <= n -> ino (fix_ins t C) = ino (plug t C).
Proof.
  induction n as [n IH] using lt_wf_ind. intros t C Hn.
  destruct C as [|[d1 c1 p s1] [|[d2 cg g u] C]]; [reflexivity|now destruct c1|].
  destruct c1; [|reflexivity]. cbn [fix_ins].
  destruct (is_redt u) eqn:Hu.
  - simpl in Hn. rewrite (IH (length C)) by lia. cbn [plug]. rewrite !ino_plug. unfold plug1; cbn [fd fc fa fs].
    destruct d1, d2; simpl; rewrite ?ino_blk; reflexivity.
  - destruct (eqd d1 d2) eqn:Hd.
    + cbn [plug]. rewrite !ino_plug. unfold plug1; cbn [fd fc fa fs].
      destruct d1, d2; try discriminate; simpl; rewrite <- ?app_assoc; simpl; rewrite <- ?app_assoc; reflexivity.
    + destruct t as [|c l x r]; [reflexivity|]. cbn [plug]. rewrite !ino_plug. unfold plug1; cbn [fd fc fa fs].
      destruct d1, d2; try discriminate; simpl; rewrite <- ?app_assoc; simpl; rewrite <- ?app_assoc; simpl; rewrite <- ?app_assoc; reflexivity.
Qed.
End Insert.
