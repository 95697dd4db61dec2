(** InsertNode, RemoveNode and clear on ghost trees. *)
From Verif Require Import Common VSetModel VSetTree VSetRotate VSetInsert VSetRemove VSetLookup VSetList.
From Coq Require Import ZifyBool ZifyNat.

Section Ops.
Context {T : Type}.
Implicit Types (s : st T).

Definition rb (t : tree) : Prop := match t with N c _ _ _ => c = Black | E => True end.

Record Core s (t : tree) : Prop := {
  c_foc : foc s t [];
  c_rb : rb t;
  c_lnk : lnk s (ino t)
}.

Lemma foc_nodup s t : foc s t [] -> NoDup (ino t).
Proof. intros F. apply NoDup_tm. intros b. pose proof (fnd _ _ _ F b). simpl in *. lia. Qed.
Lemma foc_alive s t C a : foc s t C -> 1 <= tm t a -> alive s a = true.
Proof.
  intros F. pose proof (ft _ _ _ F) as H. clear F. revert H. generalize (up C).
  induction t as [|c l IHl b r IHr]; simpl; intros p H Hm; [lia|].
  destruct H as (H1 & _ & _ & _ & _ & H2 & H3). destruct (Nat.eqb_spec b a); [subst; auto|].
  destruct (Nat.eq_dec (tm l a) 0); [eapply IHr|eapply IHl]; eauto; lia.
Qed.
Lemma foc_all_alive s t : foc s t [] -> all_alive s (ino t).
Proof. intros F a Ha. eapply foc_alive; [exact F|]. now apply tm_In. Qed.
Lemma foc_lt s t a : foc s t [] -> In a (ino t) -> a < fresh s.
Proof. intros F Ha. apply (ffr _ _ _ F). apply tm_In in Ha. simpl. lia. Qed.
Lemma foc_len s t : foc s t [] -> length (ino t) <= fresh s.
Proof. intros F. rewrite <- sz_ino. pose proof (foc_length _ _ _ F). simpl in *. lia. Qed.

Lemma rb_topb t C : C <> [] -> rb (plug t C) -> topb C.
Proof.
  revert t; induction C as [|f C IH]; intros t Hne H; [congruence|]. destruct C as [|g C].
  - simpl in *. unfold plug1, rb in H. destruct (mkN_ex (fd f) (fc f) t (fa f) (fs f)) as (l' & r' & E'). now rewrite E' in H.
  - apply topb_cons2. apply (IH (plug1 t f)); auto. discriminate.
Qed.
Lemma rb_topb' t C : rb (plug t C) -> topb C.
Proof. destruct C; [intros; exact I|]. apply rb_topb. discriminate. Qed.
Lemma topb_rb t C : topb C -> (C = [] -> rb t) -> rb (plug t C).
Proof.
  revert t; induction C as [|f C IH]; intros t H1 H2; simpl; auto. apply IH; [now apply topb_tl in H1|].
  intros ->. simpl in H1. unfold plug1, rb. destruct (mkN_ex (fd f) (fc f) t (fa f) (fs f)) as (l' & r' & ->). exact H1.
Qed.

Lemma foc_app s t C1 C2 : foc s t (C1 ++ C2) <-> foc s (plug t C1) C2.
Proof.
  revert t; induction C1 as [|[d c a sb] C1 IH]; intros t; simpl; [tauto|].
  rewrite <- IH. symmetry. apply foc_zip.
Qed.

Lemma lnk_same s s' l : same s s' -> lnk s l -> lnk s' l.
Proof. intros (_ & H1 & H2 & _). apply chain_frame; intros; congruence. Qed.

(** *** InsertNode *)
Lemma hook_foc s c n C :
  foc s E C -> alive s n = true -> lft s n = None -> rgt s n = None -> cnt s n = 0 -> col s n = c ->
  cm C n = 0 -> n < fresh s ->
  tst (hook C (Some n) (set_par n (up C) s)) (N c E n E) (up C) /\ cst (hook C (Some n) (set_par n (up C) s)) C (Some n).
Proof.
  intros F Ha Hl Hr Hn Hc Hm Hlt. split.
  - assert (Hup : forall p, up C = Some p -> p <> n).
    { intros p Hp ->. destruct C as [|f C]; [discriminate|]. simpl in Hp. injection Hp as Hp. simpl in Hm. rewrite Hp, Nat.eqb_refl in Hm. lia. }
    destruct C as [|[d cc p sb] C]; simpl.
    + repeat split; auto. apply upd_eq.
    + specialize (Hup p eq_refl). destruct d; simpl; repeat split; auto; try apply upd_eq; now rewrite upd_neq by congruence.
  - apply (hook_cst C None); [|intros b; pose proof (fnd _ _ _ F b); simpl in *; lia].
    eapply cst_frame; [| |exact (fx _ _ _ F)]; [|reflexivity].
    intros b Hb. repeat split. cbn [par set_par]. apply upd_neq. intros ->. lia.
Qed.

Lemma insert_node_ok (lt : T -> T -> bool) s C n nv :
  foc s E C -> rb (plug E C) -> lnk s (ino (plug E C)) ->
  val s n = Some nv -> lft s n = None -> rgt s n = None -> cnt s n = 0 -> cm C n = 0 -> n < fresh s ->
  match C with
  | [] => True
  | Fr d _ p _ :: _ => exists pv, val s p = Some pv /\ lt nv pv = (match d with L => true | R => false end) /\
                                  (d = R -> lt pv nv = true)
  end ->
  exists s', insert_node lt (Some n) (up C) s = Ok (s', tt) /\ val s' = val s /\ fresh s' = fresh s /\
    Core s' (blk (fix_ins (N Red E n E) C)).
Proof.
  intros F Hrb Hlnk Hv Hl Hr Hc Hm Hlt Hdir.
  assert (Ha : alive s n = true) by (unfold alive; now rewrite Hv).
  unfold insert_node. rewrite bind_wr by exact Ha. set (s1 := set_par n (up C) s).
  destruct (hook_foc s (col s n) n C F Ha Hl Hr Hc eq_refl Hm Hlt) as [Ht Hcs]. fold s1 in Ht, Hcs.
  assert (Hnd : forall b, tm (N (col s n) E n E) b + cm C b <= 1).
  { intros b. pose proof (fnd _ _ _ F b). simpl in *. destruct (Nat.eqb_spec n b); subst; lia. }
  assert (Hhs : same s (hook C (Some n) s1)) by (destruct C as [|[[] ? ? ?] ?]; repeat split).
  assert (Hhc : cnt (hook C (Some n) s1) = cnt s) by (destruct C as [|[[] ? ? ?] ?]; reflexivity).
  assert (Hstep : exists s2, same s s2 /\ foc s2 (N (col s n) E n E) C /\
    forall B (k : unit -> @M T B),
    bind (if is_null (up C) then put_root (Some n)
       else nv <- rd_val (Some n) ;; pv <- rd_val (up C) ;;
        if lt nv pv then set_left (up C) (Some n)
        else if lt pv nv then set_right (up C) (Some n) else fail) k s1 = k tt s2).
  { destruct C as [|[d cc p sb] C].
    - exists (hook [] (Some n) s1). split; [exact Hhs|]. split; [|reflexivity]. split; auto.
      + simpl. auto.
      + intros b Hb. simpl in *. destruct (Nat.eqb_spec n b); subst; lia.
    - destruct Hdir as (pv & Hpv & H1 & H2).
      destruct (update_count_ctx (Fr d cc p sb :: C) (S (fresh s)) (hook (Fr d cc p sb :: C) (Some n) s1) (N (col s n) E n E) 0)
        as (s2 & E2 & O2 & C2 & T2 & _); auto.
      + pose proof (foc_length _ _ _ F). cbn [sz] in *. lia.
      + discriminate.
      + cbn [tct sz]. rewrite Hhc. auto.
      + eapply cct_frame; [|exact (fcc _ _ _ F)]. intros. now rewrite Hhc.
      + exists s2. destruct O2 as (S2 & O2). split; [eapply same_trans; eauto|]. split.
        * split; auto.
          -- eapply tst_frame; [|exact Ht]. intros b _. apply cnt_only_eq_at. now split.
          -- eapply cst_frame; [| |exact Hcs]; [|apply O2]. intros b _. apply cnt_only_eq_at. now split.
          -- intros b Hb. destruct S2 as (_ & _ & _ & ->). destruct Hhs as (_ & _ & _ & ->).
             pose proof (ffr _ _ _ F b). simpl in *. destruct (Nat.eqb_spec n b); subst; lia.
        * intros B k. cbn [up is_null fa]. rewrite bind_assoc. rewrite (rd_val_run s1 n nv) by exact Hv.
          rewrite bind_assoc. rewrite (rd_val_run s1 p pv) by exact Hpv. rewrite H1.
          assert (Hap : alive s1 p = true) by (unfold alive; change (val s1) with (val s); now rewrite Hpv).
          assert (Hf : forall st' : st T, fresh st' = fresh s -> update_count (Some p) st' = update_count_f (S (fresh s)) (Some p) st').
          { intros st' Hst. unfold update_count, fuelled. now rewrite Hst. }
          destruct d.
          -- unfold set_left. rewrite bind_assoc, bind_wr by exact Hap. apply bind_ok. rewrite Hf by reflexivity. exact E2.
          -- rewrite H2 by reflexivity. unfold set_right. rewrite bind_assoc, bind_wr by exact Hap.
             apply bind_ok. rewrite Hf by reflexivity. exact E2. }
  destruct Hstep as (s2 & S2 & F2 & Hrun). rewrite Hrun. clear Hrun.
  destruct (foc_col s2 (col s n) Red _ _ _ _ F2) as (Ha2 & F3 & S3).
  rewrite bind_wr by exact Ha2. set (s3 := set_col n Red s2) in *.
  destruct (bil_ok (length C) (S (fresh s3)) s3 E n E C) as (s4 & E4 & S4 & F4); auto.
  { pose proof (foc_length _ _ _ F3). simpl in *. lia. }
  { eapply rb_topb'; eauto. }
  set (tf := fix_ins (N Red E n E) C) in *.
  assert (Hino : ino tf = cpre C ++ n :: cpost C).
  { unfold tf. rewrite (ino_fix (length C)) by auto. now rewrite ino_plug. }
  assert (Hne : tf <> E). { intros HH. rewrite HH in Hino. destruct (cpre C); discriminate. }
  unfold balance_after_insert. rewrite bind_assoc.
  assert (E4' : fuelled (fun f => balance_insert_loop f (Some n)) s3 = Ok (s4, tt)) by exact E4.
  rewrite (bind_ok _ _ _ _ _ E4').
  match goal with |- context [bind (bind get_root _) ?k s4] => destruct (blacken_root s4 tf k F4 Hne) as (s5 & E5 & S5 & F5) end.
  rewrite E5. clear E5.
  assert (Hne5 : blk tf <> E) by (destruct tf; [congruence|discriminate]).
  match goal with |- context [bind (bind get_root _) ?k s5] => destruct (blacken_root s5 (blk tf) k F5 Hne5) as (s6 & E6 & S6 & F6) end.
  rewrite E6. clear E6.
  assert (Hbb : blk (blk tf) = blk tf) by now destruct tf. rewrite Hbb in F6.
  assert (S06 : same s s6).
  { eapply same_trans; [exact S2|]. eapply same_trans; [exact S3|]. eapply same_trans; [exact S4|]. eapply same_trans; [exact S5|]. exact S6. }
  assert (Hin : In n (ino (blk tf))). { rewrite ino_blk, Hino. apply in_or_app. right. now left. }
  destruct (locate _ _ Hin) as (c' & l' & r' & C' & Hloc).
  assert (F7 : foc s6 (N c' l' n r') C').
  { apply foc_plug. rewrite <- Hloc. exact F6. }
  rewrite (bind_ok _ _ _ _ _ (get_predecessor_ok _ _ _ _ _ _ F7)).
  assert (Hpre : cpre C' ++ ino l' = cpre C /\ ino r' ++ cpost C' = cpost C).
  { apply (nodup_split n).
    - pose proof (foc_nodup _ _ F6) as Hn. rewrite Hloc, ino_plug in Hn. simpl in Hn. rewrite <- !app_assoc in *. simpl in *. exact Hn.
    - rewrite <- Hino, <- (ino_blk tf), Hloc, ino_plug. simpl. rewrite <- ?app_assoc. simpl. rewrite <- ?app_assoc. reflexivity. }
  destruct Hpre as [Hp1 Hp2]. rewrite Hp1.
  destruct (lnk_insert s6 (cpre C) (cpost C) n) as (s7 & E7 & L7 & K7).
  - eapply lnk_same; [exact S06|]. rewrite ino_plug in Hlnk. exact Hlnk.
  - rewrite <- Hino, <- (ino_blk tf). now apply (foc_nodup s6).
  - intros a Ha'. eapply foc_all_alive; [exact F6|]. rewrite ino_blk, Hino. apply in_app_iff in Ha'. apply in_or_app. simpl. tauto.
  - rewrite (same_alive _ _ n S06). exact Ha.
  - exists s7. split; [|split; [|split]].
    + rewrite <- E7. destruct (lasto (cpre C)); reflexivity.
    + destruct L7 as (_ & _ & _ & _ & _ & _ & -> & _). apply S06.
    + destruct L7 as (_ & _ & _ & _ & _ & _ & _ & ->). apply S06.
    + split.
      * eapply foc_lonly; eauto.
      * destruct tf; simpl; auto.
      * rewrite ino_blk, Hino. exact K7.
Qed.

(** *** RemoveNode *)
(** Splicing out a node with at most one child. *)
Definition only_child (l r : tree) : tree := match l with E => r | _ => l end.

Definition splice (y : option nat) : @M T (option nat) :=
  yl <- rd lft y ;;
  x <- (if is_null yl then rd rgt y else ret yl) ;;
  (if is_null x then ret tt else yp <- rd par y ;; set_parent x yp) ;;;
  yp <- rd par y ;;
  (if is_null yp then put_root x
   else ypl <- rd lft yp ;;
        if ptr_eqb y ypl then set_left yp x else set_right yp x) ;;;
  ret x.

Lemma splice_ok s c l y r C : foc s (N c l y r) C -> l = E \/ r = E ->
  exists s', splice (Some y) s = Ok (s', ptr (only_child l r)) /\ same s s' /\ foc s' (only_child l r) C /\ col s' = col s.
Proof.
  intros F Hlr. set (xt := only_child l r).
  pose proof (foc_node s L _ _ _ _ _ F) as (A1 & A2 & A3 & A4 & A5). cbn [child opp] in *.
  pose proof (ft _ _ _ F) as Htst. destruct Htst as (_ & _ & _ & _ & _ & Tl & Tr).
  pose proof (ftc _ _ _ F) as (Cy & Cl & Cr).
  pose proof (foc_length _ _ _ F) as Hlen.
  assert (Hsz : sz xt = sz l + sz r). { unfold xt, only_child. destruct Hlr as [->| ->]; simpl; [reflexivity|]. destruct l; simpl; lia. }
  assert (Htm : forall b, tm xt b = tm l b + tm r b). { intros b. unfold xt, only_child. destruct Hlr as [->| ->]; simpl; [reflexivity|]. destruct l; simpl; lia. }
  assert (Txt : tst s xt (Some y)). { unfold xt, only_child. destruct l; auto. }
  assert (Cxt : tct s xt). { unfold xt, only_child. destruct l; auto. }
  assert (Hyl : (if is_null (ptr l) then rgt s y else ptr l) = ptr xt). { rewrite A4. unfold xt, only_child. destruct l; reflexivity. }
  pose proof (fnd _ _ _ F) as Hnd. simpl in Hnd.
  assert (Hyy : tm l y = 0 /\ tm r y = 0 /\ cm C y = 0). { pose proof (Hnd y) as H. rewrite Nat.eqb_refl in H. lia. }
  (* x's parent *)
  set (s1 := match xt with E => s | N _ _ xa _ => set_par xa (up C) s end).
  assert (Hs1 : par s1 y = up C /\ same s s1 /\ cnt s1 = cnt s /\ lft s1 = lft s /\ rgt s1 = rgt s /\ root s1 = root s /\ col s1 = col s).
  { unfold s1. destruct xt as [|xc xl xa xr] eqn:Ex; [repeat split; auto|]. split; [|repeat split].
    cbn [par set_par]. rewrite upd_neq; auto. intros <-. specialize (Htm y). simpl in Htm. rewrite Nat.eqb_refl in Htm. lia. }
  destruct Hs1 as (Hp1 & S1 & Hc1 & Hl1 & Hr1 & Hrt1 & Hcol1).
  assert (Hpar1 : forall b, ptr xt <> Some b -> par s1 b = par s b).
  { intros b Hb. unfold s1. destruct xt as [|xc xl xa xr]; auto. cbn [par set_par]. apply upd_neq. simpl in Hb. congruence. }
  assert (Tx1 : tst s1 xt (up C)).
  { unfold s1. destruct xt as [|xc xl xa xr] eqn:Ex; [exact I|]. destruct Txt as (X1 & X2 & X3 & X4 & X5 & X6 & X7).
    assert (Hx : tm xl xa = 0 /\ tm xr xa = 0).
    { pose proof (Hnd xa) as H. specialize (Htm xa). simpl in Htm. rewrite Nat.eqb_refl in Htm. lia. }
    repeat split; auto.
    - apply upd_eq.
    - eapply tst_frame; [|exact X6]. intros b Hb. repeat split. cbn [par set_par]. apply upd_neq. intros ->. lia.
    - eapply tst_frame; [|exact X7]. intros b Hb. repeat split. cbn [par set_par]. apply upd_neq. intros ->. lia. }
  assert (Hxin : forall b, ptr xt = Some b -> 1 <= tm l b + tm r b).
  { intros b Hb. rewrite <- Htm. destruct xt as [|xc xl xa xr]; [discriminate|]. injection Hb as ->. simpl. rewrite Nat.eqb_refl. lia. }
  assert (Cx1 : cst s1 C (Some y)).
  { eapply cst_frame; [| |exact (fx _ _ _ F)]; [|exact Hrt1]. intros b Hb.
    unfold eq_at. rewrite (same_alive _ _ b S1), Hl1, Hr1, Hcol1, Hpar1; auto.
    intros HH. apply Hxin in HH. specialize (Hnd b). lia. }
  assert (Ht1 : tct s1 xt). { eapply tct_frame; [|exact Cxt]. intros; congruence. }
  assert (Hcc1 : cct s1 C (sz (N c l y r))). { eapply cct_frame; [|exact (fcc _ _ _ F)]. intros; congruence. }
  (* the first UpdateCount is a no-op *)
  assert (H1 : exists s2, ceq s1 s2 /\ forall B (k : unit -> @M T B),
     bind (if is_null (ptr xt) then ret tt else yp <- rd par (Some y) ;; set_parent (ptr xt) yp) k s = k tt s2).
  { destruct xt as [|xc xl xa xr] eqn:Ex.
    - exists s1. split; [apply ceq_refl|]. intros B k. reflexivity.
    - destruct Txt as (X1 & _). cbn [ptr is_null].
      destruct C as [|[d cc p sb] C].
      + exists s1. split; [apply ceq_refl|]. intros B k. rewrite bind_assoc, bind_rd by exact A1. rewrite A2.
        unfold set_parent. rewrite bind_assoc, bind_wr by exact X1. reflexivity.
      + pose proof (foc_frame _ _ _ _ _ _ _ F) as (B1 & B2 & B3 & B4 & B5). cbn [cct fa fs sz] in Hcc1.
        destruct Cx1 as (D1 & D2 & D3 & D4 & D5 & D6 & D7). destruct Hcc1 as (K1 & K2 & K3).
        pose proof (Hnd p) as Hndp. simpl in Hndp. rewrite Nat.eqb_refl in Hndp.
        assert (Hyp : y <> p). { intros ->. rewrite Nat.eqb_refl in Hndp. lia. }
        assert (Hoky : cok s1 p (Some y) (sz l + sz r + 1)).
        { cbn [cok]. split; [rewrite (same_alive _ _ y S1); exact A1|]. split; [exact Hyp|]. rewrite Hc1. lia. }
        assert (Hoks : cok s1 p (ptr sb) (sz sb)). { eapply cok_tree; eauto. lia. }
        assert (Hnoop : exists s2, update_count (Some p) s1 = Ok (s2, tt) /\ ceq s1 s2).
        { destruct d; cbn [child opp] in *.
          - apply (update_count_noop s1 p (sz l + sz r + 1) (sz sb)); [exact D1|now rewrite D3|now rewrite D4|exact K1].
          - apply (update_count_noop s1 p (sz sb) (sz l + sz r + 1)); [exact D1|now rewrite D4|now rewrite D3|lia]. }
        destruct Hnoop as (s2 & E2 & Q2). exists s2. split; [exact Q2|]. intros B k.
        rewrite bind_assoc, bind_rd by exact A1. rewrite A2. unfold set_parent. rewrite bind_assoc, bind_wr by exact X1.
        cbn [up is_null fa]. apply bind_ok. exact E2. }
  destruct H1 as (s2 & Q2 & Hrun1).
  destruct Q2 as (O2 & Hcnt2). pose proof O2 as ((V2 & N2 & P2 & G2) & Rt2 & Pr2 & Lf2 & Rg2 & Cl2).
  assert (Aa2 : forall a, alive s2 a = alive s a). { intros a. unfold alive. rewrite V2. destruct S1 as (-> & _). reflexivity. }
  (* the second one works on the new tree *)
  assert (Hnd2 : forall b, tm xt b + cm C b <= 1). { intros b. specialize (Hnd b). rewrite Htm. destruct (y =? b); lia. }
  assert (Tx2 : tst s2 xt (up C)). { eapply tst_frame; [|exact Tx1]. intros b _. now apply cnt_only_eq_at. }
  assert (Cs2 : cst s2 C (Some y)). { eapply cst_frame; [| |exact Cx1]; auto. intros b _. now apply cnt_only_eq_at. }
  assert (Tc2 : tct s2 xt). { eapply tct_frame; [|exact Ht1]. auto. }
  assert (Cc2 : cct s2 C (sz (N c l y r))). { eapply cct_frame; [|exact Hcc1]. auto. }
  assert (Hfr2 : fresh s2 = fresh s) by (rewrite G2; apply S1).
  assert (H2 : exists s3, same s s3 /\ foc s3 xt C /\ col s3 = col s /\ forall B (k : unit -> @M T B),
     bind (if is_null (up C) then put_root (ptr xt) else
       ypl <- rd lft (up C) ;; if ptr_eqb (Some y) ypl then set_left (up C) (ptr xt) else set_right (up C) (ptr xt)) k s2 = k tt s3).
  { destruct C as [|[d cc p sb] C].
    - exists (set_root (ptr xt) s2). split; [|split; [|split; [|reflexivity]]]. 3: cbn; congruence.
      + eapply same_trans; [exact S1|]. eapply same_trans; [apply O2|]. repeat split.
      + split; auto.
        * eapply tst_frame; [|exact Tx2]. intros; repeat split.
        * reflexivity.
        * eapply tct_frame; [|exact Tc2]. reflexivity.
        * intros b Hb. cbn [fresh set_root]. rewrite Hfr2. apply (ffr _ _ _ F). simpl. simpl in Hb. rewrite Htm in Hb. lia.
    - set (C0 := Fr d cc p sb :: C) in *.
      pose proof (hook_cst C0 (Some y) (ptr xt) s2 Cs2) as Hh.
      assert (Hcm : forall b, cm C0 b <= 1) by (intros b; specialize (Hnd2 b); lia).
      specialize (Hh Hcm). set (s3 := hook C0 (ptr xt) s2) in *.
      assert (Hc3 : cnt s3 = cnt s2) by (unfold s3; destruct d; reflexivity).
      assert (Hs3 : same s2 s3) by (unfold s3; destruct d; repeat split).
      destruct (update_count_ctx C0 (S (fresh s)) s3 xt (sz (N c l y r))) as (s4 & E4 & O4 & C4 & T4 & _); auto.
      + lia.
      + discriminate.
      + eapply tst_frame; [|exact Tx2]. intros b Hb. assert (b <> p).
        { intros ->. pose proof (Hnd2 p) as H. simpl in H. rewrite Nat.eqb_refl in H. lia. }
        unfold s3; destruct d; repeat split; cbn; now apply upd_neq.
      + eapply tct_frame; [|exact Tc2]. intros; congruence.
      + eapply cct_frame; [|exact Cc2]. intros; congruence.
      + exists s4. destruct O4 as (S4 & O4). split; [|split; [|split]]. 3:{ destruct O4 as (_ & _ & _ & _ & ->). unfold s3; destruct d; cbn; congruence. }
        * eapply same_trans; [exact S1|]. eapply same_trans; [apply O2|]. eapply same_trans; [exact Hs3|exact S4].
        * split; auto.
          -- eapply tst_frame; [|exact Tx2]. intros b Hb. assert (b <> p).
             { intros ->. pose proof (Hnd2 p) as H. simpl in H. rewrite Nat.eqb_refl in H. lia. }
             assert (He : eq_at s2 s3 b) by (unfold s3; destruct d; repeat split; cbn; now apply upd_neq).
             assert (He' : eq_at s3 s4 b) by (apply cnt_only_eq_at; now split).
             unfold eq_at in *. intuition congruence.
          -- eapply cst_frame; [| |exact Hh]; [|apply O4]. intros b _. apply cnt_only_eq_at. now split.
          -- intros b Hb. destruct S4 as (_ & _ & _ & ->). destruct Hs3 as (_ & _ & _ & ->). rewrite Hfr2.
             apply (ffr _ _ _ F). cbn [tm]. rewrite Htm in Hb. lia.
        * intros B k. cbn [up is_null fa C0].
          pose proof Cs2 as (D1 & D2 & D3 & D4 & D5 & D6 & D7).
          rewrite bind_assoc, bind_rd by exact D1.
          assert (Hpick : (if ptr_eqb (Some y) (lft s2 p) then set_left (Some p) (ptr xt) else set_right (Some p) (ptr xt))
                          = (match d with L => set_left (Some p) (ptr xt) | R => set_right (Some p) (ptr xt) end : @M T unit)).
          { rewrite Lf2, Hl1. apply (pick_child s c l y r d cc p sb C). exact F. }
          rewrite Hpick.
          assert (Hf : forall st' : st T, fresh st' = fresh s -> update_count (Some p) st' = update_count_f (S (fresh s)) (Some p) st').
          { intros st' Hst. unfold update_count, fuelled. now rewrite Hst. }
          destruct d; [unfold set_left|unfold set_right]; rewrite bind_assoc, bind_wr by exact D1;
            apply bind_ok; rewrite Hf by (cbn; exact Hfr2); exact E4. }
  destruct H2 as (s3 & S3 & F3 & Col3 & Hrun2).
  exists s3. split; [|split; [|split]; auto].
  unfold splice. rewrite bind_rd by exact A1. rewrite A3.
  assert (Hx : forall B (k : option nat -> @M T B), bind (if is_null (ptr l) then rd rgt (Some y) else ret (ptr l)) k s = k (ptr xt) s).
  { intros B k. destruct l as [|lc ll la lr]; cbn [ptr is_null] in *; [|rewrite Hyl; reflexivity].
    rewrite bind_rd by exact A1. now rewrite Hyl. }
  rewrite Hx. rewrite Hrun1. 
  assert (Ay2 : alive s2 y = true) by (rewrite Aa2; exact A1).
  rewrite bind_rd by exact Ay2. rewrite Pr2, Hp1. rewrite Hrun2. reflexivity.
Qed.

(** *** CopyFrom: node [y], which is outside the tree, takes the place of [z]. *)
Definition repar (t : tree) (q : option nat) s : st T := match t with E => s | N _ _ a _ => set_par a q s end.

Lemma repar_tst s t p q : tst s t p -> (forall b, tm t b <= 1) -> tst (repar t q s) t q.
Proof.
  destruct t as [|xc xl xa xr]; intros Ht Hn; [exact I|]. destruct Ht as (X1 & X2 & X3 & X4 & X5 & X6 & X7).
  assert (Hx : tm xl xa = 0 /\ tm xr xa = 0). { specialize (Hn xa). simpl in Hn. rewrite Nat.eqb_refl in Hn. lia. }
  repeat split; auto.
  - apply upd_eq.
  - eapply tst_frame; [|exact X6]. intros b Hb. repeat split. cbn [par set_par repar]. apply upd_neq. intros ->. lia.
  - eapply tst_frame; [|exact X7]. intros b Hb. repeat split. cbn [par set_par repar]. apply upd_neq. intros ->. lia.
Qed.
Lemma repar_par s t q b : tm t b = 0 -> par (repar t q s) b = par s b.
Proof. destruct t as [|c l a r]; simpl; auto. intros H. apply upd_neq. intros <-. rewrite Nat.eqb_refl in H. lia. Qed.
Lemma repar_lft s t q : lft (repar t q s) = lft s. Proof. now destruct t. Qed.
Lemma repar_rgt s t q : rgt (repar t q s) = rgt s. Proof. now destruct t. Qed.
Lemma repar_col s t q : col (repar t q s) = col s. Proof. now destruct t. Qed.
Lemma repar_cnt s t q : cnt (repar t q s) = cnt s. Proof. now destruct t. Qed.
Lemma repar_val s t q : val (repar t q s) = val s. Proof. now destruct t. Qed.
Lemma repar_nxt s t q : nxt (repar t q s) = nxt s. Proof. now destruct t. Qed.
Lemma repar_prv s t q : prv (repar t q s) = prv s. Proof. now destruct t. Qed.
Lemma repar_fresh s t q : fresh (repar t q s) = fresh s. Proof. now destruct t. Qed.
Lemma repar_root s t q : root (repar t q s) = root s. Proof. now destruct t. Qed.
Lemma repar_run {B} s t p q (k : unit -> @M T B) : tst s t p ->
  bind (if is_null (ptr t) then ret tt else wr set_par (ptr t) q) k s = k tt (repar t q s).
Proof. destruct t as [|c l a r]; simpl; intros H; [reflexivity|]. apply bind_wr. tauto. Qed.

Lemma ptr_eqb_sym a b : ptr_eqb a b = ptr_eqb b a.
Proof. destruct a, b; simpl; auto. apply Nat.eqb_sym. Qed.

Lemma cst_root_cm s C h b : C <> [] -> cst s C h -> root s = Some b -> 1 <= cm C b.
Proof.
  revert h; induction C as [|[d c a sb] C IH]; intros h Hne H Hr; [congruence|].
  destruct H as (_ & _ & _ & _ & _ & _ & H). simpl. destruct C as [|g C].
  - simpl in H. rewrite H in Hr. injection Hr as ->. rewrite Nat.eqb_refl. lia.
  - assert (1 <= cm (g :: C) b) by (eapply IH; eauto; discriminate). simpl in *. lia.
Qed.

Lemma replace_ok {B} s c l z r C y (k : unit -> @M T B) :
  foc s (N c l z r) C -> alive s y = true -> tm (N c l z r) y = 0 -> cm C y = 0 -> y < fresh s ->
  exists s', bind (copy_from (Some y) (Some z) ;;; rt <- get_root ;; if ptr_eqb (Some z) rt then put_root (Some y) else ret tt) k s = k tt s' /\
    same s s' /\ foc s' (N c l y r) C.
Proof.
  intros F Ay Hty Hcy Hfy.
  pose proof (ft _ _ _ F) as Htst. destruct Htst as (A1 & A2 & A3 & A4 & A5 & Tl & Tr).
  pose proof (ftc _ _ _ F) as (Cy & Cl & Cr). pose proof (fcc _ _ _ F) as Hcc. cbn [sz] in Hcc.
  pose proof (fnd _ _ _ F) as Hnd. cbn [tm] in Hnd, Hty.
  assert (Hzy : z <> y). { intros ->. rewrite Nat.eqb_refl in Hty. lia. }
  destruct (Nat.eqb_spec z y); [congruence|].
  set (s5 := set_rgt y (ptr r) (repar r (Some y) (set_lft y (ptr l) (repar l (Some y) (set_cnt y (cnt s z) s))))).
  assert (E5 : lft s5 y = ptr l /\ rgt s5 y = ptr r /\ cnt s5 y = cnt s z /\ same s s5 /\ root s5 = root s /\ col s5 = col s).
  { unfold s5, same. cbn [lft rgt cnt val nxt prv fresh root col set_rgt set_lft set_cnt].
    rewrite !repar_lft, !repar_rgt, !repar_cnt, !repar_val, !repar_nxt, !repar_prv, !repar_fresh, !repar_root, !repar_col.
    cbn [lft rgt cnt val nxt prv fresh root col set_rgt set_lft set_cnt]. rewrite !repar_lft, !repar_cnt, !repar_val, !repar_nxt, !repar_prv, !repar_fresh, !repar_root, !repar_col.
    cbn [lft rgt cnt val nxt prv fresh root col set_rgt set_lft set_cnt]. rewrite !upd_eq. repeat split. }
  destruct E5 as (L5 & R5 & N5 & S5 & Rt5 & Co5).
  assert (Lr : forall b, b <> y -> lft s5 b = lft s b /\ rgt s5 b = rgt s b /\ cnt s5 b = cnt s b).
  { intros b Hb. unfold s5. cbn [lft rgt cnt set_rgt]. rewrite upd_neq by auto. rewrite repar_lft, repar_rgt, repar_cnt.
    cbn [lft rgt cnt set_lft]. rewrite upd_neq by auto. rewrite repar_lft, repar_rgt, repar_cnt.
    cbn [lft rgt cnt set_cnt]. now rewrite upd_neq by auto. }
  assert (Pr : forall b, tm l b = 0 -> tm r b = 0 -> par s5 b = par s b).
  { intros b Hb1 Hb2. unfold s5. cbn [par set_rgt]. rewrite repar_par by auto. cbn [par set_lft]. rewrite repar_par by auto. reflexivity. }
  assert (Tl5 : tst s5 l (Some y)).
  { eapply tst_frame; [|apply (repar_tst (set_cnt y (cnt s z) s) l (Some z) (Some y))].
    - intros b Hb. assert (b <> y) by (intros ->; lia). unfold eq_at, alive, s5.
      cbn [lft rgt par val col set_rgt]. rewrite !repar_lft, !repar_rgt, !repar_col, !repar_val, (upd_neq (rgt _)) by auto.
      cbn [lft rgt par val col set_lft]. rewrite !repar_lft, !repar_rgt, !repar_col, !repar_val, (upd_neq (lft _)) by auto.
      repeat split. rewrite repar_par; [reflexivity|]. specialize (Hnd b). lia.
    - eapply tst_frame; [|exact Tl]. intros; repeat split.
    - intros b. specialize (Hnd b). lia. }
  assert (Tr5 : tst s5 r (Some y)).
  { unfold s5. eapply tst_frame; [|apply (repar_tst (set_lft y (ptr l) (repar l (Some y) (set_cnt y (cnt s z) s))) r (Some z) (Some y))].
    - intros b Hb. assert (b <> y) by (intros ->; lia). unfold eq_at, alive.
      cbn [lft rgt par val col set_rgt]. rewrite (upd_neq (rgt _)) by auto. repeat split.
    - eapply tst_frame; [|exact Tr]. intros b Hb. assert (b <> y) by (intros ->; lia). unfold eq_at, alive.
      cbn [lft rgt par val col set_lft]. rewrite repar_lft, repar_rgt, repar_col, repar_val, (upd_neq (lft _)) by auto.
      repeat split. rewrite repar_par; [reflexivity|]. specialize (Hnd b). lia.
    - intros b. specialize (Hnd b). lia. }
  assert (Hcy' : forall b, 1 <= cm C b -> b <> y) by (intros b Hb ->; lia).
  assert (Cs5 : cst s5 C (Some z)).
  { eapply cst_frame; [| |exact (fx _ _ _ F)]; [|exact Rt5]. intros b Hb.
    destruct (Lr b (Hcy' b Hb)) as (-> & -> & _) || idtac.
    unfold eq_at. destruct (Lr b (Hcy' b Hb)) as (H1 & H2 & H3). rewrite (same_alive _ _ b S5), H1, H2, Co5, Pr; auto; specialize (Hnd b); lia. }
  assert (Tc5 : tct s5 l /\ tct s5 r).
  { split; [eapply tct_frame; [|exact Cl]|eapply tct_frame; [|exact Cr]]; intros b Hb; apply Lr; intros ->; lia. }
  assert (Cc5 : cct s5 C (sz l + sz r + 1)).
  { eapply cct_frame; [|exact Hcc]. intros b Hb. apply Lr. auto. }
  assert (Az5 : alive s5 z = true) by now rewrite (same_alive _ _ z S5).
  assert (Ay5 : alive s5 y = true) by now rewrite (same_alive _ _ y S5).
  assert (Hz5 : par s5 z = up C). { rewrite Pr; auto; specialize (Hnd z); rewrite Nat.eqb_refl in Hnd; lia. }
  (* the part up to here *)
  assert (Hrun : forall D (g : unit -> @M T D),
    bind (copy_from (Some y) (Some z)) g s =
    bind ((if is_null (up C) then ret tt
           else opl <- rd lft (up C) ;; if ptr_eqb opl (Some z) then set_left (up C) (Some y) else set_right (up C) (Some y)) ;;;
          cz <- rd col (Some z) ;; wr set_col (Some y) cz ;;; op <- rd par (Some z) ;; set_parent (Some y) op) g s5).
  { intros D g. unfold copy_from. rewrite !bind_assoc, bind_rd by exact A1. rewrite !bind_assoc, bind_wr by exact Ay.
    rewrite !bind_assoc. set (s1 := set_cnt y (cnt s z) s).
    assert (Az1 : alive s1 z = true) by exact A1.
    rewrite bind_rd by exact Az1. change (lft s1 z) with (lft s z). rewrite A3.
    rewrite bind_assoc. rewrite (repar_run s1 l (Some z)) by (eapply tst_frame; [|exact Tl]; intros; repeat split).
    set (s2 := repar l (Some y) s1) in *.
    assert (Az2 : alive s2 z = true) by (unfold alive, s2; rewrite repar_val; exact A1).
    rewrite !bind_assoc, bind_rd by exact Az2.
    assert (Ay2 : alive s2 y = true) by (unfold alive, s2; rewrite repar_val; exact Ay).
    rewrite !bind_assoc, bind_wr by exact Ay2.
    assert (HL2 : lft s2 z = ptr l) by (unfold s2; rewrite repar_lft; exact A3).
    rewrite HL2. set (s3 := set_lft y (ptr l) s2) in *.
    assert (Az3 : alive s3 z = true) by exact Az2.
    rewrite !bind_assoc, bind_rd by exact Az3.
    assert (HR3 : rgt s3 z = ptr r) by (unfold s3; cbn [rgt set_lft]; unfold s2; rewrite repar_rgt; exact A4).
    rewrite HR3. rewrite bind_assoc. rewrite (repar_run s3 r (Some z)).
    2:{ eapply tst_frame; [|exact Tr]. intros b Hb. assert (b <> y) by (intros ->; lia). unfold eq_at, alive, s3, s2.
      cbn [lft rgt par val col set_lft]. rewrite repar_lft, repar_rgt, repar_col, repar_val, (upd_neq (lft _)) by auto.
      repeat split. rewrite repar_par; [reflexivity|]. specialize (Hnd b). lia. }
    set (s4 := repar r (Some y) s3) in *.
    assert (Az4 : alive s4 z = true) by (unfold alive, s4; rewrite repar_val; exact Az3).
    rewrite !bind_assoc, bind_rd by exact Az4.
    assert (Ay4 : alive s4 y = true) by (unfold alive, s4; rewrite repar_val; exact Ay2).
    rewrite !bind_assoc, bind_wr by exact Ay4.
    assert (HR4 : rgt s4 z = ptr r) by (unfold s4; rewrite repar_rgt; exact HR3).
    rewrite HR4. change (set_rgt y (ptr r) s4) with s5.
    rewrite !bind_assoc, bind_rd by exact Az5. rewrite Hz5, ?bind_assoc. reflexivity. }
  rewrite bind_assoc, Hrun. clear Hrun. clearbody s5.
  (* the parent now points to y *)
  assert (H6 : exists s6, same s5 s6 /\ cst s6 C (match C with [] => Some z | _ => Some y end) /\ tst s6 l (Some y) /\ tst s6 r (Some y) /\
    lft s6 y = ptr l /\ rgt s6 y = ptr r /\ par s6 z = up C /\ col s6 z = c /\ (forall b, cnt s6 b = cnt s5 b) /\
    forall D (g : unit -> @M T D), bind (if is_null (up C) then ret tt
           else opl <- rd lft (up C) ;; if ptr_eqb opl (Some z) then set_left (up C) (Some y) else set_right (up C) (Some y)) g s5 = g tt s6).
  { destruct C as [|[d cc p sb] C].
    - exists s5. split; [apply same_refl|]. rewrite Co5. repeat split; auto.
    - set (C0 := Fr d cc p sb :: C) in *.
      assert (Hcm : forall b, cm C0 b <= 1) by (intros b; specialize (Hnd b); lia).
      pose proof (hook_cst C0 (Some z) (Some y) s5 Cs5 Hcm) as Hh.
      set (s6 := hook C0 (Some y) s5) in *.
      assert (Hpp : cm C0 p = 1 + cm C p + tm sb p) by (cbn [cm fa fs C0]; rewrite Nat.eqb_refl; lia).
      assert (He : forall b, b <> p -> eq_at s5 s6 b) by (intros b Hb; unfold s6; destruct d; repeat split; cbn; now apply upd_neq).
      assert (S6 : same s5 s6) by (unfold s6; destruct d; repeat split).
      assert (C6 : cnt s6 = cnt s5) by (unfold s6; destruct d; reflexivity).
      pose proof (Hnd p) as Hndp. rewrite Hpp in Hndp.
      assert (Hpy : p <> y) by (apply Hcy'; lia).
      assert (Hpz : p <> z). { intros ->. rewrite Nat.eqb_refl in Hndp. lia. }
      pose proof Hh as (D1 & D2 & D3 & D4 & D5 & D6 & D7). destruct Cc5 as (K1 & K2 & K3). cbn [fa fs] in *.
      assert (Hoky : cok s6 p (Some y) (sz l + sz r + 1)).
      { cbn [cok]. split; [rewrite (same_alive _ _ y S6); exact Ay5|]. split; [auto|]. rewrite C6, N5. lia. }
      assert (Hoks : cok s6 p (ptr sb) (sz sb)).
      { eapply cok_tree; eauto; [|lia]. eapply tct_frame; [|exact K2]. intros; congruence. }
      assert (Hnoop : exists s7, update_count (Some p) s6 = Ok (s7, tt) /\ ceq s6 s7).
      { destruct d; cbn [child opp] in *.
        - apply (update_count_noop s6 p (sz l + sz r + 1) (sz sb)); [exact D1|now rewrite D3|now rewrite D4|now rewrite C6].
        - apply (update_count_noop s6 p (sz sb) (sz l + sz r + 1)); [exact D1|now rewrite D4|now rewrite D3|rewrite C6; lia]. }
      destruct Hnoop as (s7 & E7 & O7 & Q7). pose proof O7 as (S7 & Rt7 & P7 & L7 & R7 & Cl7).
      assert (He7 : forall b, b <> p -> eq_at s5 s7 b).
      { intros b Hb. specialize (He b Hb). pose proof (cnt_only_eq_at _ _ b O7) as He'. unfold eq_at in *. intuition congruence. }
      exists s7. split; [eapply same_trans; eauto|]. split.
      { eapply cst_frame; [| |exact Hh]; auto. intros b _. now apply cnt_only_eq_at. }
      split; [eapply tst_frame; [|exact Tl5]; intros b Hb; apply He7; intros ->; lia|].
      split; [eapply tst_frame; [|exact Tr5]; intros b Hb; apply He7; intros ->; lia|].
      destruct (He7 y) as (_ & _ & H1 & H2 & _); auto. destruct (He7 z) as (_ & H3 & _ & _ & H4); auto.
      split; [congruence|]. split; [congruence|]. split; [congruence|]. split; [congruence|]. split; [intros b; rewrite Q7; congruence|].
      intros D g. pose proof Cs5 as (B1 & B2 & B3 & B4 & B5 & B6 & B7). cbn [up is_null fa C0]. rewrite bind_assoc, bind_rd by exact B1.
      assert (Hpick : (if ptr_eqb (lft s5 p) (Some z) then set_left (Some p) (Some y) else set_right (Some p) (Some y))
              = (match d with L => set_left (Some p) (Some y) | R => set_right (Some p) (Some y) end : @M T unit)).
      { destruct (Lr p Hpy) as (-> & _). rewrite ptr_eqb_sym. eapply pick_child. exact F. }
      rewrite Hpick. destruct d; [unfold set_left|unfold set_right]; rewrite bind_assoc, bind_wr by exact B1; apply bind_ok; exact E7. }
  destruct H6 as (s6 & S6 & Cs6 & Tl6 & Tr6 & L6 & R6 & P6 & Cz6 & N6 & Hrun6).
  rewrite bind_assoc, Hrun6. clear Hrun6.
  assert (Az6 : alive s6 z = true) by now rewrite (same_alive _ _ z S6).
  assert (Ay6 : alive s6 y = true) by now rewrite (same_alive _ _ y S6).
  rewrite bind_assoc, bind_rd by exact Az6. rewrite Cz6. rewrite bind_assoc, bind_wr by exact Ay6.
  set (s7 := set_col y c s6). assert (Az7 : alive s7 z = true) by exact Az6.
  rewrite bind_assoc, bind_rd by exact Az7. change (par s7 z) with (par s6 z). rewrite P6. unfold set_parent.
  assert (Ay7 : alive s7 y = true) by exact Ay6. rewrite bind_assoc, bind_wr by exact Ay7.
  set (s8 := set_par y (up C) s7).
  assert (Ty8 : tst s8 (N c l y r) (up C)).
  { assert (Hey : forall b, b <> y -> eq_at s6 s8 b) by (intros b Hb; unfold s8, s7; repeat split; cbn; now apply upd_neq).
    repeat split; auto; try (unfold s8, s7; cbn; apply upd_eq).
    - eapply tst_frame; [|exact Tl6]. intros b Hb. apply Hey. intros ->; lia.
    - eapply tst_frame; [|exact Tr6]. intros b Hb. apply Hey. intros ->; lia. }
  assert (Cs8 : cst s8 C (match C with [] => Some z | _ => Some y end)).
  { eapply cst_frame; [| |exact Cs6]; [|reflexivity]. intros b Hb. specialize (Hcy' b Hb). unfold s8, s7; repeat split; cbn; now apply upd_neq. }
  assert (N8 : forall b, cnt s8 b = cnt s5 b) by exact N6.
  assert (Tc8 : tct s8 (N c l y r)).
  { cbn [tct]. rewrite N8, N5. split; [exact Cy|]. destruct Tc5 as [H1 H2]. split; [eapply tct_frame; [|exact H1]|eapply tct_frame; [|exact H2]]; intros; apply N8. }
  assert (Cc8 : cct s8 C (sz l + sz r + 1)) by (eapply cct_frame; [|exact Cc5]; intros; apply N8).
  assert (S8 : same s s8). { eapply same_trans; [exact S5|]. eapply same_trans; [exact S6|]. repeat split. }
  assert (Hnd8 : forall b, tm (N c l y r) b + cm C b <= 1).
  { intros b. specialize (Hnd b). cbn [tm]. destruct (Nat.eqb_spec y b); [subst b|destruct (z =? b)]; lia. }
  assert (Hfr8 : forall b, 1 <= tm (N c l y r) b + cm C b -> b < fresh s).
  { intros b Hb. pose proof (ffr _ _ _ F b). cbn [tm] in *. destruct (Nat.eqb_spec y b); [subst b; auto|]. destruct (z =? b); lia. }
  clearbody s8. clear s7 Az7 Ay7.
  destruct C as [|[d cc p sb] C].
  - exists (set_root (Some y) s8). cbn [up is_null]. rewrite bind_ret.
    split; [|split].
    + change (bind get_root ?k' s8) with (k' (root s8) s8). simpl in Cs8. rewrite bind_assoc.
      change (bind get_root ?k' s8) with (k' (root s8) s8). cbv beta. rewrite Cs8. cbn [ptr_eqb]. rewrite Nat.eqb_refl. reflexivity.
    + eapply same_trans; [exact S8|]. repeat split.
    + split; auto.
      * eapply tst_frame; [|exact Ty8]. intros; repeat split.
      * reflexivity.
      * eapply tct_frame; [|exact Tc8]. reflexivity.
      * intros b Hb. cbn [fresh set_root]. destruct S8 as (_ & _ & _ & ->). auto.
  - set (C0 := Fr d cc p sb :: C) in *. cbn [up is_null fa C0].
    pose proof Cs8 as (D1 & D2 & D3 & D4 & D5 & D6 & D7). pose proof Cc8 as (K1 & K2 & K3). cbn [fa fs] in *.
    assert (Hpp : cm C0 p = 1 + cm C p + tm sb p) by (cbn [cm fa fs C0]; rewrite Nat.eqb_refl; lia).
    assert (Hpy : p <> y) by (apply Hcy'; lia). pose proof (Hnd8 p) as Hndp.
    assert (Hoky : cok s8 p (Some y) (sz l + sz r + 1)).
    { cbn [cok]. split; [rewrite (same_alive _ _ y S8); exact Ay|]. split; [auto|]. rewrite N8, N5. lia. }
    assert (Hoks : cok s8 p (ptr sb) (sz sb)). { eapply cok_tree; eauto; lia. }
    assert (Hnoop : exists s9, update_count (Some p) s8 = Ok (s9, tt) /\ ceq s8 s9).
    { destruct d; cbn [child opp] in *.
      - apply (update_count_noop s8 p (sz l + sz r + 1) (sz sb)); [exact D1|now rewrite D3|now rewrite D4|exact K1].
      - apply (update_count_noop s8 p (sz sb) (sz l + sz r + 1)); [exact D1|now rewrite D4|now rewrite D3|lia]. }
    destruct Hnoop as (s9 & E9 & O9 & Q9). pose proof O9 as (S9 & Rt9 & _).
    exists s9. split; [|split].
    + rewrite (bind_ok _ _ _ _ _ E9). rewrite bind_assoc.
      change (bind get_root ?k' s9) with (k' (root s9) s9). cbv beta. rewrite ptr_eqb_neq; [reflexivity|].
      intros Hz. assert (1 <= cm C0 z).
      { eapply cst_root_cm; [discriminate|exact Cs8|]. congruence. }
      pose proof (Hnd z) as H'. rewrite Nat.eqb_refl in H'. lia.
    + eapply same_trans; eauto.
    + split; auto.
      * eapply tst_frame; [|exact Ty8]. intros b _. now apply cnt_only_eq_at.
      * eapply cst_frame; [| |exact Cs8]; [|exact Rt9]. intros b _. now apply cnt_only_eq_at.
      * eapply tct_frame; [|exact Tc8]. auto.
      * eapply cct_frame; [|exact Cc8]. auto.
      * intros b Hb. destruct S9 as (_ & _ & _ & ->). destruct S8 as (_ & _ & _ & ->). auto.
Qed.

Lemma bind_ext {A B} (m : @M T A) (f g : A -> @M T B) s : (forall a s1, f a s1 = g a s1) -> bind m f s = bind m g s.
Proof. intros H. unfold bind. destruct (m s) as [[s1 a]| |]; auto. Qed.

Definition remove_node' (z : option nat) : @M T unit :=
  zl <- rd lft z ;;
  zr <- rd rgt z ;;
  y <- (if is_null zl || is_null zr then ret z else get_successor z) ;;
  x <- splice y ;;
  (if ptr_eqb y z then ret tt
   else copy_from y z ;;; r <- get_root ;; if ptr_eqb z r then put_root y else ret tt) ;;;
  yc <- rd col y ;;
  (if negb (is_red yc) && negb (is_null x) then balance_after_remove x else ret tt) ;;;
  destroy_node z.

Lemma remove_node_eq z s : remove_node z s = remove_node' z s.
Proof.
  unfold remove_node, remove_node'. do 3 (apply bind_ext; intros ? ?). unfold splice.
  rewrite bind_assoc. apply bind_ext; intros ? ?. rewrite bind_assoc. apply bind_ext; intros ? ?.
  rewrite bind_assoc. apply bind_ext; intros ? ?. rewrite bind_assoc. apply bind_ext; intros ? ?.
  rewrite bind_assoc. apply bind_ext; intros ? ?. rewrite bind_ret. reflexivity.
Qed.

Lemma foc_val s s' t C : par s' = par s -> lft s' = lft s -> rgt s' = rgt s -> col s' = col s -> cnt s' = cnt s ->
  root s' = root s -> fresh s' = fresh s -> (forall b, 1 <= tm t b + cm C b -> alive s' b = alive s b) ->
  foc s t C -> foc s' t C.
Proof.
  intros H1 H2 H3 H4 H5 H6 H7 H8 [A1 A2 A3 A4 A5 A6]. split; auto.
  - eapply tst_frame; [|exact A1]. intros b Hb. unfold eq_at. rewrite H1, H2, H3, H4, H8 by lia. auto.
  - eapply cst_frame; [| |exact A2]; auto. intros b Hb. unfold eq_at. rewrite H1, H2, H3, H4, H8 by lia. auto.
  - eapply tct_frame; [|exact A4]. intros; congruence.
  - eapply cct_frame; [|exact A5]. intros; congruence.
  - intros b Hb. rewrite H7. auto.
Qed.

Lemma destroy_ok s t l1 z l2 :
  foc s t [] -> ino t = l1 ++ l2 -> ~ In z (l1 ++ l2) -> alive s z = true -> lnk s (l1 ++ z :: l2) ->
  exists s', destroy_node (Some z) s = Ok (s', tt) /\ foc s' t [] /\ lnk s' (ino t) /\
    val s' = upd (val s) z None /\ fresh s' = fresh s.
Proof.
  intros F Hi Hz Az Hl.
  destruct (lnk_exclude s l1 l2 z) as (s1 & E1 & O1 & K1); auto.
  - pose proof (foc_nodup _ _ F) as Hn. rewrite Hi in Hn. apply NoDup_Add with (a := z) (l := l1 ++ l2); auto. apply Add_app.
  - intros a Ha. assert (Ha' : a = z \/ In a (l1 ++ l2)). { apply in_app_iff in Ha. simpl in Ha. rewrite in_app_iff. intuition. }
    destruct Ha' as [->|Ha']; auto. eapply foc_all_alive; [exact F|]. now rewrite Hi.
  - exists (set_val z None s1). pose proof (foc_lonly _ _ _ _ O1 F) as F1. destruct O1 as (_ & _ & _ & _ & _ & _ & V1 & G1).
    split; [|split; [|split; [|split]]].
    + unfold destroy_node. rewrite (bind_ok _ _ _ _ _ E1). unfold alive. rewrite V1. unfold alive in Az. now rewrite Az.
    + eapply foc_val; [..|exact F1]; try reflexivity. intros b Hb. unfold alive. cbn [val set_val]. rewrite upd_neq; auto.
      intros ->. apply Hz. rewrite <- Hi. apply tm_In. simpl in Hb. lia.
    + rewrite Hi. eapply chain_frame; [| |exact K1]; reflexivity.
    + cbn. now rewrite V1.
    + exact G1.
Qed.

Lemma rm_core_ok s c l z r C :
  foc s (N c l z r) C -> rb (plug (N c l z r) C) -> lnk s (ino (plug (N c l z r) C)) ->
  exists s' t', remove_node (Some z) s = Ok (s', tt) /\ Core s' t' /\
    ino t' = (cpre C ++ ino l) ++ ino r ++ cpost C /\ val s' = upd (val s) z None /\ fresh s' = fresh s.
Proof.
  intros F Hrb Hlnk. rewrite remove_node_eq. unfold remove_node'.
  pose proof (foc_node s L _ _ _ _ _ F) as (A1 & A2 & A3 & A4 & A5). cbn [child opp] in *.
  rewrite bind_rd by exact A1. rewrite bind_rd by exact A1. rewrite A3, A4.
  assert (Hi0 : ino (plug (N c l z r) C) = (cpre C ++ ino l) ++ z :: ino r ++ cpost C).
  { rewrite ino_plug. simpl. rewrite <- ?app_assoc. simpl. rewrite <- ?app_assoc. reflexivity. }
  assert (HndAll : NoDup ((cpre C ++ ino l) ++ z :: ino r ++ cpost C)).
  { rewrite <- Hi0. apply (foc_nodup s). apply (foc_plug s (N c l z r) C). exact F. }
  assert (HzN : ~ In z ((cpre C ++ ino l) ++ ino r ++ cpost C)) by (eapply NoDup_remove_2; exact HndAll).
  (* both cases end with: a state in which the tree no longer contains z *)
  assert (Hmain : exists s2 t', same s s2 /\ foc s2 t' [] /\ rb t' /\ ino t' = (cpre C ++ ino l) ++ ino r ++ cpost C /\
    bind (if is_null (ptr l) || is_null (ptr r) then ret (Some z) else get_successor (Some z))
     (fun y => x <- splice y ;;
        (if ptr_eqb y (Some z) then ret tt
         else copy_from y (Some z) ;;; r <- get_root ;; if ptr_eqb (Some z) r then put_root y else ret tt) ;;;
        yc <- rd col y ;;
        (if negb (is_red yc) && negb (is_null x) then balance_after_remove x else ret tt) ;;;
        destroy_node (Some z)) s = destroy_node (Some z) s2).
  { assert (Hcase : (l = E \/ r = E) \/ (l <> E /\ r <> E)).
    { destruct l; [left; auto|]. destruct r; [left; auto|]. right. split; discriminate. }
    destruct Hcase as [Hlr|[Hl Hr]].
    - (* at most one child *)
      assert (Hy : forall B (k : option nat -> @M T B), bind (if is_null (ptr l) || is_null (ptr r) then ret (Some z) else get_successor (Some z)) k s = k (Some z) s).
      { intros B k. destruct Hlr as [->| ->]; cbn [ptr is_null]; rewrite ?orb_true_r; reflexivity. }
      rewrite Hy. destruct (splice_ok _ _ _ _ _ _ F Hlr) as (s1 & E1 & S1 & F1 & Co1).
      rewrite (bind_ok _ _ _ _ _ E1). cbn beta. rewrite ptr_eqb_refl, bind_ret.
      assert (Az1 : alive s1 z = true) by now rewrite (same_alive _ _ z S1).
      rewrite bind_rd by exact Az1. rewrite Co1, A5.
      set (xt := only_child l r) in *.
      assert (Hix : ino xt = ino l ++ ino r).
      { unfold xt, only_child. destruct Hlr as [->| ->]; simpl; auto. destruct l; simpl; auto. now rewrite app_nil_r. }
      assert (Hip : ino (plug xt C) = (cpre C ++ ino l) ++ ino r ++ cpost C).
      { rewrite ino_plug, Hix, <- !app_assoc. reflexivity. }
      destruct xt as [|xc xl xa xr] eqn:Ex.
      + exists s1, (plug E C). cbn [ptr is_null negb]. rewrite andb_false_r, bind_ret. split; auto. split; [now apply (proj1 (foc_plug _ _ _))|].
        split; [|split; auto]. apply topb_rb; [eapply rb_topb'; eauto|]. intros; exact I.
      + cbn [ptr is_null negb]. rewrite andb_true_r. destruct c.
        * (* a red node: not the root *)
          cbn [is_red negb]. exists s1, (plug (N xc xl xa xr) C). rewrite bind_ret. split; auto. split; [now apply (proj1 (foc_plug _ _ _))|].
          split; [|split; auto]. apply topb_rb; [eapply rb_topb'; eauto|]. intros ->. simpl in Hrb. discriminate.
        * cbn [is_red negb]. destruct (balance_after_remove_ok s1 xc xl xa xr C (fun _ => destroy_node (Some z)) F1) as (s2 & t' & E2 & S2 & F2 & I2 & R2).
          { eapply rb_topb'; eauto. }
          exists s2, t'. split; [eapply same_trans; eauto|]. split; auto. split; [exact R2|]. split; [congruence|exact E2].
    - (* two children *)
      pose proof (foc_length _ _ _ F) as Hlen. cbn [sz] in Hlen.
      assert (Hfr : foc s r (Fr R c z l :: C)) by (apply (proj1 (foc_zip s R c r z l C)); exact F).
      destruct (go_left_ok s r (S (fresh s)) _ ltac:(lia) Hfr Hr) as (cy & y & yr & Cr & Eg & Er & Hc0).
      assert (Hy : forall B (k : option nat -> @M T B), bind (if is_null (ptr l) || is_null (ptr r) then ret (Some z) else get_successor (Some z)) k s = k (Some y) s).
      { intros B k. destruct l as [|lc ll la lr]; [congruence|]. destruct r as [|rc rl ra rr]; [congruence|]. cbn [ptr is_null orb].
        apply bind_ok. unfold get_successor. rewrite bind_rd by exact A1. rewrite A4. exact Eg. }
      rewrite Hy. rewrite Er in Hfr. apply foc_app in Hfr.
      destruct (splice_ok _ _ _ _ _ _ Hfr (or_introl eq_refl)) as (s1 & E1 & S1 & F1 & Co1). cbn [only_child] in *.
      rewrite (bind_ok _ _ _ _ _ E1). cbn beta.
      assert (Hyz : y <> z /\ tm (N c l z (plug yr Cr)) y = 0 /\ cm C y = 0).
      { pose proof (fnd _ _ _ F y) as H. rewrite Er in H. cbn [tm] in H |- *. rewrite !tm_plug in *. cbn [tm] in H.
        rewrite Nat.eqb_refl in H. destruct (Nat.eqb_spec z y); lia. }
      destruct Hyz as (Hyz & Hyt & Hyc). rewrite ptr_eqb_neq by congruence.
      apply foc_app in F1. apply (proj2 (foc_zip s1 R c (plug yr Cr) z l C)) in F1. cbn [mkN] in F1.
      assert (Ay1 : alive s1 y = true). { rewrite (same_alive _ _ y S1). now apply (foc_node s L) in Hfr as (H & _). }
      assert (Hyf : y < fresh s1). { destruct S1 as (_ & _ & _ & ->). apply (ffr _ _ _ Hfr). cbn [tm]. rewrite Nat.eqb_refl. lia. }
      match goal with |- context [bind (bind (copy_from _ _) _) ?k s1] =>
        destruct (replace_ok s1 c l z (plug yr Cr) C y k F1 Ay1 Hyt Hyc Hyf) as (s2 & E2 & S2 & F2) end.
      rewrite E2. clear E2.
      pose proof (foc_node s2 L _ _ _ _ _ F2) as (B1 & B2 & B3 & B4 & B5). cbn [child opp] in *.
      rewrite bind_rd by exact B1. rewrite B5.
      assert (Hip : ino (plug (N c l y (plug yr Cr)) C) = (cpre C ++ ino l) ++ ino r ++ cpost C).
      { rewrite ino_plug. cbn [ino]. rewrite Er, (ino_plug (N cy E y yr) Cr), (ino_plug yr Cr), Hc0. simpl. rewrite <- ?app_assoc. simpl. rewrite <- ?app_assoc. reflexivity. }
      assert (Hrb2 : rb (plug (N c l y (plug yr Cr)) C)).
      { apply topb_rb; [eapply rb_topb'; eauto|]. intros ->. exact Hrb. }
      assert (S02 : same s s2) by (eapply same_trans; eauto).
      destruct (negb (is_red c) && negb (is_null (ptr yr))) eqn:Eb.
      + destruct yr as [|xc xl xa xr]; [cbn [ptr is_null negb] in Eb; rewrite andb_false_r in Eb; discriminate|].
        assert (F3 : foc s2 (N xc xl xa xr) (Cr ++ Fr R c y l :: C)).
        { apply foc_app. apply (proj1 (foc_zip s2 R c (plug (N xc xl xa xr) Cr) y l C)). exact F2. }
        assert (Hpp : plug (N xc xl xa xr) (Cr ++ Fr R c y l :: C) = plug (N c l y (plug (N xc xl xa xr) Cr)) C).
        { clear. generalize (N xc xl xa xr). induction Cr as [|f Cr IH]; intros t; simpl; auto. }
        destruct (balance_after_remove_ok s2 xc xl xa xr (Cr ++ Fr R c y l :: C) (fun _ => destroy_node (Some z)) F3) as (s3 & t' & E3 & S3 & F4 & I3 & R3).
        { apply (rb_topb' (N xc xl xa xr)). rewrite Hpp. exact Hrb2. }
        exists s3, t'. cbn [ptr] in *. split; [eapply same_trans; eauto|]. split; auto. split; [exact R3|]. split; [congruence|exact E3].
      + exists s2, (plug (N c l y (plug yr Cr)) C). rewrite bind_ret. split; auto. split; [now apply (proj1 (foc_plug _ _ _))|]. auto. }
  destruct Hmain as (s2 & t' & S2 & F2 & R2 & I2 & ->).
  destruct (destroy_ok s2 t' (cpre C ++ ino l) z (ino r ++ cpost C) F2 I2 HzN) as (s3 & E3 & F3 & K3 & V3 & G3).
  - now rewrite (same_alive _ _ z S2).
  - eapply lnk_same; [exact S2|]. rewrite <- Hi0. exact Hlnk.
  - exists s3, t'. split; auto. split; [split; auto|]. split; auto. split.
    + rewrite V3. destruct S2 as (-> & _). reflexivity.
    + rewrite G3. apply S2.
Qed.

Lemma remove_node_ok s t l1 z l2 : Core s t -> ino t = l1 ++ z :: l2 ->
  exists s' t', remove_node (Some z) s = Ok (s', tt) /\ Core s' t' /\ ino t' = l1 ++ l2 /\
    val s' = upd (val s) z None /\ fresh s' = fresh s.
Proof.
  intros [F R K] Hi. assert (Hin : In z (ino t)) by (rewrite Hi; apply in_or_app; right; now left).
  destruct (locate _ _ Hin) as (c & l & r & C & ->).
  destruct (rm_core_ok s c l z r C) as (s' & t' & E1 & E2 & E3 & E4 & E5); auto. { now apply (proj2 (foc_plug _ _ _)). }
  exists s', t'. split; auto. split; auto. split; auto.
  pose proof (foc_nodup _ _ F) as Hn. rewrite Hi in Hn. rewrite ino_plug in Hi. cbn [ino] in Hi.
  assert (He : (cpre C ++ ino l) ++ z :: ino r ++ cpost C = l1 ++ z :: l2) by (rewrite <- Hi, <- !app_assoc; reflexivity).
  symmetry in He. apply nodup_split in He as [-> ->]; auto.
Qed.

(** *** create_node and clear *)
Lemma In_removelast {A} (k : A) l : In k (removelast l) -> In k l.
Proof.
  induction l as [|a l IH]; auto. destruct l as [|b l]; [intros []|]. intros [->|H]; [now left|right; auto].
Qed.

Lemma create_ok s t v : Core s t -> exists s', create_node v s = Ok (s', fresh s) /\ Core s' t /\
  val s' = upd (val s) (fresh s) (Some v) /\ fresh s' = S (fresh s) /\
  lft s' (fresh s) = None /\ rgt s' (fresh s) = None /\ cnt s' (fresh s) = 0 /\ nxt s' (At (fresh s)) = None.
Proof.
  intros [F R K]. unfold create_node. cbv zeta.
  match goal with |- exists s', Ok (?x, _) = _ /\ _ => exists x end. split; [reflexivity|]. cbn [val fresh lft rgt cnt nxt].
  assert (Hneq : forall b, 1 <= tm t b -> b <> fresh s). { intros b Hb ->. pose proof (ffr _ _ _ F (fresh s)). simpl in *. lia. }
  split; [split; auto|].
  - destruct F as [A1 A2 A3 A4 A5 A6]. split; auto.
    + eapply tst_frame; [|exact A1]. intros b Hb. specialize (Hneq b Hb). unfold eq_at, alive. cbn. rewrite !upd_neq by auto. auto.
    + eapply tct_frame; [|exact A4]. intros b Hb. specialize (Hneq b Hb). cbn. now rewrite upd_neq.
    + intros b Hb. specialize (A6 b Hb). cbn. lia.
  - assert (Hk : forall k, In k (ring (ino t)) -> k <> At (fresh s)).
    { intros k Hk ->. destruct Hk as [Hk|Hk]; [discriminate|]. apply in_app_iff in Hk as [Hk|[Hk|[]]]; [|discriminate].
      apply In_At in Hk. apply tm_In in Hk. apply Hneq in Hk. congruence. }
    eapply chain_frame; [| |exact K].
    + intros k Hin. apply updl_neq. apply Hk. apply In_removelast. exact Hin.
    + intros k Hin. apply updl_neq. apply Hk. now right.
  - rewrite !upd_eq, updl_eq. repeat split.
Qed.

Lemma destroy_new_ok s t a : Core s t -> ~ In a (ino t) -> alive s a = true -> nxt s (At a) = None ->
  exists s', destroy_node (Some a) s = Ok (s', tt) /\ Core s' t /\ val s' = upd (val s) a None /\ fresh s' = fresh s.
Proof.
  intros [F R K] Ha Al Hn. exists (set_val a None s). split; [|split; [split; auto|split; reflexivity]].
  - unfold destroy_node, link_safe_exclude. rewrite bind_assoc. rewrite bind_rd_link by exact Al. rewrite Hn, bind_ret. now rewrite Al.
  - eapply foc_val; [..|exact F]; try reflexivity. intros b Hb. unfold alive. cbn. rewrite upd_neq; auto.
    intros ->. apply Ha. apply tm_In. simpl in Hb. lia.
  - eapply chain_frame; [| |exact K]; reflexivity.
Qed.

Lemma clear_loop_ok l : forall s f, lnk s l -> NoDup l -> all_alive s l -> length l < f ->
  exists s', clear_loop f s = Ok (s', tt) /\ lnk s' [] /\ fresh s' = fresh s /\
    (forall a, val s' a = if existsb (Nat.eqb a) l then None else val s a).
Proof.
  induction l as [|a l IH]; intros s f K N Al Hf; (destruct f as [|f]; [simpl in Hf; lia|]); cbn [clear_loop].
  - pose proof K as K'. apply (lnk_nxt s [] []) in K' as [K' _]. rewrite bind_rd_link by reflexivity.
    change (nxt s Sentinel = Some Sentinel) in K'. rewrite K'. exists s. auto.
  - pose proof K as K'. apply (lnk_nxt s [] (a :: l)) in K' as [K' _]. rewrite bind_rd_link by reflexivity.
    change (nxt s Sentinel = Some (At a)) in K'. rewrite K'.
    destruct (lnk_exclude s [] l a K N Al) as (s1 & E1 & O1 & K1). destruct O1 as (_ & _ & _ & _ & _ & _ & V1 & G1).
    assert (Aa : alive s1 a = true) by (unfold alive; rewrite V1; apply Al; now left).
    inversion N as [|? ? Ha N']; subst.
    destruct (IH (set_val a None s1) f) as (s2 & E2 & K2 & G2 & V2).
    + eapply chain_frame; [| |exact K1]; reflexivity.
    + exact N'.
    + intros b Hb. unfold alive. cbn [val set_val]. rewrite upd_neq by (intros ->; contradiction). rewrite V1. apply Al. now right.
    + simpl in Hf. lia.
    + exists s2. split; [|split; [|split]]; auto.
      * unfold destroy_node. rewrite bind_assoc. cbn [app] in E1. rewrite (bind_ok _ _ _ _ _ E1).
        unfold bind at 1. rewrite Aa. exact E2.
      * rewrite G2. exact G1.
      * intros b. rewrite V2. cbn [val set_val existsb]. unfold upd. rewrite V1. destruct (b =? a) eqn:Eb; simpl.
        -- destruct (existsb (Nat.eqb b) l); auto.
        -- reflexivity.
Qed.

Lemma clear_ok s t : Core s t -> exists s', clear s = Ok (s', tt) /\ Core s' E /\ fresh s' = fresh s /\
    (forall a, val s' a = if existsb (Nat.eqb a) (ino t) then None else val s a).
Proof.
  intros [F R K]. destruct (clear_loop_ok (ino t) s (S (fresh s))) as (s1 & E1 & K1 & G1 & V1); auto.
  - eapply foc_nodup; eauto.
  - now apply foc_all_alive.
  - pose proof (foc_len _ _ F). lia.
  - exists (set_root None s1). split; [|split; [|split]]; auto.
    + unfold clear. assert (E1' : fuelled clear_loop s = Ok (s1, tt)) by exact E1. rewrite (bind_ok _ _ _ _ _ E1'). reflexivity.
    + split; [split|exact I|]; simpl; auto.
      intros b Hb. lia.
Qed.
End Ops.
