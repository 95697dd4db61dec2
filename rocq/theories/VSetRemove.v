(** BalanceAfterRemove on ghost trees: it always terminates without touching a null
    pointer, keeps the in-order sequence and the black root. *)
From Verif Require Import Common VSetModel VSetTree VSetRotate VSetInsert.
From Coq Require Import ZifyBool ZifyNat.

Section Remove.
Context {T : Type}.
Implicit Types (s : st T).

Definition brl_body (d : dir) (f : nat) (x xp : option nat) : @M T (option nat) :=
  w <- rd (child (opp d)) xp ;;
  if is_null w then balance_remove_loop f xp else
  wc <- rd col w ;;
  w <- (if is_red wc then
          wr set_col w Black ;;;
          wr set_col xp Red ;;;
          rotate d xp ;;;
          xp <- rd par x ;; rd (child (opp d)) xp
        else ret w) ;;
  if is_null w then xp <- rd par x ;; balance_remove_loop f xp else
  wn <- rd (child d) w ;;
  wf <- rd (child (opp d)) w ;;
  bn <- black_or_null wn ;;
  bf <- black_or_null wf ;;
  if bn && bf then
    wr set_col w Red ;;;
    xp <- rd par x ;;
    balance_remove_loop f xp
  else
    w <- (if bf : bool then
            (if is_null wn then ret tt else wr set_col wn Black) ;;;
            wr set_col w Red ;;;
            rotate (opp d) w ;;;
            xp <- rd par x ;; rd (child (opp d)) xp
          else ret w) ;;
    xp <- rd par x ;;
    pc <- rd col xp ;;
    wr set_col w pc ;;;
    wr set_col xp Black ;;;
    wf <- rd (child (opp d)) w ;;
    (if is_null wf then ret tt else wr set_col wf Black) ;;;
    rotate d xp ;;;
    r <- get_root ;;
    balance_remove_loop f r.

Lemma brl_unfold f x :
  balance_remove_loop (T:=T) (S f) x =
      (r <- get_root ;;
      if ptr_eqb x r then ret x else
      xc <- rd col x ;;
      if is_red xc then ret x else
      xp <- rd par x ;;
      xpl <- rd lft xp ;;
      if ptr_eqb x xpl then brl_body L f x xp else brl_body R f x xp).
Proof. reflexivity. Qed.

(** The loop stops at once at the root and at a red node. *)
Lemma brl_stop f s c l x r C :
  foc s (N c l x r) C -> C = [] \/ c = Red ->
  balance_remove_loop (S f) (Some x) s = Ok (s, Some x).
Proof.
  intros F H. rewrite brl_unfold. change (bind get_root ?k s) with (k (root s) s). cbv beta.
  rewrite (foc_at_root _ _ _ _ _ _ F). destruct C as [|fr C]; [reflexivity|].
  destruct H as [H|H]; [discriminate|]. subst c.
  pose proof (foc_node s L _ _ _ _ _ F) as (A1 & _ & _ & _ & A5).
  rewrite bind_rd by exact A1. rewrite A5. reflexivity.
Qed.

Lemma pick_child {B} s c l x r d cp p sb C (k1 k2 : @M T B) :
  foc s (N c l x r) (Fr d cp p sb :: C) ->
  (if ptr_eqb (Some x) (lft s p) then k1 else k2) = match d with L => k1 | R => k2 end.
Proof.
  intros F. pose proof (foc_frame _ _ _ _ _ _ _ F) as (B1 & B2 & B3 & B4 & B5).
  destruct d; cbn [child opp] in *.
  - rewrite B3. simpl ptr. rewrite ptr_eqb_refl. reflexivity.
  - rewrite B4, ptr_eqb_neq; auto. intros HH. symmetry in HH. revert HH. apply ptr_neq_tm.
    pose proof (fnd _ _ _ F x) as Hn. simpl in Hn. rewrite Nat.eqb_refl in Hn. lia.
Qed.

Lemma bon_run {B} s t p (k : bool -> @M T B) : tst s t p -> bind (black_or_null (ptr t)) k s = k (negb (is_redt t)) s.
Proof.
  intros H. destruct t as [|c l a r]; simpl ptr; unfold black_or_null; cbn [is_null].
  - reflexivity.
  - destruct H as (Ha & _ & _ & _ & Hc & _). rewrite bind_assoc, bind_rd by exact Ha.
    rewrite Hc. destruct c; reflexivity.
Qed.

(** What the loop is allowed to do. *)
Definition brl_post s (m : res (st T * option nat)) (t : tree) : Prop :=
  exists s' c l x r C, m = Ok (s', Some x) /\ same s s' /\ foc s' (N c l x r) C /\
    ino (plug (N c l x r) C) = ino t /\ topb C.

Lemma brl_post_trans s s1 m t t1 : same s s1 -> ino t1 = ino t -> brl_post s1 m t1 -> brl_post s m t.
Proof.
  intros S E (s' & c & l & x & r & C & A1 & A2 & A3 & A4 & A5). exists s', c, l, x, r, C.
  split; [exact A1|]. split; [eapply same_trans; eauto|]. split; [exact A3|]. split; [congruence|exact A5].
Qed.

Lemma brl_stop_post f s c l x r C :
  foc s (N c l x r) C -> C = [] \/ c = Red -> topb C ->
  brl_post s (balance_remove_loop (S f) (Some x) s) (plug (N c l x r) C).
Proof.
  intros F H Ht. exists s, c, l, x, r, C. rewrite (brl_stop f s c l x r C F H).
  repeat split; auto; apply F.
Qed.

Lemma mkN_ex d c l a r : exists l' r', mkN d c l a r = N c l' a r'.
Proof. destruct d; simpl; eauto. Qed.

Lemma stop_root f s t : foc s t [] -> t <> E ->
  brl_post s (bind get_root (fun r => balance_remove_loop (S f) r) s) t.
Proof.
  intros F Hne. destruct t as [|c l a r]; [congruence|].
  change (bind get_root ?k s) with (k (root s) s). cbv beta.
  pose proof (fx _ _ _ F) as Hr. simpl in Hr. rewrite Hr.
  apply (brl_stop_post f s c l a r []); auto. exact I.
Qed.

Lemma plug_ne t C : t <> E -> plug t C <> E.
Proof.
  revert t. induction C as [|f C IH]; intros t H; simpl; auto. apply IH. unfold plug1. destruct (fd f); discriminate.
Qed.

Lemma topb_tl f C : topb (f :: C) -> topb C.
Proof. destruct C; simpl; auto. Qed.
Lemma topb_cons f C : fc f = Black -> topb C -> topb (f :: C).
Proof. destruct C; simpl; auto. Qed.
Lemma topb_cons2 f g C : topb (g :: C) -> topb (f :: g :: C).
Proof. auto. Qed.
Lemma topb_hd f g C : topb (f :: C) -> fc g = fc f -> topb (g :: C).
Proof. destruct C; simpl; [congruence|auto]. Qed.

(** The second half of the body: sibling w is a black node. *)
Definition brl_tail (d : dir) (f : nat) (x w : option nat) : @M T (option nat) :=
  if is_null w then xp <- rd par x ;; balance_remove_loop f xp else
  wn <- rd (child d) w ;;
  wf <- rd (child (opp d)) w ;;
  bn <- black_or_null wn ;;
  bf <- black_or_null wf ;;
  if bn && bf then
    wr set_col w Red ;;;
    xp <- rd par x ;;
    balance_remove_loop f xp
  else
    w <- (if bf : bool then
            (if is_null wn then ret tt else wr set_col wn Black) ;;;
            wr set_col w Red ;;;
            rotate (opp d) w ;;;
            xp <- rd par x ;; rd (child (opp d)) xp
          else ret w) ;;
    xp <- rd par x ;;
    pc <- rd col xp ;;
    wr set_col w pc ;;;
    wr set_col xp Black ;;;
    wf <- rd (child (opp d)) w ;;
    (if is_null wf then ret tt else wr set_col wf Black) ;;;
    rotate d xp ;;;
    r <- get_root ;;
    balance_remove_loop f r.

(** The last block: w's far child is a (red) node. *)
Definition brl_last (d : dir) (f : nat) (x w : option nat) : @M T (option nat) :=
    xp <- rd par x ;;
    pc <- rd col xp ;;
    wr set_col w pc ;;;
    wr set_col xp Black ;;;
    wf <- rd (child (opp d)) w ;;
    (if is_null wf then ret tt else wr set_col wf Black) ;;;
    rotate d xp ;;;
    r <- get_root ;;
    balance_remove_loop f r.

Lemma brl_last_ok f s t x d cp p cw wn w wf C :
  foc s (mkN d cp t p (mkN d cw wn w wf)) C -> ptr t = Some x ->
  brl_post s (brl_last d (S f) (Some x) (Some w) s) (plug (mkN d cp t p (mkN d cw wn w wf)) C).
Proof.
  intros F Hx.
  assert (Hax : alive s x = true /\ par s x = Some p).
  { apply foc_zip in F. pose proof (ft _ _ _ F) as Ht. destruct t as [|ct tl tx tr]; [discriminate|].
    injection Hx as ->. simpl in Ht. tauto. }
  destruct Hax as [Hax Hpx].
  pose proof (foc_node _ _ _ _ _ _ _ F) as (P1 & P2 & P3 & P4 & P5). rewrite ptr_mkN in P4.
  unfold brl_last. rewrite bind_rd by exact Hax. rewrite Hpx. rewrite bind_rd by exact P1. rewrite P5.
  (* w takes the parent's colour *)
  pose proof F as F1. rewrite <- (mkN_opp d cp) in F1. apply (proj1 (foc_zip _ _ _ _ _ _ _)) in F1.
  destruct (foc_col_mk s d cw cp _ _ _ _ F1) as (W1 & F2 & S2).
  rewrite bind_wr by exact W1. set (sa := set_col w cp s) in *.
  apply (proj2 (foc_zip _ _ _ _ _ _ _)) in F2. rewrite mkN_opp in F2.
  destruct (foc_col_mk sa d cp Black _ _ _ _ F2) as (P1' & F3 & S3).
  rewrite bind_wr by exact P1'. set (sb := set_col p Black sa) in *.
  pose proof F3 as F4. rewrite <- (mkN_opp d Black) in F4. apply (proj1 (foc_zip _ _ _ _ _ _ _)) in F4.
  pose proof (foc_node _ _ _ _ _ _ _ F4) as (W2 & W3 & W4 & W5 & W6).
  rewrite bind_rd by exact W2. rewrite W5.
  assert (Hwf : exists sc wf', same sb sc /\ foc sc (mkN d Black t p (mkN d cp wn w wf')) C /\ ino wf' = ino wf /\
     forall k : unit -> @M T (option nat), bind (if is_null (ptr wf) then ret tt else wr set_col (ptr wf) Black) k sb = k tt sc).
  { destruct wf as [|cf fl fx_ fr].
    - exists sb, E. split; [apply same_refl|]. split; [exact F3|]. split; reflexivity.
    - rewrite <- (mkN_opp d cp) in F4. apply (proj1 (foc_zip _ _ _ _ _ _ _)) in F4.
      destruct (foc_col sb cf Black _ _ _ _ F4) as (Y1 & F5 & S5).
      exists (set_col fx_ Black sb), (N Black fl fx_ fr). split; [exact S5|]. split.
      + apply (proj2 (foc_zip _ _ _ _ _ _ _)) in F5. rewrite mkN_opp in F5.
        apply (proj2 (foc_zip _ _ _ _ _ _ _)) in F5. rewrite mkN_opp in F5. exact F5.
      + split; [reflexivity|]. intros k. cbn [ptr is_null]. now rewrite bind_wr by exact Y1. }
  destruct Hwf as (sc & wf' & S5 & F5 & Ew & Hk). rewrite Hk.
  destruct (rotate_ok sc d Black t p cp wn w wf' C F5) as (sd & Ed & S6 & F6).
  rewrite (bind_ok _ _ _ _ _ Ed).
  eapply brl_post_trans; [| |apply (stop_root f sd (plug (mkN d cp (mkN d Black t p wn) w wf') C))].
  - eapply same_trans; [exact S2|]. eapply same_trans; [exact S3|]. eapply same_trans; [exact S5|]. exact S6.
  - rewrite !ino_plug. assert (He : ino (mkN d cp (mkN d Black t p wn) w wf') = ino (mkN d cp t p (mkN d cw wn w wf))).
    { destruct d; simpl; rewrite Ew, <- ?app_assoc; reflexivity. }
    rewrite <- He. reflexivity.
  - apply (proj1 (foc_plug _ _ _)). exact F6.
  - apply plug_ne. destruct d; discriminate.
Qed.

Lemma brl_tail_ok f s ct tl x tr d cp p wt C :
  foc s (N ct tl x tr) (Fr d cp p wt :: C) -> topb (Fr d cp p wt :: C) ->
  (forall s1 w1, foc s1 (mkN d cp (N ct tl x tr) p w1) C ->
     brl_post s1 (balance_remove_loop (S f) (Some p) s1) (plug (mkN d cp (N ct tl x tr) p w1) C)) ->
  brl_post s (brl_tail d (S f) (Some x) (ptr wt) s) (plug (N ct tl x tr) (Fr d cp p wt :: C)).
Proof.
  intros F Ht Hup.
  pose proof (foc_node s L _ _ _ _ _ F) as (A1 & A2 & _). simpl up in A2.
  unfold brl_tail. destruct wt as [|cw wl w wr_].
  { cbn [ptr is_null]. rewrite bind_rd by exact A1. rewrite A2. apply foc_zip in F. now apply Hup. }
  cbn [ptr is_null].
  pose proof (foc_sib _ _ _ _ _ _ _ F) as F1.
  rewrite (side_mkN d cw wl w wr_) in F1. set (wn := side d (N cw wl w wr_)) in *. set (wf := side (opp d) (N cw wl w wr_)) in *.
  pose proof (foc_node _ _ _ _ _ _ _ F1) as (W1 & W2 & W3 & W4 & W5).
  rewrite bind_rd by exact W1. rewrite bind_rd by exact W1. rewrite W3, W4.
  pose proof F1 as F1n. apply (proj1 (foc_zip _ _ _ _ _ _ _)) in F1n.
  pose proof F1 as F1f. rewrite <- (mkN_opp d cw) in F1f. apply (proj1 (foc_zip _ _ _ _ _ _ _)) in F1f.
  rewrite (bon_run s wn _ _ (ft _ _ _ F1n)). rewrite (bon_run s wf _ _ (ft _ _ _ F1f)).
  destruct (negb (is_redt wn) && negb (is_redt wf)) eqn:Hbb.
  - destruct (foc_col_mk s d cw Red _ _ _ _ F1) as (_ & F2 & S2).
    rewrite bind_wr by exact W1. set (sa := set_col w Red s) in *.
    apply foc_sib in F2. rewrite opp_opp in F2.
    pose proof (foc_node sa L _ _ _ _ _ F2) as (B1 & B2 & _). simpl up in B2.
    rewrite bind_rd by exact B1. rewrite B2.
    apply (proj2 (foc_zip _ _ _ _ _ _ _)) in F2.
    eapply brl_post_trans; [exact S2| |apply Hup; exact F2].
    cbn [plug]. unfold plug1. cbn [fd fc fa fs]. rewrite (side_mkN d cw wl w wr_). fold wn wf. rewrite !ino_plug.
    destruct d; reflexivity.
  - fold (brl_last d (S f) (Some x)).
    assert (Hlast : forall s1 cw1 wn1 w1 wf1, same s s1 -> ino (mkN d cw1 wn1 w1 wf1) = ino (mkN d cw wn w wf) ->
        foc s1 (mkN d cp (N ct tl x tr) p (mkN d cw1 wn1 w1 wf1)) C ->
        brl_post s (brl_last d (S f) (Some x) (Some w1) s1) (plug (N ct tl x tr) (Fr d cp p (N cw wl w wr_) :: C))).
    { intros s1 cw1 wn1 w1 wf1 HS HI HF. eapply brl_post_trans; [exact HS| |apply brl_last_ok; [exact HF|reflexivity]].
      cbn [plug]. unfold plug1. cbn [fd fc fa fs]. rewrite (side_mkN d cw wl w wr_). fold wn wf. rewrite !ino_plug.
      destruct d; simpl; simpl in HI; rewrite HI; reflexivity. }
    destruct (negb (is_redt wf)) eqn:Hf.
    + (* near child is red *)
      assert (Hn : is_redt wn = true) by (destruct (is_redt wn); auto).
      destruct wn as [|[] nl n nr] eqn:Ewn; try discriminate.
      cbn [ptr is_null].
      destruct (foc_col s Red Black _ _ _ _ F1n) as (N1 & F2 & S2).
      rewrite bind_assoc. rewrite bind_wr by exact N1. set (sa := set_col n Black s) in *.
      apply (proj2 (foc_zip _ _ _ _ _ _ _)) in F2.
      destruct (foc_col_mk sa d cw Red _ _ _ _ F2) as (W1' & F3 & S3).
      rewrite bind_assoc. rewrite bind_wr by exact W1'. set (sb := set_col w Red sa) in *.
      rewrite (side_mkN (opp d) Black nl n nr), opp_opp, <- (mkN_opp d Red) in F3.
      destruct (rotate_ok sb (opp d) Red _ w Black _ n _ _ F3) as (sc & Ec & S4 & F4).
      rewrite bind_assoc. rewrite (bind_ok _ _ _ _ _ Ec).
      pose proof F4 as F5. apply foc_sib in F5. rewrite opp_opp in F5.
      pose proof (foc_node sc L _ _ _ _ _ F5) as (B1 & B2 & _). simpl up in B2.
      rewrite bind_assoc. rewrite bind_rd by exact B1. rewrite B2.
      pose proof (foc_frame _ _ _ _ _ _ _ F5) as (C1 & C2 & C3 & C4 & C5). rewrite ptr_mkN in C4.
      rewrite bind_rd by exact C1. rewrite C4.
      apply (proj2 (foc_zip _ _ _ _ _ _ _)) in F5. rewrite (mkN_opp d Black) in F5.
      eapply Hlast; [| |exact F5].
      * eapply same_trans; [exact S2|]. eapply same_trans; [exact S3|]. exact S4.
      * destruct d; simpl; repeat (rewrite <- ?app_assoc; simpl); reflexivity.
    + rewrite bind_ret. apply Hlast with (cw1 := cw) (wn1 := wn) (wf1 := wf); [apply same_refl|reflexivity|].
      apply (proj2 (foc_zip _ _ _ _ _ _ _)) in F1. rewrite (mkN_opp d cp) in F1. exact F1.
Qed.

Lemma brl_ok n : forall f s c l x r C,
  length C <= n -> n < f -> foc s (N c l x r) C -> topb C ->
  brl_post s (balance_remove_loop (S f) (Some x) s) (plug (N c l x r) C).
Proof.
  induction n as [n IH] using lt_wf_ind. intros f s c l x r C Hn Hf F Ht.
  destruct f as [|f]; [lia|].
  destruct C as [|[d cp p sb] C].
  { apply brl_stop_post; auto. }
  destruct c.
  { apply brl_stop_post; auto. }
  pose proof (foc_node s L _ _ _ _ _ F) as (A1 & A2 & _ & _ & A5). simpl up in A2.
  pose proof (foc_frame _ _ _ _ _ _ _ F) as (B1 & B2 & B3 & B4 & B5).
  assert (Hrun : balance_remove_loop (S (S f)) (Some x) s = brl_body d (S f) (Some x) (Some p) s).
  { rewrite brl_unfold. change (bind get_root ?k s) with (k (root s) s). cbv beta.
    rewrite (foc_at_root _ _ _ _ _ _ F). rewrite bind_rd by exact A1. rewrite A5. cbn [is_red].
    rewrite bind_rd by exact A1. rewrite A2. rewrite bind_rd by exact B1.
    rewrite (pick_child s Black l x r d cp p sb C _ _ F). now destruct d. }
  rewrite Hrun. clear Hrun.
  assert (Hup : forall d1 c1 s1 t1 w1, foc s1 (mkN d1 c1 t1 p w1) C -> 
     brl_post s1 (balance_remove_loop (S f) (Some p) s1) (plug (mkN d1 c1 t1 p w1) C)).
  { intros d1 c1 s1 t1 w1 F1. destruct (mkN_ex d1 c1 t1 p w1) as (l' & r' & Hex). rewrite Hex in *.
    simpl in Hn. apply (IH (length C)); auto; try lia. now apply topb_tl in Ht. }
  unfold brl_body. rewrite bind_rd by exact B1. rewrite B4.
  destruct sb as [|cw wl w wr_].
  { cbn [ptr is_null]. apply foc_zip in F. cbn [plug]. unfold plug1; cbn [fd fc fa fs]. now apply Hup. }
  cbn [ptr is_null]. pose proof (foc_sib _ _ _ _ _ _ _ F) as F1.
  pose proof (foc_node s L _ _ _ _ _ F1) as (W1 & W2 & W3 & W4 & W5).
  rewrite bind_rd by exact W1. rewrite W5. fold (brl_tail d (S f) (Some x)).
  destruct cw; cbn [is_red].
  - (* red sibling *)
    rewrite (side_mkN d Red wl w wr_) in F1. 
    destruct (foc_col_mk s d Red Black _ _ _ _ F1) as (_ & F2 & S2).
    rewrite bind_assoc. rewrite bind_wr by exact W1. set (sa := set_col w Black s) in *.
    apply (proj2 (foc_zip _ _ _ _ _ _ _)) in F2. rewrite (mkN_opp d cp) in F2.
    destruct (foc_col_mk sa d cp Red _ _ _ _ F2) as (P1 & F3 & S3).
    rewrite bind_assoc. rewrite bind_wr by exact P1. set (sb := set_col p Red sa) in *.
    destruct (rotate_ok sb d Red _ p Black _ w _ C F3) as (sc & Ec & S4 & F4).
    rewrite bind_assoc. rewrite (bind_ok _ _ _ _ _ Ec).
    apply (proj1 (foc_zip _ _ _ _ _ _ _)) in F4. apply (proj1 (foc_zip _ _ _ _ _ _ _)) in F4.
    pose proof (foc_node sc L _ _ _ _ _ F4) as (X1 & X2 & _). simpl up in X2.
    rewrite bind_assoc. rewrite bind_rd by exact X1. rewrite X2.
    pose proof (foc_frame _ _ _ _ _ _ _ F4) as (Y1 & Y2 & Y3 & Y4 & Y5).
    rewrite bind_rd by exact Y1. rewrite Y4.
    assert (Htop : topb (Fr d Black w (side (opp d) (N Red wl w wr_)) :: C)).
    { apply topb_cons; [reflexivity|]. now apply topb_tl in Ht. }
    eapply brl_post_trans; [| |apply brl_tail_ok; [exact F4|apply topb_cons2; exact Htop|]].
    + eapply same_trans; [exact S2|]. eapply same_trans; [exact S3|]. exact S4.
    + cbn [plug]. unfold plug1; cbn [fd fc fa fs]. rewrite !ino_plug. destruct d; simpl; repeat (rewrite <- ?app_assoc; simpl); reflexivity.
    + (* the parent is red, the loop stops there *)
      intros s1 w1 F5. destruct (mkN_ex d Red (N Black l x r) p w1) as (l' & r' & Hex). rewrite Hex in *.
      apply brl_stop_post; auto.
  - rewrite bind_ret. apply (brl_tail_ok f s Black l x r d cp p (N Black wl w wr_) C F Ht).
    intros s1 w1 F5. now apply Hup.
Qed.

Lemma balance_after_remove_ok {B} s c l x r C (k : unit -> @M T B) :
  foc s (N c l x r) C -> topb C ->
  exists s' t', bind (balance_after_remove (Some x)) k s = k tt s' /\ same s s' /\ foc s' t' [] /\
    ino t' = ino (plug (N c l x r) C) /\ (match t' with N c _ _ _ => c = Black | E => True end).
Proof.
  intros F Ht. pose proof (foc_length _ _ _ F) as HL. simpl in HL.
  destruct (brl_ok (length C) (S (fresh s)) s c l x r C) as (s1 & c1 & l1 & x1 & r1 & C1 & E1 & S1 & F1 & I1 & T1); auto; try lia.
  destruct (foc_col s1 c1 Black _ _ _ _ F1) as (H1 & F2 & S2).
  exists (set_col x1 Black s1), (plug (N Black l1 x1 r1) C1). split; [|split; [|split; [|split]]].
  - unfold balance_after_remove. rewrite bind_assoc.
    assert (E2 : fuelled (fun f => balance_remove_loop (S f) (Some x)) s = Ok (s1, Some x1)) by exact E1.
    rewrite (bind_ok _ _ _ _ _ E2). now rewrite bind_wr by exact H1.
  - eapply same_trans; eauto.
  - apply (proj1 (foc_plug _ _ _)). exact F2.
  - rewrite <- I1, !ino_plug. reflexivity.
  - clear -T1. assert (G : forall C t, match t with N c _ _ _ => C = [] -> c = Black | E => True end -> topb C ->
        match plug t C with N c _ _ _ => c = Black | E => True end).
    { induction C as [|f C IH]; intros t H Ht; simpl; [destruct t; auto|]. apply IH; [|now apply topb_tl in Ht].
      unfold plug1. destruct (mkN_ex (fd f) (fc f) t (fa f) (fs f)) as (l' & r' & ->). intros ->. exact Ht. }
    apply G; auto.
Qed.
End Remove.
