(** foreign_sets and their sources that are moved (C119). *)
From Verif Require Import Common ObsSetModel ObsSetSpec ObsSetProofs ObsThrowModel ObsThrowProps GroupObsModel GroupObsSpec GroupObsProps GroupMoveModel GroupMoveSpec.
From Coq Require Import Sorting.Permutation ZifyBool ZifyNat.

Section Proofs.
Context {T : Type} (pk fk : T -> Z).
Notation group := (group (T := T)).
Notation grouping := (grouping pk fk).
Notation same := (same pk fk).
Notation inv := (GroupObsProps.inv pk fk).
Notation fst_ := (fst_ (T := T)).
Notation wst := (wst (T := T)).

(** ** One foreign_set *)
(** The invariant of C109 without what it says about the observers of others *)
Record own (s : fst_) (zs : list T) : Prop := {
  o_pw : pw same zs;
  o_grs : map fst (grs s) = grouping zs;
  o_nodup : NoDup (observers (grs s));
  o_shows : forall g os i, In (g, os) (grs s) -> In i os -> forall z, shows (glog s i) z <-> In z g;
  o_wnodup : NoDup (watch s);
  o_wshows : forall i, In i (watch s) -> forall k, wshows fk (wlog s i) k <-> has_key fk zs k
}.
Definition masked (s : fst_) : fst_ := FSt (grs s) (watch s) (fun i => if existsb (Nat.eqb i) (observers (grs s)) then glog s i else []) (wlog s).
Lemma masked_in s i : In i (observers (grs s)) -> glog (masked s) i = glog s i.
Proof. intros I. cbn. apply mem_true in I. now rewrite I. Qed.
Lemma own_masked s zs : own s zs -> inv (masked s) zs.
Proof.
  intros [P G N S W WS]. constructor; cbn [masked grs watch wlog]; auto.
  - intros g os i I Io z. rewrite masked_in by (eapply observers_in; eauto). eauto.
  - intros i NI z. cbn. apply mem_false in NI. rewrite NI. auto.
Qed.
Lemma inv_own s zs : inv s zs -> own s zs.
Proof. intros [P G N S GO W WS]. now constructor. Qed.
Lemma own_logs s s' zs : own s zs -> grs s' = grs s -> watch s' = watch s -> (forall i, In i (observers (grs s)) -> glog s' i = glog s i) -> (forall i, In i (watch s) -> wlog s' i = wlog s i) -> own s' zs.
Proof.
  intros [P G N S W WS] E1 E2 L1 L2. constructor; rewrite ?E1, ?E2; auto.
  - intros g os i I Io. rewrite L1 by (eapply observers_in; eauto). eauto.
  - intros i I. rewrite L2 by auto. auto.
Qed.

(** A function of the foreign_set that calls observers of groups with c and perhaps those of the foreign_set *)
Definition shaped (K : fst_ -> res fst_) : Prop := forall gs w l wg s', NoDup (observers gs) -> K (FSt gs w l wg) = Ok s' ->
  exists gs' os c wg', NoDup os /\ incl os (observers gs) /\ incl (observers gs') (observers gs) /\ (forall l2, K (FSt gs w l2 wg) = Ok (FSt gs' w (tell c os l2) wg')) /\
    (wg' = wg \/ exists gc, wg' = tell_watch gc w wg).
Definition framed (s s' : fst_) : Prop :=
  (forall i, ~ In i (observers (grs s)) -> glog s' i = glog s i) /\ (forall i, ~ In i (watch s) -> wlog s' i = wlog s i) /\
  incl (observers (grs s')) (observers (grs s)) /\ watch s' = watch s /\ forall i, In i (observers (grs s)) -> ~ In i (observers (grs s')) -> forall z, ~ shows (glog s' i) z.
Definition action (K : fst_ -> res fst_) (z1 z2 : list T) : Prop := forall s, own s z1 -> exists s', K s = Ok s' /\ own s' z2 /\ framed s s'.
Lemma shaped_action K z1 z2 : shaped K -> (forall s, inv s z1 -> exists s', K s = Ok s' /\ inv s' z2) -> action K z1 z2.
Proof.
  intros SH IK s O. pose proof (o_nodup _ _ O) as ND. destruct (IK (masked s) (own_masked _ _ O)) as (s2 & K2 & I2). destruct s as [gs w l wg].
  set (m := glog (masked (FSt gs w l wg))) in *. change (K (FSt gs w m wg) = Ok s2) in K2. change (NoDup (observers gs)) in ND.
  destruct (SH _ _ _ _ _ ND K2) as (gs' & os & c & wg' & NO & S1 & S2 & KK & WG). pose proof (KK m) as K2'. rewrite K2' in K2. injection K2 as <-.
  exists (FSt gs' w (tell c os l) wg'). split; [apply KK|]. assert (EQ : forall i, In i (observers gs) -> tell c os l i = tell c os m i).
  { intros i I. rewrite !tell_in by auto. unfold m. rewrite masked_in by auto. reflexivity. }
  split.
  - destruct I2 as [P G N S GO W WS]. cbn [grs watch glog wlog] in *. constructor; cbn [grs watch glog wlog]; auto. intros g o i I Io z. rewrite EQ by (apply S2; eapply observers_in; eauto). apply (S g o); auto.
  - unfold framed. cbn [grs watch glog wlog]. split; [|split; [|split; [exact S2|split; [reflexivity|]]]].
    + intros i NI. apply tell_no; auto.
    + intros i NI. destruct WG as [->|(gc & ->)]; [reflexivity|]. rewrite tell_watch_in by apply (o_wnodup _ _ O). apply mem_false in NI. cbn [watch]. now rewrite NI.
    + intros i I NI z. rewrite EQ by auto. apply (i_gone _ _ _ _ I2). exact NI.
Qed.
Lemma nodup_split a g os b : NoDup (observers (T := T) (a ++ (g, os) :: b)) -> NoDup os.
Proof. rewrite observers_split. intros N. apply nodup_app_inv in N as (_ & N & _). now apply nodup_app_inv in N as (N & _). Qed.

Lemma find_pos_bound k gs n : find_pos fk k gs = Ok (Some n) -> exists a g os b, gs = a ++ (g, os) :: b /\ length a = n.
Proof.
  revert n. induction gs as [|[g os] gs IH]; intros n; cbn [find_pos]; [discriminate|]. destruct (group_key fk g) as [kg| |]; cbn [rbind]; try discriminate. destruct (find_pos fk k gs) as [o| |]; cbn [rbind]; try discriminate.
  intros X. destruct (_ =? _)%Z.
  - injection X as <-. now exists [], g, os, gs.
  - destruct o as [m|]; [|discriminate]. injection X as <-. destruct (IH m eq_refl) as (a & h & o & b & -> & L). exists ((g, os) :: a), h, o, b. cbn. auto.
Qed.
Lemma add_shaped v : shaped (on_add pk fk v).
Proof.
  intros gs w l wg s' ND E. unfold on_add in E |- *. cbn [grs watch glog wlog] in *. destruct (find_pos fk (fk v) gs) as [[n|]| |] eqn:F; cbn [rbind] in *; try discriminate.
  - destruct (find_pos_bound _ _ _ F) as (a & g & os & b & -> & <-). rewrite nth_split_eq in *. destruct (vinsert (pk_lt pk) v g) as [g' []]; [|discriminate]. cbn [guard] in *. rewrite set_split in *.
    exists (a ++ (g', os) :: b), os, (KAdded v), wg. split; [eapply nodup_split; eauto|]. rewrite !observers_split. split; [intros i I; rewrite !in_app_iff; auto|]. split; [apply incl_refl|]. auto.
  - destruct (insert_gr fk ([v], []) gs) as [gs'| |] eqn:IG; cbn [rbind] in *; try discriminate. destruct (insert_gr_ok _ _ _ _ _ IG) as (_ & a & b & -> & ->).
    exists (a ++ ([v], []) :: b), [], KClearing, (tell_watch (GAdded [v]) w wg). split; [constructor|]. split; [intros i []|].
    assert (OB : observers (a ++ ([v], []) :: b) = observers (a ++ b)) by (etransitivity; [apply observers_split|symmetry; apply observers_app]). split; [intros i I; exact (eq_ind _ (fun q => In i q) I _ OB)|]. split; [auto|eauto].
Qed.
Lemma remove_shaped v : shaped (on_remove pk fk v).
Proof.
  intros gs w l wg s' ND E. unfold on_remove in E |- *. cbn [grs watch glog wlog] in *. destruct (find_pos fk (fk v) gs) as [[n|]| |] eqn:F; cbn [rbind] in *; try discriminate.
  destruct (find_pos_bound _ _ _ F) as (a & g & os & b & -> & <-). rewrite nth_split_eq in *.
  assert (EQ : (exists x, g = [x]) \/ match g with [_] => False | _ => True end) by (destruct g as [|x [|y r]]; eauto). destruct EQ as [(x & ->)|NS].
  - destruct (Z.eqb (pk x) (pk v)); [|discriminate]. cbn [guard] in *. rewrite remove_split in *.
    exists (a ++ b), os, KClearing, (tell_watch (GRemoving [x]) w wg). split; [eapply nodup_split; eauto|]. rewrite observers_split. split; [intros i I; rewrite !in_app_iff; auto|]. split; [intros i I; assert (I' : In i (observers a ++ observers b)) by (rewrite <- observers_app; exact I); rewrite !in_app_iff in *; tauto|]. split; [auto|eauto].
  - set (p := fun y : T => Z.eqb (pk y) (pk v)) in *. assert (X : exists x, find p g = Some x /\ s' = FSt (set_nth (a ++ (g, os) :: b) (length a) (vremove p g, os)) w (tell (KRemoving x) os l) wg).
    { destruct g as [|x [|y r]]; [| destruct NS |]; destruct (find p _) as [z|]; try discriminate; injection E as <-; eauto. }
    destruct X as (x & FX & ->). exists (a ++ (vremove p g, os) :: b), os, (KRemoving x), wg. split; [eapply nodup_split; eauto|]. rewrite !observers_split. split; [intros i I; rewrite !in_app_iff; auto|]. split; [apply incl_refl|]. split; auto.
    intros l2. destruct g as [|z [|y r]]; [discriminate|destruct NS|]. rewrite FX, set_split. reflexivity.
Qed.
Lemma clear_shaped : shaped (fun s => Ok (on_clear s)).
Proof.
  intros gs w l wg s' ND _. unfold on_clear. cbn [grs watch glog wlog]. destruct gs as [|g gs].
  - exists [], [], KClearing, wg. split; [constructor|]. split; [intros i []|]. split; [apply incl_refl|]. auto.
  - exists [], (observers (g :: gs)), KClearing, (tell_watch GClearing w wg). split; auto. split; [apply incl_refl|]. split; [intros i []|]. split; [|eauto]. intros l2. now rewrite tell_all.
Qed.

Lemma add_action v zs : pw same (v :: zs) -> action (on_add pk fk v) zs (v :: zs).
Proof.
  intros P. apply shaped_action; [apply add_shaped|]. intros s I. destruct (inv_progress pk fk s zs v I) as (A & _). destruct A as (s' & E).
  - intros z Z0 F K. destruct P as (P & _). specialize (P z Z0). unfold ObsSetProofs.same in P. lia.
  - exists s'. split; [exact E|]. eapply add_inv; eauto.
Qed.
Lemma remove_action v zs zs' : Permutation zs (v :: zs') -> action (on_remove pk fk v) zs zs'.
Proof.
  intros P. apply shaped_action; [apply remove_shaped|]. intros s I. destruct (inv_progress pk fk s zs v I) as (_ & A). destruct A as (s' & E).
  - eapply Permutation_in; [symmetry; exact P|]. cbn. auto.
  - exists s'. split; [exact E|]. eapply remove_inv; eauto.
Qed.
Lemma clear_action zs : action (fun s => Ok (on_clear s)) zs [].
Proof. apply shaped_action; [apply clear_shaped|]. intros s I. exists (on_clear s). split; [reflexivity|]. eapply clear_inv; eauto. Qed.

(** ** All foreign_sets *)
Record good (s : wst) (zs : nat -> list T) : Prop := {
  g_own : forall f gs w, fss s f = Some (gs, w) -> own (FSt gs w (gl s) (wl s)) (zs f);
  g_dj : forall f f' gs w gs' w' i, fss s f = Some (gs, w) -> fss s f' = Some (gs', w') -> In i (observers gs) -> In i (observers gs') -> f = f';
  g_wdj : forall f f' gs w gs' w' i, fss s f = Some (gs, w) -> fss s f' = Some (gs', w') -> In i w -> In i w' -> f = f';
  g_gone : forall i, (forall f gs w, fss s f = Some (gs, w) -> ~ In i (observers gs)) -> forall z, ~ shows (gl s i) z;
  g_wgone : forall i, (forall f gs w, fss s f = Some (gs, w) -> ~ In i w) -> forall k, ~ wshows fk (wl s i) k;
  g_used : forall f, fss s f <> None -> In f (used s)
}.
Lemma good_ext s zs zs' : good s zs -> (forall f, fss s f <> None -> zs' f = zs f) -> good s zs'.
Proof. intros [O D W G GW U] E. constructor; auto. intros f gs w F. rewrite E by congruence. auto. Qed.
(** The state without the sources *)
Definition same_fs (s s' : wst) : Prop := (forall f, fss s' f = fss s f) /\ incl (used s) (used s') /\ (forall i, gl s' i = gl s i) /\ forall i, wl s' i = wl s i.
Lemma good_same s s' zs : good s zs -> same_fs s s' -> good s' zs.
Proof.
  intros [O D W G GW U] (E1 & E2 & E3 & E4). constructor.
  - intros f gs w F. rewrite E1 in F. eapply own_logs; [apply (O _ _ _ F)|reflexivity|reflexivity| |]; cbn [glog wlog]; auto.
  - intros f f' gs w gs' w' i. rewrite !E1. apply D.
  - intros f f' gs w gs' w' i. rewrite !E1. apply W.
  - intros i H z. rewrite E3. apply G. intros f gs w F. apply (H f gs w). now rewrite E1.
  - intros i H k. rewrite E4. apply GW. intros f gs w F. apply (H f gs w). now rewrite E1.
  - intros f. rewrite E1. intros H. apply E2. now apply U.
Qed.

(** What a call of functions of some foreign_sets [l] leaves as it is *)
Definition calls_only (l : list nat) (s s' : wst) : Prop :=
  (forall i, (forall f gs w, In f l -> fss s f = Some (gs, w) -> ~ In i (observers gs)) -> gl s' i = gl s i) /\
  (forall i, (forall f gs w, In f l -> fss s f = Some (gs, w) -> ~ In i w) -> wl s' i = wl s i).
Definition after (s s' : wst) : Prop :=
  srcs s' = srcs s /\ used s' = used s /\ (forall f gs' w, fss s' f = Some (gs', w) -> exists gs, fss s f = Some (gs, w) /\ incl (observers gs') (observers gs)) /\ (forall f, fss s f <> None -> fss s' f <> None).
Lemma after_trans s1 s2 s3 : after s1 s2 -> after s2 s3 -> after s1 s3.
Proof.
  intros (A1 & A2 & A3 & A4) (B1 & B2 & B3 & B4). split; [congruence|]. split; [congruence|]. split; [|auto]. intros f gs w F. destruct (B3 _ _ _ F) as (g1 & F1 & I1). destruct (A3 _ _ _ F1) as (g2 & F2 & I2). exists g2. split; auto. eapply incl_tran; eauto.
Qed.
Lemma in_fs_ok K z1 z2 f gs w s zs : action K z1 z2 -> good s zs -> fss s f = Some (gs, w) -> zs f = z1 ->
  exists s', in_fs f K s = Ok s' /\ good s' (upd zs f z2) /\ after s s' /\ calls_only [f] s s' /\ exists gs', fss s' f = Some (gs', w).
Proof.
  intros A [O D W G GW U] F Z. unfold in_fs. rewrite F. destruct (A (FSt gs w (gl s) (wl s))) as ([gs' w' l' wg'] & E & O' & FG & FW & FI & FE & FN); [rewrite <- Z; apply O; exact F|]. rewrite E. cbn [rbind grs watch glog wlog] in *. subst w'.
  eexists. split; [reflexivity|]. split; [|split; [|split]].
  - constructor; cbn [fss gl wl used].
    + intros h hs hw. unfold upd. destruct (Nat.eqb_spec h f) as [->|N].
      * intros X. injection X as <- <-. exact O'.
      * intros X. eapply own_logs; [apply (O _ _ _ X)|reflexivity|reflexivity| |]; cbn [grs watch glog wlog].
        -- intros i I. apply FG. intros J. apply N. eapply D; eauto.
        -- intros i I. apply FW. intros J. apply N. eapply W; eauto.
    + intros h h' hs hw hs' hw' i. unfold upd. destruct (Nat.eqb_spec h f) as [->|N]; destruct (Nat.eqb_spec h' f) as [->|N']; intros X Y I J; auto.
      * injection X as <- <-. eapply D; eauto.
      * injection Y as <- <-. eapply D; eauto.
      * eapply D; eauto.
    + intros h h' hs hw hs' hw' i. unfold upd. destruct (Nat.eqb_spec h f) as [->|N]; destruct (Nat.eqb_spec h' f) as [->|N']; intros X Y I J; auto.
      * injection X as <- <-. eapply W; eauto.
      * injection Y as <- <-. eapply W; eauto.
      * eapply W; eauto.
    + intros i H z. destruct (in_dec Nat.eq_dec i (observers gs)) as [I|I].
      * apply FN; auto. apply (H f gs' w). apply upd_eq.
      * rewrite FG by auto. apply G. intros h hs hw X. destruct (Nat.eq_dec h f) as [->|N]; [rewrite F in X; injection X as <- <-; auto|]. apply (H h hs hw). now rewrite upd_neq.
    + intros i H k. assert (I : ~ In i w) by (apply (H f gs' w); apply upd_eq). rewrite FW by auto. apply GW. intros h hs hw X. destruct (Nat.eq_dec h f) as [->|N]; [rewrite F in X; injection X as <- <-; auto|]. apply (H h hs hw). now rewrite upd_neq.
    + intros h. unfold upd. destruct (Nat.eqb_spec h f) as [->|N]; intros H; apply U; congruence.
  - split; [reflexivity|]. split; [reflexivity|]. cbn [fss]. split.
    + intros h hs hw. unfold upd. destruct (Nat.eqb_spec h f) as [->|N]; [intros X; injection X as <- <-; eauto|]. intros X. exists hs. split; auto. apply incl_refl.
    + intros h H. unfold upd. destruct (Nat.eqb_spec h f); [discriminate|auto].
  - split; cbn [gl wl]; intros i H; [apply FG|apply FW]; apply (H f gs w); cbn; auto.
  - exists gs'. cbn [fss]. apply upd_eq.
Qed.
Lemma notify_ok K z1 z2 : action K z1 z2 -> forall l s zs, NoDup l -> good s zs -> (forall f, In f l -> fss s f <> None /\ zs f = z1) ->
  exists s', notify K l s = Ok s' /\ good s' (fun f => if existsb (Nat.eqb f) l then z2 else zs f) /\ after s s' /\ calls_only l s s'.
Proof.
  intros A. induction l as [|f l IH]; intros s zs ND G H; cbn [notify].
  - exists s. split; auto. split; [exact G|]. split; [|split; auto]. split; auto. split; auto. split; auto. intros f gs w F. exists gs. split; auto. apply incl_refl.
  - inversion ND; subst. destruct (H f (or_introl eq_refl)) as [L Z]. destruct (fss s f) as [[gs w]|] eqn:F; [|congruence].
    destruct (in_fs_ok K z1 z2 f gs w s zs A G F Z) as (s1 & E1 & G1 & A1 & C1 & _). rewrite E1. cbn [rbind].
    destruct (IH s1 (upd zs f z2)) as (s' & E2 & G2 & A2 & C2); auto.
    { intros h I. destruct (H h (or_intror I)) as [L' Z']. split; [apply A1; auto|]. rewrite upd_neq by congruence. auto. }
    exists s'. split; auto. split; [|split; [eapply after_trans; eauto|]].
    + eapply good_ext; [exact G2|]. intros h _. cbn [existsb]. unfold upd. destruct (existsb (Nat.eqb h) l); [now rewrite orb_true_r|]. rewrite orb_false_r. reflexivity.
    + destruct A1 as (_ & _ & A1 & _). destruct C1 as [C1 C1'], C2 as [C2 C2']. split; intros i I.
      * rewrite C2; [apply C1|].
        -- intros h hs hw [<-|[]] X. apply (I f hs hw); cbn; auto.
        -- intros h hs hw J X. destruct (A1 _ _ _ X) as (hs0 & X0 & IN). intros Y. apply (I h hs0 hw); cbn; auto.
      * rewrite C2'; [apply C1'|].
        -- intros h hs hw [<-|[]] X. apply (I f hs hw); cbn; auto.
        -- intros h hs hw J X. destruct (A1 _ _ _ X) as (hs0 & X0 & IN). apply (I h hs0 hw); cbn; auto.
Qed.
(** A foreign_set without groups and observers appears or vanishes; one takes the place of another. *)
Definition empty_fs : option (list group * list nat) := Some ([], []).
Lemma own_empty l wg : own (FSt [] [] l wg) [].
Proof. constructor; cbn; auto; try constructor; intros; contradiction. Qed.
Lemma good_put s zs f gs z : good s zs -> (forall gs w, fss s f = Some (gs, w) -> observers gs = [] /\ w = []) -> own (FSt gs [] (gl s) (wl s)) z -> observers gs = [] ->
  good (with_fs s f (Some (gs, []))) (upd zs f z).
Proof.
  intros [O D W G GW U] E OZ OE. assert (NI : forall gs w i, fss s f = Some (gs, w) -> ~ In i (observers gs) /\ ~ In i w). { intros gs0 w i F. destruct (E _ _ F) as [-> ->]. cbn. tauto. }
  constructor; cbn [with_fs fss gl wl used].
  - intros h hs hw. unfold upd. destruct (Nat.eqb_spec h f) as [->|N]; [|apply O]. intros X. injection X as <- <-. exact OZ.
  - intros h h' hs hw hs' hw' i. unfold upd. destruct (Nat.eqb_spec h f) as [->|N]; destruct (Nat.eqb_spec h' f) as [->|N']; intros X Y I J; auto.
    + injection X as <- <-. rewrite OE in I. destruct I.
    + injection Y as <- <-. rewrite OE in J. destruct J.
    + eapply D; eauto.
  - intros h h' hs hw hs' hw' i. unfold upd. destruct (Nat.eqb_spec h f) as [->|N]; destruct (Nat.eqb_spec h' f) as [->|N']; intros X Y I J; auto.
    + injection X as <- <-. destruct I.
    + injection Y as <- <-. destruct J.
    + eapply W; eauto.
  - intros i H. apply G. intros h hs hw X. destruct (Nat.eq_dec h f) as [->|N]; [apply (NI _ _ _ X)|]. apply (H h hs hw). now rewrite upd_neq.
  - intros i H. apply GW. intros h hs hw X. destruct (Nat.eq_dec h f) as [->|N]; [apply (NI _ _ _ X)|]. apply (H h hs hw). now rewrite upd_neq.
  - intros h. unfold upd. destruct (Nat.eqb_spec h f) as [->|N]; intros H; cbn; auto.
Qed.
Lemma good_vanish s zs f : good s zs -> (forall gs w, fss s f = Some (gs, w) -> observers gs = [] /\ w = []) -> good (with_fs s f None) zs.
Proof.
  intros [O D W G GW U] E. assert (NI : forall gs w i, fss s f = Some (gs, w) -> ~ In i (observers gs) /\ ~ In i w). { intros gs w i F. destruct (E _ _ F) as [-> ->]. cbn. tauto. }
  constructor; cbn [with_fs fss gl wl used].
  - intros h hs hw. unfold upd. destruct (Nat.eqb_spec h f) as [->|N]; [discriminate|apply O].
  - intros h h' hs hw hs' hw' i. unfold upd. destruct (Nat.eqb_spec h f); destruct (Nat.eqb_spec h' f); try discriminate. apply D.
  - intros h h' hs hw hs' hw' i. unfold upd. destruct (Nat.eqb_spec h f); destruct (Nat.eqb_spec h' f); try discriminate. apply W.
  - intros i H. apply G. intros h hs hw X. destruct (Nat.eq_dec h f) as [->|N]; [apply (NI _ _ _ X)|]. apply (H h hs hw). now rewrite upd_neq.
  - intros i H. apply GW. intros h hs hw X. destruct (Nat.eq_dec h f) as [->|N]; [apply (NI _ _ _ X)|]. apply (H h hs hw). now rewrite upd_neq.
  - intros h. unfold upd. destruct (Nat.eqb_spec h f) as [->|N]; intros H; cbn; auto.
Qed.
(** f gives all it has to g, which had no observers. *)
Lemma good_give s zs f g gs w : good s zs -> f <> g -> fss s f = Some (gs, w) -> (forall gs w, fss s g = Some (gs, w) -> observers gs = [] /\ w = []) ->
  good (with_fs (with_fs s f empty_fs) g (Some (gs, w))) (upd (upd zs f []) g (zs f)).
Proof.
  intros [O D W G GW U] N F E. assert (NI : forall gs w i, fss s g = Some (gs, w) -> ~ In i (observers gs) /\ ~ In i w). { intros gs0 w0 i F0. destruct (E _ _ F0) as [-> ->]. cbn. tauto. }
  constructor; cbn [with_fs fss gl wl used]; unfold empty_fs.
  - intros h hs hw. unfold upd. destruct (Nat.eqb_spec h g) as [->|N1]; [intros X; injection X as <- <-; now apply O|]. destruct (Nat.eqb_spec h f) as [->|N2]; [|apply O]. intros X. injection X as <- <-. apply own_empty.
  - assert (K : forall h hs hw i, upd (upd (fss s) f (Some ([], []))) g (Some (gs, w)) h = Some (hs, hw) -> In i (observers hs) -> exists hs' hw', fss s (if h =? g then f else h) = Some (hs', hw') /\ In i (observers hs') /\ h <> f).
    { intros h hs hw i. unfold upd. destruct (Nat.eqb_spec h g) as [->|N1]; [intros X; injection X as <- <-; eauto 6|]. destruct (Nat.eqb_spec h f) as [->|N2]; [intros X; injection X as <- <-; intros []|eauto 6]. }
    intros h h' hs hw hs' hw' i X Y I J. destruct (K _ _ _ _ X I) as (a & b & A1 & A2 & A3). destruct (K _ _ _ _ Y J) as (c & d & B1 & B2 & B3). pose proof (D _ _ _ _ _ _ _ A1 B1 A2 B2) as Q.
    destruct (Nat.eqb_spec h g); destruct (Nat.eqb_spec h' g); congruence.
  - assert (K : forall h hs hw i, upd (upd (fss s) f (Some ([], []))) g (Some (gs, w)) h = Some (hs, hw) -> In i hw -> exists hs' hw', fss s (if h =? g then f else h) = Some (hs', hw') /\ In i hw' /\ h <> f).
    { intros h hs hw i. unfold upd. destruct (Nat.eqb_spec h g) as [->|N1]; [intros X; injection X as <- <-; eauto 6|]. destruct (Nat.eqb_spec h f) as [->|N2]; [intros X; injection X as <- <-; intros []|eauto 6]. }
    intros h h' hs hw hs' hw' i X Y I J. destruct (K _ _ _ _ X I) as (a & b & A1 & A2 & A3). destruct (K _ _ _ _ Y J) as (c & d & B1 & B2 & B3). pose proof (W _ _ _ _ _ _ _ A1 B1 A2 B2) as Q.
    destruct (Nat.eqb_spec h g); destruct (Nat.eqb_spec h' g); congruence.
  - intros i H. apply G. intros h hs hw X. destruct (Nat.eq_dec h g) as [->|N1]; [apply (NI _ _ _ X)|]. destruct (Nat.eq_dec h f) as [->|N2]; [rewrite F in X; injection X as <- <-; apply (H g gs w); apply upd_eq|]. apply (H h hs hw). now rewrite !upd_neq.
  - intros i H. apply GW. intros h hs hw X. destruct (Nat.eq_dec h g) as [->|N1]; [apply (NI _ _ _ X)|]. destruct (Nat.eq_dec h f) as [->|N2]; [rewrite F in X; injection X as <- <-; apply (H g gs w); apply upd_eq|]. apply (H h hs hw). now rewrite !upd_neq.
  - intros h. unfold upd. destruct (Nat.eqb_spec h g) as [->|N1]; [|destruct (Nat.eqb_spec h f) as [->|N2]]; intros H; cbn; auto.
Qed.
(** The observers of an empty foreign_set are dropped. *)
Lemma good_drop s zs f gs w : good s zs -> fss s f = Some (gs, w) -> zs f = [] -> good (with_fs s f empty_fs) zs.
Proof.
  intros [O D W G GW U] F Z. pose proof (O _ _ _ F) as OF. rewrite Z in OF. destruct OF as [P GR ND SH WN WS]. cbn [grs watch glog wlog] in *.
  assert (gs = []) as -> by (destruct gs; [reflexivity|discriminate]).
  constructor; cbn [with_fs fss gl wl used]; unfold empty_fs.
  - intros h hs hw. unfold upd. destruct (Nat.eqb_spec h f) as [->|N]; [|apply O]. intros X. injection X as <- <-. rewrite Z. apply own_empty.
  - intros h h' hs hw hs' hw' i. unfold upd. destruct (Nat.eqb_spec h f) as [->|N]; destruct (Nat.eqb_spec h' f) as [->|N']; intros X Y I J; auto.
    + injection X as <- <-. destruct I.
    + injection Y as <- <-. destruct J.
    + eapply D; eauto.
  - intros h h' hs hw hs' hw' i. unfold upd. destruct (Nat.eqb_spec h f) as [->|N]; destruct (Nat.eqb_spec h' f) as [->|N']; intros X Y I J; auto.
    + injection X as <- <-. destruct I.
    + injection Y as <- <-. destruct J.
    + eapply W; eauto.
  - intros i H. apply G. intros h hs hw X. destruct (Nat.eq_dec h f) as [->|N]; [rewrite F in X; injection X as <- <-; intros []|]. apply (H h hs hw). now rewrite upd_neq.
  - intros i H k. destruct (in_dec Nat.eq_dec i w) as [I|I].
    + rewrite (WS i I k). intros (z & [] & _).
    + apply GW. intros h hs hw X. destruct (Nat.eq_dec h f) as [->|N]; [rewrite F in X; injection X as <- <-; auto|]. apply (H h hs hw). now rewrite upd_neq.
  - intros h. unfold upd. destruct (Nat.eqb_spec h f) as [->|N]; intros H; cbn; auto.
Qed.

(** ** The sources *)
Record sources (sr : nat -> option (list T * list nat)) (a : ast (T := T)) : Prop := {
  r_src : forall x zs l, sr x = Some (zs, l) -> zs = els a x /\ NoDup l /\ forall f, In f l <-> from a f = Some x;
  r_none : forall x, sr x = None -> els a x = [] /\ forall f, from a f <> Some x;
  r_pk : forall x, NoDup (map pk (els a x))
}.
Record R (s : wst) (a : ast (T := T)) : Prop := {
  r_srcs : sources (srcs s) a;
  r_live : forall f, from a f <> None -> fss s f <> None;
  r_good : good s (shown a)
}.
Definition alike (a a' : ast (T := T)) : Prop := (forall x, els a' x = els a x) /\ forall f, from a' f = from a f.
Lemma R_ext s a a' : R s a -> alike a a' -> R s a'.
Proof.
  intros [[S N P] L G] (E1 & E2). constructor; [constructor| |].
  - intros x zs l X. rewrite E1. destruct (S _ _ _ X) as (A & B & C). split; auto. split; auto. intros f. now rewrite E2.
  - intros x X. rewrite E1. destruct (N _ X) as (A & B). split; auto. intros f. now rewrite E2.
  - intros x. now rewrite E1.
  - intros f. rewrite E2. auto.
  - eapply good_ext; [exact G|]. intros f _. unfold shown. rewrite E2. destruct (from a f); auto.
Qed.
Lemma pw_pk zs : NoDup (map pk zs) -> pw same zs.
Proof.
  induction zs as [|z zs IH]; cbn [map pw]; auto. intros N. inversion N; subst. split; auto. intros y Y. unfold ObsSetProofs.same. destruct (Z.eqb_spec (pk y) (pk z)) as [E|]; [|apply andb_false_r]. destruct H1. rewrite <- E. now apply in_map.
Qed.
Lemma has_in k zs : has pk k zs = true <-> In k (map pk zs).
Proof. unfold has. rewrite existsb_exists, in_map_iff. split; intros (y & A & B); exists y; split; auto; lia. Qed.
Lemma find_perm k zs v : NoDup (map pk zs) -> find (fun y => Z.eqb (pk y) k) zs = Some v -> Permutation zs (v :: filter (fun y => negb (Z.eqb (pk y) k)) zs).
Proof.
  induction zs as [|z zs IH]; cbn [find map filter]; [discriminate|]. intros N F. inversion N; subst. destruct (Z.eqb_spec (pk z) k) as [E|E]; cbn [negb].
  - injection F as <-. constructor. rewrite ObsSetProofs.filter_all; auto. intros y Y. destruct (Z.eqb_spec (pk y) k); auto. destruct H1. rewrite E, <- e. now apply in_map.
  - rewrite (IH H2 F) at 1. apply perm_swap.
Qed.
Lemma find_no k zs : find (fun y => Z.eqb (pk y) k) zs = None -> filter (fun y => negb (Z.eqb (pk y) k)) zs = zs.
Proof. intros F. apply ObsSetProofs.filter_all. intros y Y. rewrite (find_none _ _ F y Y). reflexivity. Qed.
Lemma nodup_filter_pk p zs : NoDup (map pk zs) -> NoDup (map pk (filter p zs)).
Proof.
  induction zs as [|z zs IH]; cbn [map filter]; auto. intros N. inversion N; subst. destruct (p z); cbn [map]; auto. constructor; auto. intros I. apply H1. apply in_map_iff in I as (y & <- & Y). apply filter_In in Y as (Y & _). now apply in_map.
Qed.

(** All who follow a source are told, and it has other elements. *)
Lemma told_all s a x zs l K z2 : R s a -> srcs s x = Some (zs, l) -> action K zs z2 ->
  exists s1, notify K l s = Ok s1 /\ good s1 (shown (Ast (upd (els a) x z2) (from a))) /\ after s s1 /\ calls_only l s s1.
Proof.
  intros [[S N P] L G] X A. destruct (S _ _ _ X) as (-> & ND & IF).
  destruct (notify_ok K (els a x) z2 A l s (shown a) ND G) as (s1 & E & G1 & AF & CO).
  { intros f I. apply IF in I. split; [apply L; congruence|]. unfold shown. now rewrite I. }
  exists s1. split; auto. split; auto. eapply good_ext; [exact G1|]. intros f _. unfold shown at 1. cbn [from els]. destruct (existsb (Nat.eqb f) l) eqn:M.
  - apply mem_true, IF in M. rewrite M. apply upd_eq.
  - apply mem_false in M. rewrite IF in M. unfold shown. destruct (from a f) as [y|]; auto. apply upd_neq. congruence.
Qed.
Lemma sources_set sr a x zs l z2 : sources sr a -> sr x = Some (zs, l) -> NoDup (map pk z2) -> sources (upd sr x (Some (z2, l))) (Ast (upd (els a) x z2) (from a)).
Proof.
  intros [S N P] X D. constructor; cbn [els from].
  - intros y z k. unfold upd. destruct (Nat.eqb_spec y x) as [->|NE]; [|apply S]. intros Q. injection Q as <- <-. split; auto. apply (S _ _ _ X).
  - intros y. unfold upd. destruct (Nat.eqb_spec y x) as [->|NE]; [discriminate|apply N].
  - intros y. unfold upd. destruct (Nat.eqb_spec y x); auto.
Qed.
Lemma R_src s s1 a' sr : good s1 (shown a') -> after s s1 -> sources sr a' -> (forall f, from a' f <> None -> fss s f <> None) -> forall s2, same_fs s1 s2 -> srcs s2 = sr -> R s2 a'.
Proof.
  intros G AF S L s2 SF E. constructor; [now rewrite E| |eapply good_same; eauto]. intros f F. destruct SF as (SF & _). rewrite SF. apply AF. auto.
Qed.
Lemma notify_src K x o l : forall s : wst, notify K l (with_src s x o) = let* s' := notify K l s in Ok (with_src s' x o).
Proof.
  induction l as [|f l IH]; intros s; cbn [notify]; auto. unfold in_fs. cbn [with_src fss gl wl srcs used]. destruct (fss s f) as [[gs w]|]; auto. destruct (K _) as [r| |]; cbn [rbind]; auto. rewrite <- IH. reflexivity.
Qed.
Lemma same_refl s : same_fs s s.
Proof. split; auto. split; [apply incl_refl|auto]. Qed.
Lemma after_refl s : after s s.
Proof. split; auto. split; auto. split; auto. intros f gs w F. exists gs. split; auto. apply incl_refl. Qed.
Lemma calls_refl l s : calls_only l s s.
Proof. split; auto. Qed.
(** A source tells its observers that it loses its elements. *)
Lemma told_clear s a x zs l : R s a -> srcs s x = Some (zs, l) ->
  exists s1, match zs with [] => Ok s | _ => notify (fun y => Ok (on_clear y)) l s end = Ok s1 /\ good s1 (shown (Ast (upd (els a) x []) (from a))) /\ after s s1 /\ calls_only l s s1.
Proof.
  intros RR X. destruct zs as [|z zs]; [|apply (told_all s a x (z :: zs) l); auto; apply clear_action].
  exists s. split; auto. split; [|split; [apply after_refl|apply calls_refl]]. eapply good_ext; [apply (r_good _ _ RR)|]. intros f _. unfold shown. cbn [from els]. destruct (from a f) as [y|]; auto. unfold upd. destruct (Nat.eqb_spec y x) as [->|]; auto.
  now destruct (r_src _ _ (r_srcs _ _ RR) _ _ _ X) as (<- & _).
Qed.

(** What a step calls: the observers of the foreign_sets that it concerns *)
Definition only (P : nat -> Prop) (s s' : wst) : Prop :=
  (forall i, (forall f gs w, P f -> fss s f = Some (gs, w) -> ~ In i (observers gs)) -> gl s' i = gl s i) /\
  (forall i, (forall f gs w, P f -> fss s f = Some (gs, w) -> ~ In i w) -> wl s' i = wl s i).
Lemma calls_sub l (P : nat -> Prop) s s' : calls_only l s s' -> (forall f, In f l -> P f) -> only P s s'.
Proof. intros (A & B) I. split; intros i H; [apply A|apply B]; intros f gs w F; apply (H f); auto. Qed.
Definition does (o : wop (T := T)) (s : wst) (a : ast (T := T)) : Prop := exists s', gstep pk fk o s = Ok s' /\ R s' (astep pk o a) /\ only (concerns a o) s s'.

Ltac samefs := split; [reflexivity|split; [apply incl_refl|split; reflexivity]].
Lemma step_new s a x : R s a -> srcs s x = None -> does (WNew x) s a.
Proof.
  intros [[S N P] L G] X. unfold does. cbn [gstep astep]. rewrite X. eexists. split; [reflexivity|]. split; [|split; intros; reflexivity]. destruct (N _ X) as (EX & NF).
  constructor; cbn [with_src srcs fss]; auto; [constructor; auto|].
  - intros y z k. unfold upd. destruct (Nat.eqb_spec y x) as [->|NE]; [|apply S]. intros Q. injection Q as <- <-. split; auto. split; [constructor|]. intros f. split; [intros []|intros F; now destruct (NF f)].
  - intros y. unfold upd. destruct (Nat.eqb_spec y x) as [->|NE]; [discriminate|apply N].
  - eapply good_same; [exact G|]. samefs.
Qed.
Lemma step_insert s a x v : R s a -> srcs s x <> None -> does (WInsert x v) s a.
Proof.
  intros RR X. unfold does. cbn [gstep astep]. destruct (srcs s x) as [[zs l]|] eqn:E; [|congruence]. destruct (r_src _ _ (r_srcs _ _ RR) _ _ _ E) as (EZ & ND & IF).
  change (has_pk pk (pk v) (els a x)) with (has pk (pk v) (els a x)). rewrite <- EZ. destruct (has pk (pk v) zs) eqn:H.
  - exists s. split; auto. split; auto. split; intros; reflexivity.
  - assert (NP : NoDup (map pk (v :: zs))). { cbn [map]. constructor; [|rewrite EZ; apply (r_pk _ _ (r_srcs _ _ RR))]. rewrite <- has_in. congruence. }
    destruct (told_all s a x zs l (on_add pk fk v) (v :: zs) RR E) as (s1 & E1 & G1 & A1 & C1); [apply add_action; now apply pw_pk|].
    rewrite notify_src, E1. cbn [rbind]. eexists. split; [reflexivity|]. split.
    + eapply (R_src s s1); [exact G1|exact A1| |apply (r_live _ _ RR)| |cbn [with_src srcs]; reflexivity]; [|samefs]. destruct A1 as (-> & _). eapply sources_set; eauto. apply (r_srcs _ _ RR).
    + apply (calls_sub l); [exact C1|]. intros f. apply IF.
Qed.
Lemma step_erase s a x k : R s a -> srcs s x <> None -> does (WErase x k) s a.
Proof.
  intros RR X. unfold does. cbn [gstep astep]. destruct (srcs s x) as [[zs l]|] eqn:E; [|congruence]. destruct (r_src _ _ (r_srcs _ _ RR) _ _ _ E) as (EZ & ND & IF). rewrite <- EZ.
  assert (NP : NoDup (map pk zs)) by (rewrite EZ; apply (r_pk _ _ (r_srcs _ _ RR))). destruct (find _ zs) as [v|] eqn:F.
  - destruct (told_all s a x zs l (on_remove pk fk v) (filter (fun y => negb (pk y =? k)%Z) zs) RR E) as (s1 & E1 & G1 & A1 & C1); [apply remove_action; now apply find_perm|].
    rewrite E1. cbn [rbind]. eexists. split; [reflexivity|]. split.
    + eapply (R_src s s1); [exact G1|exact A1| |apply (r_live _ _ RR)| |cbn [with_src srcs]; reflexivity]; [|samefs]. destruct A1 as (-> & _). eapply sources_set; eauto; [apply (r_srcs _ _ RR)|now apply nodup_filter_pk].
    + apply (calls_sub l); [exact C1|]. intros f. apply IF.
  - rewrite find_no by auto. exists s. split; auto. split; [|split; intros; reflexivity]. eapply R_ext; [exact RR|]. split; auto. intros y. cbn [els]. unfold upd. destruct (Nat.eqb_spec y x) as [->|]; auto.
Qed.
Lemma step_clear s a x : R s a -> srcs s x <> None -> does (WClear x) s a.
Proof.
  intros RR X. unfold does. cbn [gstep astep]. destruct (srcs s x) as [[zs l]|] eqn:E; [|congruence]. destruct (r_src _ _ (r_srcs _ _ RR) _ _ _ E) as (EZ & ND & IF).
  destruct zs as [|z zs].
  - exists s. split; auto. split; [|split; intros; reflexivity]. eapply R_ext; [exact RR|]. split; auto. intros y. cbn [els]. unfold upd. destruct (Nat.eqb_spec y x) as [->|]; auto.
  - destruct (told_clear _ _ _ _ _ RR E) as (s1 & E1 & G1 & A1 & C1). rewrite E1. cbn [rbind]. eexists. split; [reflexivity|]. split.
    + eapply (R_src s s1); [exact G1|exact A1| |apply (r_live _ _ RR)| |cbn [with_src srcs]; reflexivity]; [|samefs]. destruct A1 as (-> & _). eapply sources_set; eauto; [apply (r_srcs _ _ RR)|constructor].
    + apply (calls_sub l); [exact C1|]. intros f. apply IF.
Qed.
Lemma step_move s a x y : R s a -> srcs s x <> None -> srcs s y = None -> does (WMove x y) s a.
Proof.
  intros RR X Y. unfold does. cbn [gstep astep]. destruct (srcs s x) as [[zs l]|] eqn:E; [|congruence]. rewrite Y. destruct RR as [[S N P] L G]. destruct (S _ _ _ E) as (EZ & ND & IF). destruct (N _ Y) as (EY & NY). assert (XY : x <> y) by congruence.
  eexists. split; [reflexivity|]. split; [|split; intros; reflexivity]. constructor; cbn [with_src srcs fss els from]; [constructor; cbn [els from]| |].
  - intros u z k. unfold upd. destruct (Nat.eqb_spec u x) as [->|NX].
    + intros Q. injection Q as <- <-. split; auto. split; [constructor|]. intros f. destruct (from a f) as [v|] eqn:F; cbn [renamed]; [|split; [intros []|discriminate]]. destruct (Nat.eqb_spec v x); (split; [intros []|intros Q; congruence]).
    + destruct (Nat.eqb_spec u y) as [->|NEY].
      * intros Q. injection Q as <- <-. split; auto. split; auto. intros f. rewrite IF. specialize (NY f). destruct (from a f) as [v|] eqn:F; cbn [renamed]; [|split; discriminate]. destruct (Nat.eqb_spec v x); split; intros Q; congruence.
      * intros Q. destruct (S _ _ _ Q) as (A & B & C). split; auto. split; auto. intros f. rewrite C. destruct (from a f) as [v|] eqn:F; cbn [renamed]; [|split; discriminate]. destruct (Nat.eqb_spec v x); split; intros Z; congruence.
  - intros u. unfold upd. destruct (Nat.eqb_spec u x) as [->|NX]; [discriminate|]. destruct (Nat.eqb_spec u y) as [->|NEY]; [discriminate|]. intros Q. destruct (N _ Q) as (A & B). split; auto. intros f. specialize (B f). destruct (from a f) as [v|]; cbn [renamed]; [|discriminate]. destruct (Nat.eqb_spec v x); congruence.
  - intros u. unfold upd. destruct (u =? x); [constructor|]. destruct (u =? y); auto.
  - intros f. specialize (L f). destruct (from a f); cbn [renamed]; auto. intros _. apply L. discriminate.
  - apply (good_same s); [|samefs]. eapply good_ext; [exact G|]. intros f _. unfold shown. cbn [els from]. specialize (NY f). destruct (from a f) as [v|]; cbn [renamed]; auto. unfold upd. destruct (Nat.eqb_spec v x) as [->|NX].
    + destruct (Nat.eqb_spec y x); [congruence|]. now rewrite Nat.eqb_refl.
    + destruct (Nat.eqb_spec v x); [congruence|]. destruct (Nat.eqb_spec v y); congruence.
Qed.
Lemma step_assign s a x y : R s a -> srcs s x <> None -> srcs s y <> None -> does (WAssign x y) s a.
Proof.
  intros RR X Y. unfold does. cbn [gstep astep]. destruct (srcs s x) as [[zs l]|] eqn:E; [|congruence]. destruct (srcs s y) as [[zy ly]|] eqn:EY; [|congruence].
  destruct (told_clear _ _ _ _ _ RR E) as (s1 & E1 & G1 & A1 & C1). cbn [rbind]. rewrite E1. cbn [rbind with_src srcs]. destruct RR as [[S N P] L G]. destruct (S _ _ _ E) as (EZ & ND & IF). destruct (S _ _ _ EY) as (EZY & NDY & IFY).
  assert (CC : only (concerns a (WAssign x y)) s s1) by (apply (calls_sub l); [exact C1|intros f; apply IF]). pose proof A1 as (AS & _). destruct (Nat.eqb_spec x y) as [<-|XY].
  - rewrite upd_eq. eexists. split; [reflexivity|]. split; [|exact CC]. eapply (R_src s s1); [|exact A1| | |samefs|cbn [with_src srcs]; rewrite AS; reflexivity].
    + eapply good_ext; [exact G1|]. intros f _. unfold shown. cbn [from els]. destruct (from a f) as [v|]; cbn [renamed]; auto. destruct (Nat.eqb_spec v x) as [->|NX]; auto. now rewrite upd_eq.
    + constructor; cbn [els from].
      * intros u z k. unfold upd. destruct (Nat.eqb_spec u x) as [->|NX]; [intros Q; injection Q as <- <-|intros Q].
        -- split; auto. split; [constructor|]. intros f. destruct (from a f) as [v|]; cbn [renamed]; [|split; [intros []|discriminate]]. destruct (Nat.eqb_spec v x); (split; [intros []|intros Q; try discriminate; congruence]).
        -- destruct (S _ _ _ Q) as (A & B & C). split; auto. split; auto. intros f. rewrite C. destruct (from a f) as [v|]; cbn [renamed]; [|split; discriminate]. destruct (Nat.eqb_spec v x); split; intros Z; try discriminate; congruence.
      * intros u. unfold upd. destruct (Nat.eqb_spec u x) as [->|NX]; [discriminate|]. intros Q. destruct (N _ Q) as (A & B). split; auto. intros f. specialize (B f). destruct (from a f) as [v|]; cbn [renamed]; [|discriminate]. destruct (Nat.eqb_spec v x); congruence.
      * intros u. unfold upd. destruct (u =? x); [constructor|auto].
    + intros f. cbn [from]. specialize (L f). destruct (from a f); cbn [renamed]; auto. intros _. apply L. discriminate.
  - rewrite upd_neq by auto. rewrite AS, EY. eexists. split; [reflexivity|]. split; [|exact CC]. eapply (R_src s s1); [|exact A1| | |samefs|cbn [with_src srcs]; rewrite AS; reflexivity].
    + eapply good_ext; [exact G1|]. intros f _. unfold shown. cbn [from els]. destruct (from a f) as [v|]; cbn [renamed]; auto. unfold upd. destruct (Nat.eqb_spec v x) as [->|NX]; auto. destruct (Nat.eqb_spec v y) as [->|NY].
      * destruct (Nat.eqb_spec x y); [congruence|]. now rewrite Nat.eqb_refl.
      * destruct (Nat.eqb_spec v y); [congruence|]. destruct (Nat.eqb_spec v x); congruence.
    + constructor; cbn [els from].
      * intros u z k. unfold upd. destruct (Nat.eqb_spec u x) as [->|NX]; [|destruct (Nat.eqb_spec u y) as [->|NY]].
        -- intros Q; injection Q as <- <-. destruct (Nat.eqb_spec x y); [congruence|]. split; auto. split; auto. intros f. rewrite IFY. destruct (from a f) as [v|]; cbn [renamed]; [|split; discriminate]. destruct (Nat.eqb_spec v x); [split; [intros Z; congruence|discriminate]|]. destruct (Nat.eqb_spec v y); split; intros Z; congruence.
        -- intros Q; injection Q as <- <-. split; auto. split; [constructor|]. intros f. destruct (from a f) as [v|]; cbn [renamed]; [|split; [intros []|discriminate]]. destruct (Nat.eqb_spec v x); [split; [intros []|discriminate]|]. destruct (Nat.eqb_spec v y); (split; [intros []|intros Z; congruence]).
        -- intros Q. destruct (S _ _ _ Q) as (A & B & C). split; auto. split; auto. intros f. rewrite C. destruct (from a f) as [v|]; cbn [renamed]; [|split; discriminate]. destruct (Nat.eqb_spec v x); [split; [intros Z; congruence|discriminate]|]. destruct (Nat.eqb_spec v y); split; intros Z; congruence.
      * intros u. unfold upd. destruct (Nat.eqb_spec u x) as [->|NX]; [discriminate|]. destruct (Nat.eqb_spec u y) as [->|NY]; [discriminate|]. intros Q. destruct (N _ Q) as (A & B). split; auto. intros f. specialize (B f). destruct (from a f) as [v|]; cbn [renamed]; [|discriminate]. destruct (Nat.eqb_spec v x); [discriminate|]. destruct (Nat.eqb_spec v y); congruence.
      * intros u. unfold upd. destruct (u =? y); [constructor|]. destruct (u =? x); auto.
    + intros f. cbn [from]. specialize (L f). destruct (from a f); cbn [renamed]; auto. intros _. apply L. discriminate.
Qed.
Lemma step_destroy s a x : R s a -> srcs s x <> None -> does (WDestroy x) s a.
Proof.
  intros RR X. unfold does. cbn [gstep astep]. destruct (srcs s x) as [[zs l]|] eqn:E; [|congruence].
  destruct (told_clear _ _ _ _ _ RR E) as (s1 & E1 & G1 & A1 & C1). rewrite E1. cbn [rbind]. destruct RR as [[S N P] L G]. destruct (S _ _ _ E) as (EZ & ND & IF). pose proof A1 as (AS & _).
  eexists. split; [reflexivity|]. split; [|apply (calls_sub l); [exact C1|intros f; apply IF]]. eapply (R_src s s1); [|exact A1| | |samefs|cbn [with_src srcs]; rewrite AS; reflexivity].
  - eapply good_ext; [exact G1|]. intros f _. unfold shown. cbn [from els]. destruct (from a f) as [v|]; cbn [renamed]; auto. destruct (Nat.eqb_spec v x) as [->|NX]; auto. now rewrite upd_eq.
  - constructor; cbn [els from].
    + intros u z k. unfold upd. destruct (Nat.eqb_spec u x) as [->|NX]; [discriminate|]. intros Q. destruct (S _ _ _ Q) as (A & B & C). split; auto. split; auto. intros f. rewrite C. destruct (from a f) as [v|]; cbn [renamed]; [|split; discriminate]. destruct (Nat.eqb_spec v x); split; intros Z; try discriminate; congruence.
    + intros u. unfold upd. destruct (Nat.eqb_spec u x) as [->|NX]; intros Q.
      * split; auto. intros f. destruct (from a f) as [v|]; cbn [renamed]; [|discriminate]. destruct (Nat.eqb_spec v x); congruence.
      * destruct (N _ Q) as (A & B). split; auto. intros f. specialize (B f). destruct (from a f) as [v|]; cbn [renamed]; [|discriminate]. destruct (Nat.eqb_spec v x); congruence.
    + intros u. unfold upd. destruct (u =? x); [constructor|auto].
  - intros f. cbn [from]. specialize (L f). destruct (from a f); cbn [renamed]; auto. intros _. apply L. discriminate.
Qed.

(** ** The foreign_sets *)
Lemma clear_nobody s zs f gs w : good s zs -> fss s f = Some (gs, w) ->
  exists s1, in_fs f (fun x => Ok (on_clear x)) s = Ok s1 /\ good (with_fs s1 f empty_fs) (upd zs f []) /\ after s s1 /\ calls_only [f] s s1.
Proof.
  intros G F. destruct (in_fs_ok _ (zs f) [] f gs w s zs (clear_action _) G F eq_refl) as (s1 & E & G1 & A & C & gs' & F'). exists s1. split; auto. split; auto. eapply good_drop; [exact G1|exact F'|apply upd_eq].
Qed.
Lemma sources_exclude sr a f : sources sr a -> sources (fun x => match sr x with Some (zs, l) => Some (zs, leave f l) | None => None end) (Ast (els a) (upd (from a) f None)).
Proof.
  intros [S N P]. constructor; cbn [els from]; auto.
  - intros x zs l. destruct (sr x) as [[z k]|] eqn:E; [|discriminate]. intros Q. injection Q as <- <-. destruct (S _ _ _ E) as (A & B & C). split; auto. split; [now apply NoDup_filter|]. intros h. rewrite leave_in, C. unfold upd. destruct (Nat.eqb_spec h f); intuition congruence.
  - intros x. destruct (sr x) as [[z k]|] eqn:E; [discriminate|]. intros _. destruct (N _ E) as (A & B). split; auto. intros h. unfold upd. destruct (h =? f); [discriminate|auto].
Qed.
Lemma ren_nodup f g l : NoDup l -> ~ In g l -> NoDup (map (fun k => if k =? f then g else k) l).
Proof.
  induction l as [|k l IH]; cbn [map]; intros N I; [constructor|]. inversion N; subst. constructor; [|apply IH; auto; intros X; apply I; cbn; auto]. rewrite in_map_iff. intros (j & E & J). destruct (Nat.eqb_spec j f), (Nat.eqb_spec k f); subst; auto; apply I; cbn; auto.
Qed.
Lemma sources_ren sr a f g : sources sr a -> from a g = None -> f <> g ->
  sources (fun x => match sr x with Some (zs, l) => Some (zs, map (fun k => if k =? f then g else k) l) | None => None end) (Ast (els a) (upd (upd (from a) g (from a f)) f None)).
Proof.
  intros [S N P] FG NE. constructor; cbn [els from]; auto.
  - intros x zs l. destruct (sr x) as [[z k]|] eqn:E; [|discriminate]. intros Q. injection Q as <- <-. destruct (S _ _ _ E) as (A & B & C). assert (NG : ~ In g k) by (rewrite C; congruence). split; auto. split; [now apply ren_nodup|]. intros h. rewrite in_map_iff. unfold upd. split.
    + intros (j & <- & J). destruct (Nat.eqb_spec j f) as [->|]; [|destruct (Nat.eqb_spec j f); [congruence|]; destruct (Nat.eqb_spec j g); [subst; contradiction|now apply C]]. destruct (Nat.eqb_spec g f); [congruence|]. rewrite Nat.eqb_refl. now apply C.
    + destruct (Nat.eqb_spec h f); [discriminate|]. destruct (Nat.eqb_spec h g) as [->|]; intros F; apply C in F; [exists f; rewrite Nat.eqb_refl; auto|]. exists h. destruct (Nat.eqb_spec h f); [congruence|auto].
  - intros x. destruct (sr x) as [[z k]|] eqn:E; [discriminate|]. intros _. destruct (N _ E) as (A & B). split; auto. intros h. unfold upd. destruct (h =? f); [discriminate|]. destruct (h =? g); auto.
Qed.
Lemma sources_alike sr sr' a a' : sources sr a -> (forall x, sr' x = sr x) -> alike a a' -> sources sr' a'.
Proof.
  intros [S N P] E (E1 & E2). constructor.
  - intros x zs l. rewrite E, E1. intros X. destruct (S _ _ _ X) as (A & B & C). split; auto. split; auto. intros f. now rewrite E2.
  - intros x. rewrite E, E1. intros X. destruct (N _ X) as (A & B). split; auto. intros f. now rewrite E2.
  - intros x. now rewrite E1.
Qed.
Lemma not_from s a f : R s a -> fss s f = None -> from a f = None.
Proof. intros RR F. destruct (from a f) eqn:E; auto. destruct (r_live _ _ RR f); congruence. Qed.

Lemma step_gnew s a f : R s a -> fss s f = None -> does (GNew f) s a.
Proof.
  intros RR F. unfold does. cbn [gstep astep]. rewrite F. eexists. split; [reflexivity|]. split; [|split; intros; reflexivity]. pose proof (not_from _ _ _ RR F) as NF. destruct RR as [S L G]. constructor; auto.
  - intros h. cbn [with_fs fss]. unfold upd. destruct (h =? f); [discriminate|auto].
  - eapply good_ext; [apply (good_put s (shown a) f [] []); auto; [congruence|apply own_empty]|]. intros h _. unfold upd. destruct (Nat.eqb_spec h f) as [->|]; auto. unfold shown. now rewrite NF.
Qed.
Lemma fold_add zs : NoDup (map pk zs) -> forall l wg, exists r, fold_left (fun r v => let* x := r in on_add pk fk v x) (rev zs) (Ok (FSt [] [] l wg)) = Ok r /\ own r zs /\ observers (grs r) = [] /\ watch r = [].
Proof.
  intros N l wg. rewrite <- fold_left_rev_right, rev_involutive. induction zs as [|v zs IH]; cbn [fold_right map] in *.
  - eexists. split; [reflexivity|]. split; [apply own_empty|auto].
  - inversion N; subst. destruct (IH H2) as (r & E & O & OB & W). rewrite E. cbn [rbind]. destruct (add_action v zs (pw_pk (v :: zs) N) r O) as (r' & E' & O' & (_ & _ & I & W' & _)). exists r'. split; auto. split; auto. split; [|congruence]. rewrite OB in I. destruct (observers (grs r')) as [|i t]; auto. destruct (I i). cbn. auto.
Qed.
Lemma step_from s a f x : R s a -> srcs s x <> None -> fss s f = None -> does (GFrom f x) s a.
Proof.
  intros RR X F. unfold does. cbn [gstep astep]. destruct (srcs s x) as [[zs l]|] eqn:E; [|congruence]. rewrite F. pose proof (not_from _ _ _ RR F) as NF. destruct RR as [[S N P] L G]. destruct (S _ _ _ E) as (EZ & ND & IF).
  destruct (fold_add zs) with (l := gl s) (wg := wl s) as (r & -> & O & OB & W); [rewrite EZ; apply P|]. cbn [rbind]. eexists. split; [reflexivity|]. split; [|split; intros; reflexivity]. rewrite W.
  constructor; [constructor; cbn [with_src with_fs srcs els from]; auto| |].
  - intros y z k. unfold upd at 1. destruct (Nat.eqb_spec y x) as [->|NX]; intros Q.
    + injection Q as <- <-. split; auto. split; [apply nodup_app_intro; auto; [constructor; [intros []|constructor]|]; intros j J [<-|[]]; apply IF in J; congruence|]. intros h. rewrite in_app_iff, IF. cbn [In]. unfold upd. destruct (Nat.eqb_spec h f) as [->|]; intuition congruence.
    + destruct (S _ _ _ Q) as (A & B & C). split; auto. split; auto. intros h. rewrite C. unfold upd. destruct (Nat.eqb_spec h f) as [->|]; intuition congruence.
  - intros y. unfold upd at 1. destruct (Nat.eqb_spec y x) as [->|NX]; [discriminate|]. intros Q. destruct (N _ Q) as (A & B). split; auto. intros h. unfold upd. destruct (h =? f); [congruence|auto].
  - intros h. cbn [with_src with_fs fss from]. unfold upd. destruct (h =? f); [discriminate|auto].
  - apply (good_same (with_fs s f (Some (grs r, [])))); [|samefs]. eapply good_ext; [apply (good_put s (shown a) f (grs r) zs); auto; [congruence|]|].
    + eapply own_logs; [exact O|reflexivity|now rewrite W| |]; cbn [glog wlog]; rewrite ?OB, ?W; intros i [].
    + intros h _. unfold shown. cbn [from els]. unfold upd. destruct (h =? f); auto.
Qed.
Lemma step_gmove s a f g : R s a -> fss s f <> None -> fss s g = None -> does (GMove f g) s a.
Proof.
  intros RR F FG. unfold does. cbn [gstep astep]. destruct (fss s f) as [[gs w]|] eqn:E; [|congruence]. rewrite FG. pose proof (not_from _ _ _ RR FG) as NF. destruct RR as [S L G]. assert (NE : f <> g) by congruence.
  eexists. split; [reflexivity|]. split; [|split; intros; reflexivity]. constructor.
  - cbn [with_fs reinsert on_links srcs]. now apply sources_ren.
  - intros h. cbn [with_fs reinsert on_links fss from]. unfold upd. destruct (h =? f); [discriminate|]. destruct (h =? g); [discriminate|auto].
  - apply (good_same (with_fs (with_fs s f empty_fs) g (Some (gs, w)))).
    + eapply good_ext; [apply (good_give s (shown a) f g gs w); auto; congruence|]. intros h _. unfold shown. cbn [from els]. unfold upd. destruct (Nat.eqb_spec h f); destruct (Nat.eqb_spec h g); subst; auto; congruence.
    + cbn [with_fs reinsert on_links fss gl wl used]. split; [|split; [intros j J; cbn in *; tauto|split; reflexivity]]. intros h. cbn [with_fs reinsert exclude on_links fss]. unfold upd, empty_fs. destruct (Nat.eqb_spec h f); destruct (Nat.eqb_spec h g); subst; auto; congruence.
Qed.
Lemma step_gassign s a f g : R s a -> fss s f <> None -> fss s g <> None -> does (GAssign f g) s a.
Proof.
  intros RR F FG. unfold does. cbn [gstep astep]. destruct (fss s f) as [[gs w]|] eqn:E; [|congruence]. destruct (fss s g) as [[gs' w']|] eqn:EG; [|congruence]. destruct RR as [S L G].
  set (s0 := reinsert g f (exclude f s)). assert (G0 : good s0 (shown a)) by (apply (good_same s); [exact G|samefs]).
  destruct (clear_nobody s0 (shown a) f gs w G0 E) as (s1 & E1 & G1 & A1 & C1). cbn [rbind]. rewrite E1. cbn [rbind].
  assert (CC : only (concerns a (GAssign f g)) s s1) by (apply (calls_sub [f]); [exact C1|intros h [<-|[]]; reflexivity]). pose proof A1 as (AS & _ & AF & AL).
  change (with_fs s1 f (Some ([], []))) with (with_fs s1 f empty_fs). set (s2 := with_fs s1 f empty_fs) in *. destruct (Nat.eqb_spec f g) as [<-|NE].
  - replace (fss s2 f) with (@empty_fs) by (symmetry; apply upd_eq). cbn [empty_fs]. eexists. split; [reflexivity|]. split; [|exact CC]. constructor.
    + cbn [s2 with_fs srcs]. rewrite AS. unfold s0. cbn [reinsert exclude on_links srcs]. eapply sources_alike; [apply sources_exclude; exact S| |split; reflexivity]. intros x. cbn beta. destruct (srcs s x) as [[z k]|]; auto. do 2 f_equal. transitivity (map (fun j => j) (leave f k)); [|apply map_id]. apply map_ext. intros j. destruct (Nat.eqb_spec j f); auto.
    + intros h. cbn [s2 with_fs fss from]. unfold upd. destruct (h =? f); [discriminate|]. intros Q. apply AL. apply L. exact Q.
    + apply (good_same s2); [|]. { eapply good_ext; [exact G1|]. intros h _. unfold shown. cbn [from els]. unfold upd. destruct (h =? f); auto. }
      unfold s2. split; [|split; [intros j J; cbn in *; tauto|split; reflexivity]]. intros h. cbn [with_fs reinsert exclude on_links fss]. unfold upd, empty_fs. destruct (h =? f); auto.
  - destruct (fss s1 g) as [[gg wg]|] eqn:F1; [|exfalso; apply (AL g); auto; cbn; congruence]. assert (F2 : fss s2 g = Some (gg, wg)) by (cbn [s2 with_fs fss]; rewrite upd_neq; auto). rewrite F2. eexists. split; [reflexivity|]. split; [|exact CC]. constructor.
    + cbn [s2 with_fs srcs]. rewrite AS. unfold s0. cbn [reinsert exclude on_links srcs]. eapply sources_alike; [apply (sources_ren _ _ g f (sources_exclude _ _ f S)); [apply upd_eq|auto]| |].
      * intros x. cbn beta. destruct (srcs s x) as [[z k]|]; reflexivity.
      * split; [reflexivity|]. intros h. cbn [from els]. unfold upd. destruct (Nat.eqb_spec h g) as [->|]; auto. destruct (Nat.eqb_spec h f) as [->|]; auto. destruct (Nat.eqb_spec g f); congruence.
    + intros h. cbn [s2 with_fs fss from]. unfold upd. destruct (h =? f); [discriminate|]. destruct (h =? g); [discriminate|]. intros Q. apply AL. apply L. exact Q.
    + eapply good_ext; [apply (good_give s2 (upd (shown a) f []) g f gg wg); auto|].
      * intros q qw. cbn [s2 with_fs fss]. rewrite upd_eq. unfold empty_fs. intros Q. injection Q as <- <-. auto.
      * intros h _. unfold shown. cbn [from els]. unfold upd. destruct (Nat.eqb_spec h g); destruct (Nat.eqb_spec h f); subst; auto; try congruence. destruct (Nat.eqb_spec g f); congruence.
Qed.
Lemma step_gdestroy s a f : R s a -> fss s f <> None -> does (GDestroy f) s a.
Proof.
  intros RR F. unfold does. cbn [gstep astep]. destruct (fss s f) as [[gs w]|] eqn:E; [|congruence]. destruct RR as [S L G].
  destruct (clear_nobody s (shown a) f gs w G E) as (s1 & E1 & G1 & A1 & C1). rewrite E1. cbn [rbind]. pose proof A1 as (AS & _ & AF & AL). eexists. split; [reflexivity|]. split; [|apply (calls_sub [f]); [exact C1|intros h [<-|[]]; reflexivity]]. constructor.
  - cbn [exclude on_links with_fs srcs]. rewrite AS. now apply sources_exclude.
  - intros h. cbn [exclude on_links with_fs fss from]. unfold upd. destruct (h =? f); [congruence|auto].
  - apply (good_same (with_fs (with_fs s1 f empty_fs) f None)).
    + apply good_vanish; [|intros q qw; cbn [with_fs fss]; rewrite upd_eq; unfold empty_fs; intros Q; injection Q as <- <-; auto]. eapply good_ext; [exact G1|]. intros h _. unfold shown. cbn [from els]. unfold upd. destruct (h =? f); auto.
    + cbn [exclude on_links with_fs fss gl wl used]. split; [|split; [intros j J; cbn in *; tauto|split; reflexivity]]. intros h. cbn [with_fs reinsert exclude on_links fss]. unfold upd, empty_fs. destruct (h =? f); auto.
Qed.

(** ** The observers *)
Lemma good_sub s zs f gs w gs' w' l' wg' i : good s zs -> fss s f = Some (gs, w) -> own (FSt gs' w' l' wg') (zs f) ->
  (forall j, In j (observers gs') -> j = i \/ In j (observers gs)) -> (forall j, In j (observers gs) -> In j (observers gs')) -> (forall j, In j w' -> j = i \/ In j w) -> (forall j, In j w -> In j w') ->
  (forall h hs hw, fss s h = Some (hs, hw) -> ~ In i (observers hs) /\ ~ In i hw) ->
  (forall j, j <> i -> l' j = gl s j) -> (forall j, j <> i -> wg' j = wl s j) -> In i (observers gs') \/ l' i = gl s i -> In i w' \/ wg' i = wl s i ->
  good (Wst (srcs s) (upd (fss s) f (Some (gs', w'))) (used s) l' wg') zs.
Proof.
  intros [O D W G GW U] F OF OI1 OI2 WI1 WI2 NI L1 L2 LI WI. constructor; cbn [fss gl wl used].
  - intros h hs hw. unfold upd. destruct (Nat.eqb_spec h f) as [->|N]; intros X; [injection X as <- <-; exact OF|]. destruct (NI _ _ _ X) as (N1 & N2).
    eapply own_logs; [apply (O _ _ _ X)|reflexivity|reflexivity| |]; cbn [grs watch glog wlog]; intros j J; [apply L1|apply L2]; congruence.
  - intros h h' hs hw hs' hw' j. unfold upd. destruct (Nat.eqb_spec h f) as [->|N]; destruct (Nat.eqb_spec h' f) as [->|N']; intros X Y I J; auto.
    + injection X as <- <-. destruct (OI1 _ I) as [->|I']; [now destruct (NI _ _ _ Y)|]. eapply D; eauto.
    + injection Y as <- <-. destruct (OI1 _ J) as [->|J']; [now destruct (NI _ _ _ X)|]. eapply D; eauto.
    + eapply D; eauto.
  - intros h h' hs hw hs' hw' j. unfold upd. destruct (Nat.eqb_spec h f) as [->|N]; destruct (Nat.eqb_spec h' f) as [->|N']; intros X Y I J; auto.
    + injection X as <- <-. destruct (WI1 _ I) as [->|I']; [now destruct (NI _ _ _ Y)|]. eapply W; eauto.
    + injection Y as <- <-. destruct (WI1 _ J) as [->|J']; [now destruct (NI _ _ _ X)|]. eapply W; eauto.
    + eapply W; eauto.
  - intros j H. assert (NJ : ~ In j (observers gs')) by (apply (H f gs' w'); apply upd_eq).
    assert (E : l' j = gl s j) by (destruct (Nat.eq_dec j i) as [->|]; [destruct LI; [contradiction|auto]|auto]). rewrite E. apply G.
    intros h hs hw X. destruct (Nat.eq_dec h f) as [->|N]; [rewrite F in X; injection X as <- <-; auto|]. apply (H h hs hw). now rewrite upd_neq.
  - intros j H. assert (NJ : ~ In j w') by (apply (H f gs' w'); apply upd_eq).
    assert (E : wg' j = wl s j) by (destruct (Nat.eq_dec j i) as [->|]; [destruct WI; [contradiction|auto]|auto]). rewrite E. apply GW.
    intros h hs hw X. destruct (Nat.eq_dec h f) as [->|N]; [rewrite F in X; injection X as <- <-; auto|]. apply (H h hs hw). now rewrite upd_neq.
  - intros h. unfold upd. destruct (Nat.eqb_spec h f) as [->|N]; intros H; apply U; congruence.
Qed.
Lemma observers_iff gs i : In i (observers (T := T) gs) <-> exists g os, In (g, os) gs /\ In i os.
Proof.
  split; [|intros (g & os & A & B); eapply observers_in; eauto]. unfold observers. intros I. apply in_concat in I as (os & A & B). apply in_map_iff in A as ((g & o) & <- & A). exists g, o. auto.
Qed.
Lemma busy_spec s zs i : good s zs -> busy i s = true <-> observed_by s i.
Proof.
  intros G. unfold busy. rewrite existsb_exists. unfold observed_by. split.
  - intros (f & _ & X). destruct (fss s f) as [[gs w]|] eqn:F; [|discriminate]. exists f, gs, w. split; auto. rewrite <- observers_iff. destruct (in_dec Nat.eq_dec i (observers gs)); auto. destruct (in_dec Nat.eq_dec i w); auto.
    exfalso. unfold subscribed in X. cbn [grs watch] in X. apply orb_true_iff in X as [X|X]; [|apply mem_true in X; contradiction]. apply existsb_exists in X as ((g & os) & A & B). apply mem_true in B. apply n. eapply observers_in; eauto.
  - intros (f & gs & w & F & X). exists f. split; [apply (g_used _ _ G); congruence|]. rewrite F. destruct (subscribed i _) eqn:S; auto. apply unsubscribed in S as (S1 & S2). cbn [grs watch] in *. rewrite <- observers_iff in X. tauto.
Qed.
Lemma not_busy s zs i : good s zs -> ~ observed_by s i -> busy i s = false /\ forall h hs hw, fss s h = Some (hs, hw) -> ~ In i (observers hs) /\ ~ In i hw.
Proof.
  intros G N. split; [destruct (busy i s) eqn:B; auto; now apply (busy_spec _ _ _ G) in B|]. intros h hs hw F. rewrite observers_iff. split; intros I; apply N; exists h, hs, hw; auto.
Qed.
Lemma unsub i s : ~ In i (observers (grs s)) -> ~ In i (watch s) -> subscribed (T := T) i s = false.
Proof.
  intros A B. destruct (subscribed i s) eqn:S; auto. exfalso. unfold subscribed in S. apply orb_true_iff in S as [X|X]; [|apply mem_true in X; contradiction]. apply existsb_exists in X as ((g & os) & C & D). apply mem_true in D. apply A. eapply observers_in; eauto.
Qed.
Lemma observe_own i k s zs : own s zs -> ~ In i (observers (grs s)) -> ~ In i (watch s) -> has_key fk zs k ->
  exists gs' l', fstep pk fk (FObserve i k) s = Ok (FSt gs' (watch s) l' (wlog s)) /\ own (FSt gs' (watch s) l' (wlog s)) zs /\ (forall j, In j (observers gs') <-> j = i \/ In j (observers (grs s))) /\ forall j, j <> i -> l' j = glog s j.
Proof.
  intros O N1 N2 HK. pose proof (own_masked _ _ O) as I. cbn [fstep]. rewrite (unsub i s) by auto. pose proof (keyed_grouping pk fk _ _ (o_grs _ _ O)) as KD. destruct (find_pos_ok fk k _ _ KD) as (o & E1 & E2 & E3). rewrite E1. cbn [rbind].
  destruct o as [n|]; [|exfalso; apply E3, keys_has; exact HK]. destruct E3 as (a & g & os & b & EG & <- & GK). rewrite EG, nth_split_eq, set_split.
  eexists _, _. split; [reflexivity|]. split; [|split].
  - assert (E : fstep pk fk (FObserve i k) (masked s) = Ok (FSt (a ++ (g, os ++ [i]) :: b) (watch s) (upd (glog (masked s)) i (rev (map KAdded g))) (wlog s))).
    { cbn [fstep]. rewrite (unsub i (masked s)) by auto. change (grs (masked s)) with (grs s). rewrite E1. cbn [rbind]. rewrite EG, nth_split_eq, set_split. reflexivity. }
    apply observe_inv with (zs := zs) in E; auto. apply inv_own in E. eapply own_logs; [exact E|reflexivity|reflexivity| |reflexivity]. cbn [grs glog]. intros j J. unfold upd. destruct (Nat.eqb_spec j i) as [->|NE]; auto. symmetry. apply masked_in.
    rewrite observers_split, !in_app_iff in J. rewrite EG, observers_split, !in_app_iff. cbn [In] in J. intuition congruence.
  - intros j. pose proof (observers_split a g os b) as Q1. pose proof (observers_split a g (os ++ [i]) b) as Q2. unfold GroupObsModel.group in *. rewrite Q1, Q2, !in_app_iff. cbn [In]. split; intros H; decompose [or] H; subst; auto 10; contradiction.
  - intros j NE. now apply upd_neq.
Qed.
Lemma watch_own i s zs : own s zs -> ~ In i (observers (grs s)) -> ~ In i (watch s) ->
  exists wg', fstep pk fk (FWatch i) s = Ok (FSt (grs s) (watch s ++ [i]) (glog s) wg') /\ own (FSt (grs s) (watch s ++ [i]) (glog s) wg') zs /\ forall j, j <> i -> wg' j = wlog s j.
Proof.
  intros O N1 N2. pose proof (own_masked _ _ O) as I. cbn [fstep]. rewrite (unsub i s) by auto. eexists. split; [reflexivity|]. split; [|intros j NE; now apply upd_neq].
  assert (E : fstep pk fk (FWatch i) (masked s) = Ok (FSt (grs s) (watch s ++ [i]) (glog (masked s)) (upd (wlog s) i (rev (map (fun g => GAdded (fst g)) (grs s)))))) by (cbn [fstep]; rewrite (unsub i (masked s)) by auto; reflexivity).
  apply watch_inv with (zs := zs) in E; auto. apply inv_own in E. eapply own_logs; [exact E|reflexivity|reflexivity| |reflexivity]. cbn [grs glog]. intros j J. symmetry. now apply masked_in.
Qed.

(** What an operation does to the logs of the observers: as [only], and its own observer may get a new log. *)
Definition told_only (o : wop (T := T)) (a : ast (T := T)) (s s' : wst) : Prop :=
  (forall i, ~ own_observer o i -> (forall f gs w, concerns a o f -> fss s f = Some (gs, w) -> ~ In i (observers gs)) -> gl s' i = gl s i) /\
  (forall i, ~ own_observer o i -> (forall f gs w, concerns a o f -> fss s f = Some (gs, w) -> ~ In i w) -> wl s' i = wl s i).
Definition goes (o : wop (T := T)) (s : wst) (a : ast (T := T)) : Prop := exists s', gstep pk fk o s = Ok s' /\ R s' (astep pk o a) /\ told_only o a s s'.
Lemma does_goes o s a : does o s a -> goes o s a.
Proof. intros (s' & E & RR & A & B). exists s'. split; auto. split; auto. split; auto. Qed.
Lemma step_observe s a i f k : R s a -> fss s f <> None -> ~ observed_by s i -> (exists z, In z (shown a f) /\ fk z = k) -> goes (GObserve i f k) s a.
Proof.
  intros [S L G] F NB HK. unfold goes. cbn [gstep astep]. destruct (not_busy _ _ _ G NB) as (B & NI). rewrite B. unfold in_fs. destruct (fss s f) as [[gs w]|] eqn:E; [|congruence]. destruct (NI _ _ _ E) as (N1 & N2).
  destruct (observe_own i k (FSt gs w (gl s) (wl s)) (shown a f)) as (gs' & l' & E1 & O & OI & LL); auto; [now apply (g_own _ _ G)|]. rewrite E1. cbn [rbind grs watch glog wlog] in *. eexists. split; [reflexivity|]. split.
  - constructor; cbn [srcs fss]; auto; [intros h H; unfold upd; destruct (h =? f); [discriminate|auto]|].
    apply (good_sub s (shown a) f gs w gs' w l' (wl s) i); auto; try (intros j J; apply OI; auto). left. apply OI. auto.
  - split; cbn [gl wl]; auto.
Qed.
Lemma step_watch s a i f : R s a -> fss s f <> None -> ~ observed_by s i -> goes (GWatch i f) s a.
Proof.
  intros [S L G] F NB. unfold goes. cbn [gstep astep]. destruct (not_busy _ _ _ G NB) as (B & NI). rewrite B. unfold in_fs. destruct (fss s f) as [[gs w]|] eqn:E; [|congruence]. destruct (NI _ _ _ E) as (N1 & N2).
  destruct (watch_own i (FSt gs w (gl s) (wl s)) (shown a f)) as (wg' & E1 & O & LL); auto; [now apply (g_own _ _ G)|]. rewrite E1. cbn [rbind grs watch glog wlog] in *. eexists. split; [reflexivity|]. split.
  - constructor; cbn [srcs fss]; auto; [intros h H; unfold upd; destruct (h =? f); [discriminate|auto]|].
    apply (good_sub s (shown a) f gs w gs (w ++ [i]) (gl s) wg' i); auto; try (intros j J; rewrite in_app_iff in *; cbn [In] in *; intuition congruence). left. rewrite in_app_iff. cbn. auto.
  - split; cbn [gl wl]; auto.
Qed.
Lemma observers_leave i gs : observers (map (fun g : group => (fst g, leave i (snd g))) gs) = leave i (observers gs).
Proof. unfold observers, leave. induction gs as [|g gs IH]; auto. cbn [map concat snd]. rewrite filter_app, <- IH. reflexivity. Qed.
Lemma step_leave s a i : R s a -> goes (GLeave i) s a.
Proof.
  intros [S L [O D W G GW U]]. unfold goes. cbn [gstep astep]. eexists. split; [reflexivity|]. split; [|split; cbn [gl wl own_observer]; intros j J _; now apply upd_neq].
  assert (B : forall f gs w, match fss s f with Some (gs, w) => Some (map (fun g => (fst g, leave i (snd g))) gs, leave i w) | None => None end = Some (gs, w) -> exists gs0 w0, fss s f = Some (gs0, w0) /\ gs = map (fun g => (fst g, leave i (snd g))) gs0 /\ w = leave i w0).
  { intros f gs w. destruct (fss s f) as [[g0 w0]|]; [|discriminate]. intros X. injection X as <- <-. eauto. }
  assert (FW : forall f gs w, fss s f = Some (gs, w) -> match fss s f with Some (gs, w) => Some (map (fun g => (fst g, leave i (snd g))) gs, leave i w) | None => None end = Some (map (fun g => (fst g, leave i (snd g))) gs, leave i w)) by (intros f gs w ->; reflexivity).
  constructor; cbn [srcs fss]; auto; [intros f F; specialize (L f F); destruct (fss s f) as [[? ?]|]; congruence|]. constructor; cbn [fss gl wl used].
  - intros f gs w F. destruct (B _ _ _ F) as (g0 & w0 & F0 & -> & ->). pose proof (O _ _ _ F0) as OF.
    assert (E : fstep pk fk (FLeave i) (masked (FSt g0 w0 (gl s) (wl s))) = Ok (FSt (map (fun g => (fst g, leave i (snd g))) g0) (leave i w0) (upd (glog (masked (FSt g0 w0 (gl s) (wl s)))) i []) (upd (wl s) i []))) by reflexivity.
    apply leave_inv with (zs := shown a f) in E; [|now apply own_masked]. apply inv_own in E. eapply own_logs; [exact E|reflexivity|reflexivity| |reflexivity]. cbn [grs glog]. intros j J. unfold upd. destruct (Nat.eqb_spec j i); auto. symmetry. apply masked_in. cbn [grs].
    assert (J' : In j (leave i (observers g0))) by (rewrite <- observers_leave; exact J). now apply leave_in in J'.
  - intros f f' gs w gs' w' j X Y I J. destruct (B _ _ _ X) as (g0 & w0 & F0 & -> & ->). destruct (B _ _ _ Y) as (g1 & w1 & F1 & -> & ->).
    assert (I' : In j (leave i (observers g0))) by (rewrite <- observers_leave; exact I). assert (J' : In j (leave i (observers g1))) by (rewrite <- observers_leave; exact J). apply leave_in in I', J'. apply (D _ _ _ _ _ _ j F0 F1); tauto.
  - intros f f' gs w gs' w' j X Y I J. destruct (B _ _ _ X) as (g0 & w0 & F0 & -> & ->). destruct (B _ _ _ Y) as (g1 & w1 & F1 & -> & ->). apply leave_in in I, J. apply (W _ _ _ _ _ _ j F0 F1); tauto.
  - intros j H z. unfold upd. destruct (Nat.eqb_spec j i) as [->|NE]; [auto|]. apply G. intros f gs w F I. apply (H _ _ _ (FW _ _ _ F)). change (In j (observers (map (fun g : group => (fst g, leave i (snd g))) gs))). rewrite observers_leave. now apply leave_in.
  - intros j H k. unfold upd. destruct (Nat.eqb_spec j i) as [->|NE]; [auto|]. apply GW. intros f gs w F I. apply (H _ _ _ (FW _ _ _ F)). now apply leave_in.
  - intros f F. apply U. destruct (fss s f); congruence.
Qed.

Lemma step_ok o s a : R s a -> valid fk s a o -> goes o s a.
Proof.
  intros RR V. destruct o; cbn [valid] in V; try (destruct V as (V1 & V2)).
  1-12: apply does_goes. 1: now apply step_new. 1: now apply step_insert. 1: now apply step_erase. 1: now apply step_clear. 1: now apply step_move. 1: now apply step_assign. 1: now apply step_destroy.
  1: now apply step_gnew. 1: now apply step_from. 1: now apply step_gmove. 1: now apply step_gassign. 1: now apply step_gdestroy.
  - destruct V2 as (V2 & V3). now apply step_observe.
  - now apply step_watch.
  - now apply step_leave.
Qed.
Lemma ok_valid o s s' a : R s a -> gstep pk fk o s = Ok s' -> valid fk s a o.
Proof.
  intros RR E. pose proof (r_good _ _ RR) as G.
  destruct o; cbn [gstep valid] in *;
    repeat match goal with
           | E : match srcs s ?x with _ => _ end = Ok _ |- _ => destruct (srcs s x) as [[? ?]|] eqn:?; try discriminate
           | E : match fss s ?x with _ => _ end = Ok _ |- _ => destruct (fss s x) as [[? ?]|] eqn:?; try discriminate
           end; try congruence; try (split; congruence); try exact I.
  - destruct (busy i s) eqn:B; [discriminate|]. unfold in_fs in E. destruct (fss s f) as [[gs w]|] eqn:F; [|discriminate]. split; [discriminate|]. split; [rewrite <- (busy_spec _ _ _ G); congruence|].
    pose proof (g_own _ _ G _ _ _ F) as O. cbn [fstep grs watch glog wlog] in E. destruct (subscribed i _); [discriminate|]. pose proof (keyed_grouping pk fk _ _ (o_grs _ _ O)) as KD. cbn [grs] in KD. destruct (find_pos_ok fk k _ _ KD) as (o & E1 & _ & E3). rewrite E1 in E. cbn [rbind] in E. destruct o as [n|]; [|discriminate].
    destruct E3 as (q & g & os & b & -> & _ & GK). pose proof (o_grs _ _ O) as OG. cbn [grs] in OG. destruct g as [|z g]; [discriminate|]. cbn [group_key] in GK. injection GK as GK. exists z. split; auto.
    apply (in_grouping pk fk). rewrite <- OG, map_app. apply in_concat. exists (z :: g). split; [apply in_or_app; cbn; auto|cbn; auto].
  - destruct (busy i s) eqn:B; [discriminate|]. unfold in_fs in E. destruct (fss s f) as [[gs w]|] eqn:F; [|discriminate]. split; [discriminate|]. rewrite <- (busy_spec _ _ _ G); congruence.
Qed.
Lemma step_R o s s' a : R s a -> gstep pk fk o s = Ok s' -> R s' (astep pk o a) /\ told_only o a s s'.
Proof. intros RR E. destruct (step_ok o s a RR (ok_valid _ _ _ _ RR E)) as (s2 & E2 & R2 & T2). rewrite E in E2. injection E2 as <-. auto. Qed.
Lemma run_R os : forall s s' a, R s a -> grun pk fk os s = Ok s' -> R s' (fold_left (fun a o => astep pk o a) os a).
Proof.
  induction os as [|o os IH]; intros s s' a RR E; cbn [grun fold_left] in *; [injection E as <-; auto|]. destruct (gstep pk fk o s) as [s1| |] eqn:E1; try discriminate. cbn [rbind] in E. eapply IH; [|exact E]. now apply (step_R o s).
Qed.
Lemma init_R : R winit ainit.
Proof.
  constructor; [constructor| |].
  - discriminate.
  - intros x _. split; [reflexivity|discriminate].
  - intros x. constructor.
  - intros f F. now destruct F.
  - constructor; cbn; try discriminate; auto.
Qed.
Lemma reach os s : grun pk fk os winit = Ok s -> R s (arun pk os).
Proof. apply run_R. apply init_R. Qed.

(** ** The theorems *)
(** Whatever has been moved, assigned and destroyed: the groups of each foreign_set are the elements of the source that it follows, grouped by
    the foreign key, in the order of the keys. *)
Theorem gmove_groups : forall os s f gs w, grun pk fk os winit = Ok s -> fss s f = Some (gs, w) ->
  map fst gs = grouping (shown (arun pk os) f).
Proof. intros os s f gs w E F. exact (o_grs _ _ (g_own _ _ (r_good _ _ (reach os s E)) _ _ _ F)). Qed.
(** The elements of a source have different primary keys and are those that have been inserted and not erased. *)
Theorem gmove_sources : forall os s x zs l, grun pk fk os winit = Ok s -> srcs s x = Some (zs, l) ->
  zs = els (arun pk os) x /\ NoDup (map pk zs) /\ NoDup l /\ forall f, In f l <-> from (arun pk os) f = Some x /\ fss s f <> None.
Proof.
  intros os s x zs l E X. pose proof (reach os s E) as [S L _]. destruct (r_src _ _ S _ _ _ X) as (A & B & C). split; auto. split; [rewrite A; apply (r_pk _ _ S)|]. split; auto. intros f. rewrite C. split; [|tauto]. intros F. split; auto. apply L. congruence.
Qed.
(** What an observer of a group knows is the elements of that group; what an observer of a foreign_set knows is the keys of its groups. *)
Theorem gmove_knows : forall os s f gs w i, grun pk fk os winit = Ok s -> fss s f = Some (gs, w) ->
  (forall g ob, In (g, ob) gs -> In i ob -> exists k, has_key fk (shown (arun pk os) f) k /\ forall z, shows (gl s i) z <-> In z (shown (arun pk os) f) /\ fk z = k) /\
  (In i w -> forall k, wshows fk (wl s i) k <-> has_key fk (shown (arun pk os) f) k).
Proof.
  intros os s f gs w i E F. pose proof (g_own _ _ (r_good _ _ (reach os s E)) _ _ _ F) as O. split; [|apply (o_wshows _ _ O)].
  intros g ob I Io. destruct (grouped_key pk fk (masked (FSt gs w (gl s) (wl s))) (shown (arun pk os) f) g ob (own_masked _ _ O) I) as (k & K & z0 & Z0). exists k. split.
  - apply K in Z0 as (Z0 & ZK). exists z0. auto.
  - intros z. rewrite (o_shows _ _ O g ob i I Io z). apply K.
Qed.
(** Who observes nothing knows nothing. *)
Theorem gmove_gone : forall os s i, grun pk fk os winit = Ok s -> ~ observed_by s i -> (forall z, ~ shows (gl s i) z) /\ forall k, ~ wshows fk (wl s i) k.
Proof.
  intros os s i E N. pose proof (r_good _ _ (reach os s E)) as G. destruct (not_busy _ _ _ G N) as (_ & NI). split.
  - apply (g_gone _ _ G). intros f gs w F. apply (NI _ _ _ F).
  - apply (g_wgone _ _ G). intros f gs w F. apply (NI _ _ _ F).
Qed.
(** Nobody observes two things. *)
Theorem gmove_one : forall os s i f gs w f' gs' w', grun pk fk os winit = Ok s -> fss s f = Some (gs, w) -> fss s f' = Some (gs', w') ->
  (In i (observers gs) -> In i (observers gs') -> f = f') /\ (In i w -> In i w' -> f = f') /\ NoDup (observers gs) /\ NoDup w.
Proof.
  intros os s i f gs w f' gs' w' E F F'. pose proof (r_good _ _ (reach os s E)) as G. pose proof (g_own _ _ G _ _ _ F) as O. split; [apply (g_dj _ _ G _ _ _ _ _ _ i F F')|]. split; [apply (g_wdj _ _ G _ _ _ _ _ _ i F F')|]. split; [apply (o_nodup _ _ O)|apply (o_wnodup _ _ O)].
Qed.
(** An operation has a defined result exactly when its objects are there. *)
Theorem gmove_safe : forall os s o, grun pk fk os winit = Ok s -> ((exists s', gstep pk fk o s = Ok s') <-> valid fk s (arun pk os) o).
Proof.
  intros os s o E. pose proof (reach os s E) as RR. split; [intros (s' & E'); eapply ok_valid; eauto|]. intros V. destruct (step_ok o s _ RR V) as (s' & E' & _). eauto.
Qed.
(** An operation calls only the observers of the foreign_sets that it concerns: those that follow the source that changes, and the one that is
    assigned or destroyed.  A move of a source or of a foreign_set calls nobody. *)
Theorem gmove_told : forall os s o s' i, grun pk fk os winit = Ok s -> gstep pk fk o s = Ok s' -> ~ own_observer o i ->
  ((forall f gs w, concerns (arun pk os) o f -> fss s f = Some (gs, w) -> ~ In i (observers gs)) -> gl s' i = gl s i) /\
  ((forall f gs w, concerns (arun pk os) o f -> fss s f = Some (gs, w) -> ~ In i w) -> wl s' i = wl s i).
Proof. intros os s o s' i E E' N. destruct (step_R o s s' _ (reach os s E) E') as (_ & A & B). split; [now apply A|now apply B]. Qed.
(** A move gives the groups with their observers, the observers of the foreign_set and its subscription to the new one. *)
Theorem gmove_move : forall os s f g s' gs w x, grun pk fk os winit = Ok s -> gstep pk fk (GMove f g) s = Ok s' -> fss s f = Some (gs, w) ->
  fss s' g = Some (gs, w) /\ fss s' f = Some ([], []) /\
  (forall h, h <> f -> h <> g -> fss s' h = fss s h) /\
  forall zs l, srcs s x = Some (zs, l) -> exists l', srcs s' x = Some (zs, l') /\ (In g l' <-> In f l) /\ ~ In f l' /\ length l' = length l /\ forall n h, h <> f -> nth_error l n = Some h -> nth_error l' n = Some h.
Proof.
  intros os s f g s' gs w x E E' F. pose proof (reach os s E) as RR. pose proof (ok_valid _ _ _ _ RR E') as (V1 & V2). cbn [gstep] in E'. rewrite F, V2 in E'. injection E' as <-. cbn [with_fs reinsert on_links fss srcs]. assert (NE : f <> g) by congruence.
  split; [rewrite upd_neq, upd_eq; auto|]. split; [apply upd_eq|]. split; [intros h N1 N2; now rewrite !upd_neq|]. intros zs l X. rewrite X. eexists. split; [reflexivity|].
  destruct (r_src _ _ (r_srcs _ _ RR) _ _ _ X) as (_ & ND & IF). assert (NG : ~ In g l) by (rewrite IF, (not_from _ _ _ RR V2); discriminate).
  split; [|split; [|split; [apply map_length|]]].
  - rewrite in_map_iff. split; [intros (j & J & I); destruct (Nat.eqb_spec j f); congruence|]. intros I. exists f. rewrite Nat.eqb_refl. auto.
  - rewrite in_map_iff. intros (j & J & I). destruct (Nat.eqb_spec j f); congruence.
  - intros n h N1 H. rewrite nth_error_map, H. cbn. destruct (Nat.eqb_spec h f); congruence.
Qed.
(** A move assignment: the observers of the groups of the target know nothing any more, and those of the target itself are forgotten; the
    groups and observers of the other one are in the target. *)
Theorem gmove_assign : forall os s f g s' gs w gf wf i, grun pk fk os winit = Ok s -> gstep pk fk (GAssign f g) s = Ok s' -> f <> g -> fss s f = Some (gf, wf) -> fss s g = Some (gs, w) ->
  fss s' f = Some (gs, w) /\ fss s' g = Some ([], []) /\ 
  (In i (observers gf) -> (forall h hs hw, fss s' h = Some (hs, hw) -> ~ In i (observers hs)) /\ forall z, ~ shows (gl s' i) z) /\
  (In i wf -> (forall h hs hw, fss s' h = Some (hs, hw) -> ~ In i hw) /\ forall k, ~ wshows fk (wl s' i) k).
Proof.
  intros os s f g s' gs w gf wf i E E' NE F FG. pose proof (reach os s E) as RR. destruct (step_R _ _ _ _ RR E') as (RR' & _). pose proof (r_good _ _ RR) as G. pose proof (r_good _ _ RR') as G'.
  assert (X : fss s' f = Some (gs, w) /\ fss s' g = Some ([], []) /\ forall h, h <> f -> h <> g -> fss s' h = fss s h).
  { cbn [gstep] in E'. rewrite F, FG in E'. unfold in_fs in E' at 1. cbn [reinsert exclude on_links fss srcs gl wl used] in E'. rewrite F in E'. cbn [rbind with_fs fss] in E'. unfold upd in E' at 1 2. destruct (Nat.eqb_spec g f) as [|N]; [congruence|]. rewrite FG in E'. injection E' as <-. cbn [with_fs fss].
    split; [apply upd_eq|]. split; [rewrite upd_neq by auto; apply upd_eq|]. intros h N1 N2. now rewrite !upd_neq. }
  destruct X as (X1 & X2 & X3).
  assert (NO : In i (observers gf) -> forall h hs hw, fss s' h = Some (hs, hw) -> ~ In i (observers hs)).
  { intros I h hs hw H J. destruct (Nat.eq_dec h f) as [->|N1]; [rewrite X1 in H; injection H as <- <-; apply NE; eapply (g_dj _ _ G); eauto|]. destruct (Nat.eq_dec h g) as [->|N2]; [rewrite X2 in H; injection H as <- <-; destruct J|]. rewrite X3 in H by auto. apply N1. eapply (g_dj _ _ G); eauto. }
  assert (NW : In i wf -> forall h hs hw, fss s' h = Some (hs, hw) -> ~ In i hw).
  { intros I h hs hw H J. destruct (Nat.eq_dec h f) as [->|N1]; [rewrite X1 in H; injection H as <- <-; apply NE; eapply (g_wdj _ _ G); eauto|]. destruct (Nat.eq_dec h g) as [->|N2]; [rewrite X2 in H; injection H as <- <-; destruct J|]. rewrite X3 in H by auto. apply N1. eapply (g_wdj _ _ G); eauto. }
  split; auto. split; auto. split; intros I; split.
  - exact (NO I).
  - exact (g_gone _ _ G' i (NO I)).
  - exact (NW I).
  - exact (g_wgone _ _ G' i (NW I)).
Qed.
End Proofs.

(** A move assignment of a foreign_set to itself: the groups, their observers, the observers of the foreign_set and its subscription are lost. *)
Theorem gmove_self_refuted : exists (os : list (wop (T := Z * Z))) s s' f gs w, grun fst snd os winit = Ok s /\ gstep fst snd (GAssign f f) s = Ok s' /\
  fss s f = Some (gs, w) /\ gs <> [] /\ w <> [] /\ from (arun fst os) f <> None /\
  fss s' f = Some ([], []) /\ forall v s2, gstep fst snd (WInsert 0 v) s' = Ok s2 -> fss s2 f = Some ([], []).
Proof.
  exists [WNew 0; WInsert 0 (1, 7); WInsert 0 (2, 8); GFrom 0 0; GWatch 5 0; GObserve 6 0 7]%Z. eexists _, _, 0, _, _. split; [vm_compute; reflexivity|]. split; [vm_compute; reflexivity|]. split; [reflexivity|]. split; [discriminate|]. split; [discriminate|]. split; [vm_compute; discriminate|]. split; [reflexivity|].
  intros v s2. cbn. destruct (_ || _)%bool; intros E; injection E as <-; reflexivity.
Qed.

(** A foreign_set that follows a source is moved, then the source is moved, and the observers hear of what happens to the source. *)
Example gmove_example : match grun fst snd [WNew 0; WInsert 0 (1, 7); GFrom 0 0; GWatch 5 0; GObserve 6 0 7; GMove 0 1; WMove 0 1; WInsert 1 (2, 7); WInsert 1 (3, 8); WInsert 0 (9, 9)]%Z winit with
  | Ok s => fss s 0 = Some ([], []) /\ fss s 1 = Some ([([(1, 7); (2, 7)]%Z, [6]); ([(3, 8)%Z], [])], [5]) /\ gl s 6 = [KAdded (2, 7); KAdded (1, 7)]%Z /\ wl s 5 = [GAdded [(3, 8)]; GAdded [(1, 7)]]%Z /\
            from (arun fst [WNew 0; WInsert 0 (1, 7); GFrom 0 0; GWatch 5 0; GObserve 6 0 7; GMove 0 1; WMove 0 1; WInsert 1 (2, 7); WInsert 1 (3, 8); WInsert 0 (9, 9)])%Z 1 = Some 1
  | _ => False
  end.
Proof. vm_compute. auto. Qed.
(** An assigned foreign_set follows the source of the other one; its observer of a group is told, and the observer of the foreign_set too. *)
Example gmove_assign_example : match grun fst snd [WNew 0; WNew 1; WInsert 0 (1, 7); WInsert 1 (2, 8); GFrom 0 0; GFrom 1 1; GObserve 6 0 7; GWatch 5 0; GObserve 4 1 8; GAssign 0 1; WInsert 0 (3, 7); WInsert 1 (4, 8)]%Z winit with
  | Ok s => fss s 0 = Some ([([(2, 8); (4, 8)]%Z, [4])], []) /\ fss s 1 = Some ([], []) /\ gl s 6 = [KClearing; KAdded (1, 7)]%Z /\ wl s 5 = [GClearing; GAdded [(1, 7)]]%Z /\ gl s 4 = [KAdded (4, 8); KAdded (2, 8)]%Z
  | _ => False
  end.
Proof. vm_compute. auto. Qed.
(** A second subscription of an observer, and a foreign_set that is not there *)
Example gmove_invalid_example : grun fst snd [WNew 0; WInsert 0 (1, 7); GFrom 0 0; GWatch 5 0; GMove 0 1; GObserve 5 1 7]%Z winit = UB /\ grun fst snd [WNew 0; WInsert 0 (1, 7); GMove 0 1]%Z winit = UB.
Proof. vm_compute. auto. Qed.
