(** Notifications inside notifications (C93). *)
From Verif Require Import Common QListModel QListSpec QListProofs QListRel QListSim ObserverModel ObserverSpec ObserverProofs NotifyNestModel.
From Coq Require Import ZifyBool ZifyNat.

(** ** Specification *)
(** Each Notify calls those that were subscribed when it began, once each and in their order; the calls
    made by an observer come after its own.  [active] are the notifications that are under way and the
    observers that they still have to call: the operations meet their preconditions and leave these alone. *)
Section Spec.
Context (cb : list call -> nat -> nat -> list act).
Inductive notified : list (nat * list nat) -> qspec -> nat -> list call -> qspec -> list call -> Prop :=
| N_all active e l s log e' log' : find_list (lists e) l = Some s -> called active e l s log e' log' -> notified active e l log e' log'
with called : list (nat * list nat) -> qspec -> nat -> list nat -> list call -> qspec -> list call -> Prop :=
| C_end active e l log : called active e l [] log e log
| C_next active e l n rest log e1 log1 e' log' :
    done ((l, rest) :: active) e (cb log l n) (log ++ [(l, n)]) e1 log1 -> called active e1 l rest log1 e' log' ->
    called active e l (n :: rest) log e' log'
with done : list (nat * list nat) -> qspec -> list act -> list call -> qspec -> list call -> Prop :=
| D_end active e log : done active e [] log e log
| D_op active e o r log e1 v e' log' :
    sstep e o = Some (e1, v) -> (forall l rest, In (l, rest) active -> disturbs o l rest = false) -> done active e1 r log e' log' ->
    done active e (AOp o :: r) log e' log'
| D_notify active e l r log e1 log1 e' log' :
    notified active e l log e1 log1 -> done active e1 r log1 e' log' -> done active e (ANotify l :: r) log e' log'.
End Spec.
Scheme notified_mind := Minimality for notified Sort Prop
  with called_mind := Minimality for called Sort Prop
  with done_mind := Minimality for done Sort Prop.
Combined Scheme nested_mind from notified_mind, called_mind, done_mind.

(** ** The machine *)
Section Proofs.
Context (cb : list call -> nat -> nat -> list act).
Lemma nrun_plus a : forall b c, nrun cb (a + b) c = let* c1 := nrun cb a c in nrun cb b c1.
Proof. induction a as [|a IH]; intros b c; cbn [nrun Nat.add rbind]; [reflexivity|]. destruct (nstep cb c); cbn [rbind]; auto. Qed.
Definition reaches (c c' : config) : Prop := exists k, nrun cb k c = Ok c'.
Lemma reaches_refl c : reaches c c. Proof. now exists 0. Qed.
Lemma reaches_trans a b c : reaches a b -> reaches b c -> reaches a c.
Proof. intros [i H] [j K]. exists (i + j). rewrite nrun_plus, H. exact K. Qed.
Lemma reaches_step a b c : nstep cb a = Ok b -> reaches b c -> reaches a c.
Proof. intros H [j K]. exists (Datatypes.S j). cbn [nrun]. rewrite H. exact K. Qed.
(** The end is reached by one result only. *)
Lemma nrun_end k st log : nrun cb k (Config st log []) = Ok (Config st log []).
Proof. induction k; cbn [nrun nstep rbind]; auto. Qed.
Lemma reaches_end c st log st' log' : reaches c (Config st log []) -> reaches c (Config st' log' []) -> st = st' /\ log = log'.
Proof.
  intros [i H] [j K]. assert (E1 := nrun_plus i j c). assert (E2 := nrun_plus j i c). rewrite H in E1. rewrite K in E2. cbn [rbind] in E1, E2. rewrite nrun_end in E1, E2. rewrite Nat.add_comm in E2. rewrite E1 in E2. now injection E2 as -> ->.
Qed.

Definition kept (active : list (nat * list nat)) (e : qspec) : Prop := forall l rest, In (l, rest) active -> exists pre, find_list (lists e) l = Some (pre ++ rest).
Lemma nested_ok :
  (forall active e l log e' log', notified cb active e l log e' log' ->
     forall st r k, Sim st e -> kept active e -> exists st', reaches (Config st log (FActs (ANotify l :: r) :: k)) (Config st' log' (FActs r :: k)) /\ Sim st' e' /\ kept active e') /\
  (forall active e l s log e' log', called cb active e l s log e' log' ->
     forall st k pre, Sim st e -> kept active e -> find_list (lists e) l = Some (pre ++ s) ->
     exists st', reaches (Config st log (FWalk l (cursor l (hd_error s)) :: k)) (Config st' log' k) /\ Sim st' e' /\ kept active e') /\
  (forall active e acts log e' log', done cb active e acts log e' log' ->
     forall st k, Sim st e -> kept active e -> exists st', reaches (Config st log (FActs acts :: k)) (Config st' log' k) /\ Sim st' e' /\ kept active e').
Proof.
  apply nested_mind.
  - intros active e l s log e' log' E _ IH st r k Si K. destruct (IH st (FActs r :: k) [] Si K E) as (st' & R & S' & K'). exists st'. split; auto.
    eapply reaches_step; [|exact R]. cbn [nstep]. rewrite (begin_ok _ _ _ _ Si E). reflexivity.
  - intros active e l log st k pre Si K E. exists st. split; auto. eapply reaches_step; [|apply reaches_refl]. cbn [nstep hd_error cursor p_is addr_eqb]. now rewrite Nat.eqb_refl.
  - intros active e l n rest log e1 log1 e' log' _ IH1 _ IH2 st k pre Si K E.
    assert (K1 : kept ((l, rest) :: active) e). { intros l0 r0 [X|X]; [|auto]. injection X as <- <-. exists (pre ++ [n]). rewrite <- app_assoc. exact E. }
    destruct (IH1 st (FWalk l (cursor l (hd_error rest)) :: k) Si K1) as (st1 & R1 & S1 & K2). destruct (K2 l rest (or_introl eq_refl)) as [pre1 E1].
    destruct (IH2 st1 k pre1 S1) as (st' & R2 & S' & K'); auto. { intros l0 r0 X. apply K2. now right. }
    exists st'. split; auto. eapply reaches_step; [|eapply reaches_trans; [exact R1|exact R2]].
    change (cursor l (hd_error (n :: rest))) with (Some (El n)). cbn [nstep p_is addr_eqb as_elem rbind].
    pose proof Si as (R & _). pose proof (r_nd _ _ _ R _ _ E) as ND. rewrite (next_ok _ _ _ _ _ Si E) by (rewrite in_app_iff; cbn; auto).
    rewrite next_of_mid by (apply NoDup_remove in ND as [_ ND]; rewrite in_app_iff in ND; tauto). reflexivity.
  - intros active e log st k Si K. exists st. split; auto. eapply reaches_step; [reflexivity|apply reaches_refl].
  - intros active e o r log e1 v e' log' E D _ IH st k Si K. destruct (sim_step _ _ _ _ _ Si E) as (st1 & Q & S1).
    destruct (IH st1 k S1) as (st' & R & S' & K'). { intros l rest X. destruct (K l rest X) as [pre Ep]. eapply suffix_kept; eauto. }
    exists st'. split; auto. eapply reaches_step; [|exact R]. cbn [nstep]. rewrite Q. reflexivity.
  - intros active e l r log e1 log1 e' log' _ IH1 _ IH2 st k Si K. destruct (IH1 st r k Si K) as (st1 & R1 & S1 & K1). destruct (IH2 st1 k S1 K1) as (st' & R2 & S' & K'). exists st'. split; auto. eapply reaches_trans; eauto.
Qed.

Lemma nested_start st e l e' log : Sim st e -> notified cb [] e l [] e' log -> exists st', reaches (nstart st l) (Config st' log []) /\ Sim st' e'.
Proof.
  intros Si N. destruct nested_ok as (H & _). destruct (H _ _ _ _ _ _ N st [] [] Si) as (st' & R & S' & _). { intros ? ? []. }
  exists st'. split; auto. eapply reaches_trans; [exact R|]. eapply reaches_step; [reflexivity|apply reaches_refl].
Qed.
End Proofs.
Lemma sim_iterate st e l s : Sim st e -> find_list (lists e) l = Some s -> iterate (Datatypes.S (snd st)) (fst st) l = Ok s.
Proof. intros (R & ND & Cn & K) E. apply iterate_ok; [apply (r_circ _ _ _ R); exact E|]. rewrite K. eapply size_bound; [exact R|exact Cn|exact E]. Qed.

(** C93.  If every notification under way finds the observers that it still has to call where they were, then
    each of them, at any depth, calls those that were subscribed when it began. *)
Theorem notify_nested cb : forall os e vs st l e' log,
  srun sinit os = Some (e, vs) -> qexec qinit os = Ok st -> notified cb [] e l [] e' log ->
  exists k st', nrun cb k (nstart st l) = Ok (Config st' log []) /\
    forall l' s', find_list (lists e') l' = Some s' -> iterate (Datatypes.S (snd st')) (fst st') l' = Ok s'.
Proof.
  intros os e vs st l e' log Hr Hx N. destruct (sim_reach _ _ _ Hr) as (st0 & Hx' & Si). rewrite Hx in Hx'. injection Hx' as <-.
  destruct (nested_start cb st e l e' log Si N) as (st' & [k R] & S'). exists k, st'. split; auto. intros l' s' E. eapply sim_iterate; eauto.
Qed.

(** ** Cascades *)
(** Observers that may unsubscribe themselves and then notify observables of a lower level: what is called
    and who stays, on plain sequences *)
Section Cascade.
Context (leave : list call -> nat -> bool) (targets : list call -> nat -> nat -> list nat) (level : nat -> nat).
Definition forwarding (log : list call) (l n : nat) : list act := (if leave log n then [AOp (QExclude n)] else []) ++ map ANotify (targets log l n).
Fixpoint cascade (depth : nat) (w : (nat -> list nat) * list call) (l : nat) : (nat -> list nat) * list call :=
  match depth with
  | O => w
  | S d =>
    fold_left (fun (w : (nat -> list nat) * list call) n => let (subs, log) := w in
      fold_left (cascade d) (targets log l n) (if leave log n then upd subs l (without n (subs l)) else subs, log ++ [(l, n)]))
    (fst w l) w
  end.

Context (D : nat -> Prop) (T1 : forall log l n t, In t (targets log l n) -> D t) (T2 : forall log l n t, In t (targets log l n) -> level t < level l).
Definition matches (e : qspec) (subs : nat -> list nat) : Prop := forall l s, find_list (lists e) l = Some s -> subs l = s.
Definition fine (active : list (nat * list nat)) (h : nat) (e : qspec) (subs : nat -> list nat) : Prop :=
  (exists st, Sim st e) /\ kept active e /\ (forall l rest, In (l, rest) active -> h < level l) /\ matches e subs /\ forall l, D l -> find_list (lists e) l <> None.

Lemma leave_ok active h e subs l pre n rest : fine active h e subs -> level l <= h -> find_list (lists e) l = Some (pre ++ n :: rest) ->
  exists e1 v, sstep e (QExclude n) = Some (e1, v) /\ (forall l' r', In (l', r') ((l, rest) :: active) -> disturbs (QExclude n) l' r' = false) /\
    fine active h e1 (upd subs l (without n (subs l))) /\ find_list (lists e1) l = Some (pre ++ rest).
Proof.
  intros ((st & Si) & K & A & M & DD) L E. pose proof Si as (R & _). pose proof (r_nd _ _ _ R _ _ E) as ND.
  assert (N1 : ~ In n pre /\ ~ In n rest) by (apply NoDup_remove in ND as [_ ND]; rewrite in_app_iff in ND; tauto).
  assert (Hm : member e n = true). { unfold member. apply existsb_exists. exists (l, pre ++ n :: rest). split; [now apply find_in|]. apply mem_of_in. cbn. rewrite in_app_iff. cbn; auto. }
  assert (Es : sstep e (QExclude n) = Some (with_lists e (edit (without n) (lists e)), VUnit)) by (cbn [sstep]; rewrite Hm; reflexivity).
  assert (Ed : forall l', find_list (edit (without n) (lists e)) l' = updv (vw (lists e)) l (pre ++ rest) l').
  { apply (edit_one _ _ (lists e) l pre n rest (without n) (pre ++ rest) R E); [intros; now apply without_mid|intros; now apply without_id]. }
  assert (Q : forall l' r', In (l', r') ((l, rest) :: active) -> disturbs (QExclude n) l' r' = false).
  { intros l' r' [X|X]; cbn [disturbs]; (destruct (mem_of n r') eqn:Em; [|reflexivity]); apply mem_of_in in Em; [injection X as <- <-; tauto|].
    destruct (K _ _ X) as [p' E']. specialize (A _ _ X). assert (l' = l); [|subst; lia]. eapply (r_dj _ _ _ R _ _ _ _ n); [exact E'|exact E| |]; rewrite in_app_iff; cbn; auto. }
  exists (with_lists e (edit (without n) (lists e))), VUnit. split; auto. split; auto. cbn [lists with_lists].
  assert (El : find_list (edit (without n) (lists e)) l = Some (pre ++ rest)) by (rewrite Ed; apply updv_eq). split; auto.
  destruct (sim_step _ _ _ _ _ Si Es) as (st1 & _ & S1). split; [eauto|]. split; [|split; [auto|split]].
  - intros l' r' X. destruct (K _ _ X) as [p' E']. eapply suffix_kept; [exact Es|exact E'|]. apply Q. now right.
  - intros l' s'. cbn [lists with_lists]. rewrite Ed. unfold upd. destruct (Nat.eqb_spec l' l) as [->|Nl].
    + rewrite updv_eq. intros H. injection H as <-. rewrite (M _ _ E). now apply without_mid.
    + rewrite updv_neq by auto. intros H. now apply M.
  - intros l' Dl. cbn [lists with_lists]. rewrite Ed. destruct (Nat.eq_dec l' l) as [->|Nl]; [rewrite updv_eq; discriminate|]. rewrite updv_neq by auto. now apply DD.
Qed.
Lemma notified_list active e l log e' log' : notified forwarding active e l log e' log' -> exists s, find_list (lists e) l = Some s.
Proof. intros H. inversion H; eauto. Qed.

Lemma cascade_ok : forall d l active e subs log, level l < d -> D l -> fine active (level l) e subs ->
  exists e', notified forwarding active e l log e' (snd (cascade d (subs, log) l)) /\ fine active (level l) e' (fst (cascade d (subs, log) l)).
Proof.
  induction d as [|d IH]; intros l active e subs log Hd Dl F; [lia|].
  destruct (find_list (lists e) l) as [s|] eqn:E. 2: { exfalso. destruct F as (_ & _ & _ & _ & DD). eapply DD; eauto. }
  assert (Es : subs l = s) by (destruct F as (_ & _ & _ & M & _); auto). cbn [cascade fst]. rewrite Es. clear Es.
  set (g := fun (w : (nat -> list nat) * list call) n => let (subs, log) := w in fold_left (cascade d) (targets log l n) (if leave log n then upd subs l (without n (subs l)) else subs, log ++ [(l, n)])).
  (* the targets of one observer *)
  assert (TS : forall ts act1 e subs log, (forall t, In t ts -> D t /\ level t < level l) -> fine act1 (level l - 1) e subs -> 
    exists e', done forwarding act1 e (map ANotify ts) log e' (snd (fold_left (cascade d) ts (subs, log))) /\ fine act1 (level l - 1) e' (fst (fold_left (cascade d) ts (subs, log)))).
  { induction ts as [|t ts IHt]; intros act1 e1 subs1 log1 Ht F1; cbn [map fold_left fst snd].
    - exists e1. split; auto. constructor.
    - destruct (Ht t (or_introl eq_refl)) as [Dt Lt]. assert (F1' : fine act1 (level t) e1 subs1). { destruct F1 as (G1 & G2 & G3 & G4 & G5). repeat split; auto. intros l0 r0 X. specialize (G3 _ _ X). lia. }
      destruct (IH t act1 e1 subs1 log1 ltac:(lia) Dt F1') as (e2 & N2 & F2). destruct (cascade d (subs1, log1) t) as [subs2 log2]. cbn [fst snd] in *.
      assert (F2' : fine act1 (level l - 1) e2 subs2). { destruct F2 as (G1 & G2 & G3 & G4 & G5). destruct F1 as (_ & _ & G6 & _). repeat split; auto. }
      destruct (IHt act1 e2 subs2 log2) as (e3 & N3 & F3); auto. { intros t' X. apply Ht. now right. }
      exists e3. split; auto. econstructor; eauto. }
  (* the observers *)
  assert (CS : forall s pre e subs log, find_list (lists e) l = Some (pre ++ s) -> fine active (level l) e subs ->
    exists e', called forwarding active e l s log e' (snd (fold_left g s (subs, log))) /\ fine active (level l) e' (fst (fold_left g s (subs, log)))).
  { clear e subs log F E s. induction s as [|n s IHs]; intros pre e subs log E F; cbn [fold_left fst snd].
    - exists e. split; auto. constructor.
    - set (lv := leave log n) in *. assert (H1 : exists e1 pre1, done forwarding ((l, s) :: active) e (if lv then [AOp (QExclude n)] else []) (log ++ [(l, n)]) e1 (log ++ [(l, n)]) /\
        fine active (level l) e1 (if lv then upd subs l (without n (subs l)) else subs) /\ find_list (lists e1) l = Some (pre1 ++ s)).
      { destruct lv.
        - destruct (leave_ok _ _ _ _ _ _ _ _ F (Nat.le_refl _) E) as (e1 & v & S1 & Q1 & F1 & E1). exists e1, pre. split; auto. econstructor; eauto. constructor.
        - exists e, (pre ++ [n]). split; [constructor|]. split; auto. now rewrite <- app_assoc. }
      destruct H1 as (e1 & pre1 & D1 & F1 & E1). set (subs1 := if lv then upd subs l (without n (subs l)) else subs) in *.
      assert (Fa : targets log l n = [] \/ fine ((l, s) :: active) (level l - 1) e1 subs1).
      { destruct (targets log l n) as [|t0 ts0] eqn:Et; [auto|right]. assert (Lt : level t0 < level l) by (apply (T2 log l n); rewrite Et; cbn; auto).
        destruct F1 as (G1 & G2 & G3 & G4 & G5). repeat split; auto.
        - intros l0 r0 [X|X]; [injection X as <- <-; eauto|auto].
        - intros l0 r0 [X|X]; [injection X as <- <-; lia|]. specialize (G3 _ _ X). lia. }
      assert (H2 : exists e2, done forwarding ((l, s) :: active) e1 (map ANotify (targets log l n)) (log ++ [(l, n)]) e2 (snd (g (subs, log) n)) /\ fine active (level l) e2 (fst (g (subs, log) n)) /\ exists pre2, find_list (lists e2) l = Some (pre2 ++ s)).
      { unfold g. fold lv. fold subs1. destruct Fa as [Z|Fa].
        - rewrite Z. cbn [map fold_left fst snd]. exists e1. split; [constructor|]. split; eauto.
        - destruct (TS (targets log l n) ((l, s) :: active) e1 subs1 (log ++ [(l, n)])) as (e2 & D2 & F2); auto. { intros t X. split; [eapply T1; eauto|eapply T2; eauto]. }
          exists e2. split; auto. destruct F2 as (G1 & G2 & G3 & G4 & G5). destruct F1 as (_ & _ & G6 & _). split; [|eauto using in_eq]. repeat split; auto. intros l0 r0 X. apply G2. now right. }
      destruct H2 as (e2 & D2 & F2 & pre2 & E2). destruct (g (subs, log) n) as [subs2 log2] eqn:Eg. cbn [fst snd] in *.
      destruct (IHs pre2 e2 subs2 log2 E2 F2) as (e' & C' & F'). exists e'. split; auto. econstructor; [|exact C']. unfold forwarding. fold lv. revert D2. generalize (map ANotify (targets log l n)). intros acts D2.
      destruct lv; cbn [app]; [|inversion D1; subst; exact D2]. inversion D1; subst. match goal with H : done _ _ _ [] _ _ _ |- _ => inversion H; subst end. econstructor; eauto. }
  destruct (CS s [] e subs log E F) as (e' & C' & F'). exists e'. split; auto. econstructor; eauto.
Qed.
End Cascade.

(** Observers that may leave their observable and forward to observables of lower levels: the calls and the
    observers that stay are those of [cascade], for any number of levels. *)
Theorem notify_cascade : forall leave targets level os e vs st l,
  srun sinit os = Some (e, vs) -> qexec qinit os = Ok st -> find_list (lists e) l <> None ->
  (forall log l n t, In t (targets log l n) -> level t < level l /\ find_list (lists e) t <> None) ->
  let subs l := match find_list (lists e) l with Some s => s | None => [] end in
  let (subs', log) := cascade leave targets (Datatypes.S (level l)) (subs, []) l in
  exists k st', nrun (forwarding leave targets) k (nstart st l) = Ok (Config st' log []) /\
    forall l', find_list (lists e) l' <> None -> iterate (Datatypes.S (snd st')) (fst st') l' = Ok (subs' l').
Proof.
  intros leave targets level os e vs st l Hr Hx Hl T subs. destruct (sim_reach _ _ _ Hr) as (st0 & Hx' & Si). rewrite Hx in Hx'. injection Hx' as <-.
  set (D := fun l => find_list (lists e) l <> None). assert (F : fine level D [] (level l) e subs).
  { split; [eauto|]. split; [intros ? ? []|]. split; [intros ? ? []|]. split; [|auto]. intros l0 s0 E0. unfold subs. now rewrite E0. }
  destruct (cascade_ok leave targets level D (fun log l n t X => proj2 (T log l n t X)) (fun log l n t X => proj1 (T log l n t X)) (Datatypes.S (level l)) l [] e subs [] ltac:(lia) Hl F) as (e' & N & F').
  destruct (cascade leave targets (Datatypes.S (level l)) (subs, []) l) as [subs' log]. cbn [fst snd] in *.
  destruct (nested_start _ st e l e' log Si N) as (st' & [k R] & S'). exists k, st'. split; auto. intros l' Hl'. destruct F' as (_ & _ & _ & M & DD). specialize (DD l' Hl').
  destruct (find_list (lists e') l') as [s'|] eqn:E'; [|tauto]. rewrite (M _ _ E'). eapply sim_iterate; eauto.
Qed.

(** ** What does not hold *)
Definition nest3 : list qop := [QNewElem 1; QNewElem 2; QNewElem 3; QNewList 0; QPushBack 0 1; QPushBack 0 2; QPushBack 0 3].
(** "p_observer can delete itself or unsubscribe while iterating over the list": observer 1 notifies the same
    observable again, and observer 2 unsubscribes itself when it is called there.  The outer loop goes to it next,
    calls it although it is not subscribed, and follows its null link. *)
Theorem notify_nested_unsubscribe_refuted : exists os st cb,
  qexec qinit os = Ok st /\ (forall log l n, cb log l n = [] \/ cb log l n = [AOp (QSafeExclude n)] \/ cb log l n = [ANotify l]) /\
  exists k c, nrun cb k (nstart st 0) = Ok c /\ calls c = [(0, 1); (0, 1); (0, 2); (0, 3); (0, 2)] /\ nrun cb (k + 2) (nstart st 0) = UB.
Proof.
  exists nest3. eexists. exists (fun log l n => match log with [] => [ANotify l] | _ => if n =? 2 then [AOp (QSafeExclude n)] else [] end).
  split; [reflexivity|]. split; [intros [|p0 r0] l n; [|destruct (n =? 2)]; auto|]. exists 15. eexists. split; [reflexivity|]. split; reflexivity.
Qed.
(** An observer that always notifies its own observable never returns. *)
Theorem notify_recursion : forall os e vs st l n s cb, srun sinit os = Some (e, vs) -> qexec qinit os = Ok st -> find_list (lists e) l = Some (n :: s) ->
  (forall log, cb log l n = [ANotify l]) -> forall k, exists c, nrun cb k (nstart st l) = Ok c /\ frames c <> [] /\ 2 * length (calls c) + 1 >= k.
Proof.
  intros os e vs st l n s cb Hr Hx E Hc. destruct (sim_reach _ _ _ Hr) as (st0 & Hx' & Si). rewrite Hx in Hx'. injection Hx' as <-.
  assert (B := begin_ok _ _ _ _ Si E). cbn [hd_error] in B. assert (N := next_ok _ _ _ _ n Si E (or_introl eq_refl)).
  assert (G : forall k log a fs, (exists c, nrun cb k (Config st log (FActs (ANotify l :: a) :: fs)) = Ok c /\ frames c <> [] /\ 2 * length (calls c) + 1 >= k + 2 * length log)).
  { induction k as [k IH] using lt_wf_ind. intros log a fs. destruct k as [|[|k]].
    - eexists. split; [reflexivity|]. split; [discriminate|]. cbn. lia.
    - cbn [nrun nstep]. rewrite B. cbn [rbind]. eexists. split; [reflexivity|]. split; [discriminate|]. cbn [calls]. lia.
    - cbn [nrun nstep]. rewrite B. cbn [rbind nstep]. change (cursor l (Some n)) with (Some (El n)). cbn [p_is addr_eqb as_elem rbind]. rewrite N. cbn [rbind]. rewrite Hc.
      destruct (IH k ltac:(lia) (log ++ [(l, n)]) [] (FWalk l (cursor l (next_of n (n :: s))) :: FActs a :: fs)) as (c & R & F & L). exists c. split; [exact R|]. split; auto. rewrite app_length in L. cbn [length] in L. lia. }
  intros k. destruct (G k [] [] []) as (c & R & F & L). exists c. split; [exact R|]. split; auto. cbn [length] in L. lia.
Qed.

(** ** Examples *)
(** Observable 1 with observers 4 and 5, that notify observable 0 with observers 1, 2 and 3; the second of
    these leaves at its first call. *)
Definition nest5 : list qop := nest3 ++ [QNewElem 4; QNewElem 5; QNewList 1; QPushBack 1 4; QPushBack 1 5].
Example notify_cascade_demo :
  let leave (_ : list call) n := n =? 2 in
  let targets (_ : list call) l (_ : nat) := if l =? 1 then [0] else [] in
  match srun sinit nest5, qexec qinit nest5 with
  | Some (e, _), Ok st =>
    find_list (lists e) 0 = Some [1; 2; 3] /\ find_list (lists e) 1 = Some [4; 5] /\
    (forall log l n t, In t (targets log l n) -> t < l /\ find_list (lists e) t <> None) /\
    match nrun (forwarding leave targets) 60 (nstart st 1) with
    | Ok c => frames c = [] /\ calls c = [(1, 4); (0, 1); (0, 2); (0, 3); (1, 5); (0, 1); (0, 3)] /\ iterate 9 (fst (links c)) 0 = Ok [1; 3]
    | _ => False
    end
  | _, _ => False
  end.
Proof.
  vm_compute srun. vm_compute qexec. cbv zeta. split; [reflexivity|]. split; [reflexivity|]. split.
  - intros _ l n t. destruct (Nat.eqb_spec l 1) as [->|]; [|intros []]. intros [<-|[]]. split; [lia|discriminate].
  - vm_compute. auto.
Qed.
(** The same observable inside: nobody leaves before the outer loop has passed. *)
Example notify_nested_demo : match qexec qinit nest3 with
  | Ok st => match nrun (fun log l n => if (n =? 3) && (length log =? 2) then [ANotify l] else if n =? 1 then match log with [] => [] | _ => [AOp (QExclude 1)] end else []) 40 (nstart st 0) with
    | Ok c => frames c = [] /\ calls c = [(0, 1); (0, 2); (0, 3); (0, 1); (0, 2); (0, 3)]
    | _ => False
    end
  | _ => False
  end.
Proof. vm_compute. auto. Qed.
