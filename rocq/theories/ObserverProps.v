(** Observable / Observer, property C21. *)
From Verif Require Import Common QListModel QListSpec QListProofs QListRel QListSim ObserverModel ObserverSpec ObserverProofs.
From Coq Require Import ZifyBool ZifyNat.

(** C21.  In every state reachable by list programs, if the observers leave those
    still to be called alone (they may unsubscribe, move or re-link themselves and use
    any other list), then Notify calls exactly the subscribed observers, once each, in
    subscription order. *)
Theorem notify_calls_each_once : forall os e vs st l s cb e' fuel,
  srun sinit os = Some (e, vs) -> qexec qinit os = Ok st ->
  find_list (lists e) l = Some s -> polite cb l e s [] e' -> length s < fuel ->
  NoDup s /\ exists st', notify cb fuel st l = Ok (st', s).
Proof.
  intros os e vs st l s cb e' fuel Hr Hx E Po Hf. destruct (sim_reach _ _ _ Hr) as (st0 & Hx' & Si).
  rewrite Hx in Hx'. injection Hx' as <-. split; [destruct Si as (R & _); eapply (r_nd _ _ _ R); eauto|].
  destruct (polite_visits cb l (fun _ => true) s st e [] [] e' fuel Si E Po Hf) as (e1 & Sn & _).
  destruct (up_to_all s) as [U1 U2]. rewrite U1, U2 in Sn. cbn [app] in Sn.
  destruct (notify_while_ok cb _ l fuel st e (hd_error s) [] _ _ _ Si Sn) as (st' & N & _).
  exists st'. unfold notify. rewrite (begin_ok _ _ _ _ Si E). cbn [rbind]. rewrite notify_is_while, N. reflexivity.
Qed.
Print Assumptions notify_calls_each_once.

(** NotifyWhileTrue calls them up to and including the first that returns false, and
    returns true iff all of them do. *)
Theorem notify_while_true_stops : forall os e vs st l s cb ans e' fuel,
  srun sinit os = Some (e, vs) -> qexec qinit os = Ok st ->
  find_list (lists e) l = Some s -> polite cb l e s [] e' -> length s < fuel ->
  exists st', notify_while cb (fun _ => ans) fuel st l = Ok (st', up_to ans s, forallb ans s).
Proof.
  intros os e vs st l s cb ans e' fuel Hr Hx E Po Hf. destruct (sim_reach _ _ _ Hr) as (st0 & Hx' & Si).
  rewrite Hx in Hx'. injection Hx' as <-.
  destruct (polite_visits cb l ans s st e [] [] e' fuel Si E Po Hf) as (e1 & Sn & _). cbn [app] in Sn.
  destruct (notify_while_ok cb _ l fuel st e (hd_error s) [] _ _ _ Si Sn) as (st' & N & _).
  exists st'. unfold notify_while. rewrite (begin_ok _ _ _ _ Si E). cbn [rbind]. exact N.
Qed.
Print Assumptions notify_while_true_stops.

(** Any subset of the observers may unsubscribe itself: all are called once, and the
    observers that remain are the others, in the same order. *)
Theorem notify_self_unsubscribe : forall os e vs m k l s (leave : nat -> bool) fuel,
  srun sinit os = Some (e, vs) -> qexec qinit os = Ok (m, k) ->
  find_list (lists e) l = Some s -> length s < fuel ->
  exists m', notify (leaving leave) fuel (m, k) l = Ok ((m', k), s) /\
    iterate (S k) m' l = Ok (filter (fun n => negb (leave n)) s) /\
    (forall n, In n s -> included m' (El n) = Ok (negb (leave n))) /\
    (forall l' s', l' <> l -> find_list (lists e) l' = Some s' -> iterate (S k) m' l' = Ok s').
Proof.
  intros os e vs m k l s leave fuel Hr Hx E Hf. destruct (sim_reach _ _ _ Hr) as (st0 & Hx' & Si).
  rewrite Hx in Hx'. injection Hx' as <-.
  destruct (leaving_polite leave l s _ e [] [] Si E) as (e' & Po & F1 & F2 & F3). cbn [app] in F1.
  destruct (polite_visits (leaving leave) l (fun _ => true) s _ e [] [] e' fuel Si E Po Hf) as (e1 & Sn & He).
  destruct (up_to_all s) as [U1 U2]. rewrite U1, U2 in *. cbn [app] in Sn. specialize (He eq_refl). subst e1.
  destruct (notify_while_ok _ _ l fuel _ e (hd_error s) [] _ _ _ Si Sn) as ([m' k'] & N & S').
  pose proof Si as (R0 & _ & _ & K0). pose proof S' as (R & ND & Cn & K). cbn [fst snd] in *.
  assert (Hk : k' = k).
  { exact (leaving_count _ _ _ _ _ _ _ _ _ _ _ N). }
  rewrite Hk in N, K. exists m'. split; [|split; [|split]].
  - unfold notify. rewrite (begin_ok _ _ _ _ Si E). cbn [rbind]. rewrite notify_is_while, N. reflexivity.
  - apply iterate_ok; [apply (r_circ _ _ _ R); auto|]. rewrite K. eapply size_bound; [exact R|exact Cn|exact F1].
  - intros n Hn. destruct (leave n) eqn:Hl; cbn [negb].
    + eapply included_out; [exact R|rewrite F2; eapply (r_out _ _ _ R0); eauto|]. intros l' s' H X.
      destruct (Nat.eq_dec l' l) as [->|Nl'].
      * unfold vw in H. rewrite F1 in H. injection H as <-. apply filter_In in X as [_ X]. rewrite Hl in X. discriminate.
      * unfold vw in H. rewrite F3 in H by auto. apply Nl'. eapply (r_dj _ _ _ R0); [exact H|exact E|exact X|exact Hn].
    + eapply included_in; [exact R|exact F1|]. apply filter_In. rewrite Hl. auto.
  - intros l' s' Nl' E'. apply iterate_ok; [apply (r_circ _ _ _ R); unfold vw; now rewrite F3|].
    rewrite K. eapply (size_bound m' _ _ l' s'); [exact R|exact Cn|]. unfold vw. rewrite F3 by auto. exact E'.
Qed.
Print Assumptions notify_self_unsubscribe.

Definition three : list qop := [QNewElem 1; QNewElem 2; QNewElem 3; QNewElem 4; QNewList 0; QPushBack 0 1; QPushBack 0 2; QPushBack 0 3].
Definition calls (r : res (qstate * list nat)) : res (list nat) := let* (_, log) := r in Ok log.

(** The first and the last leave; and observer 2 moves itself to a new address. *)
Example notify_self_unsubscribe_case :
  match srun sinit three, qexec qinit three with
  | Some (e, _), Ok st =>
      find_list (lists e) 0 = Some [1; 2; 3] /\
      calls (notify (leaving (fun n => negb (n =? 2))) 4 st 0) = Ok [1; 2; 3] /\
      calls (notify (fun _ n => if n =? 2 then [QMoveElem 7 2; QInsertAfter 7 4] else [QSafeExclude n]) 4 st 0) = Ok [1; 2; 3]
  | _, _ => False
  end.
Proof. vm_compute. auto. Qed.
Example polite_case :
  match srun sinit three with
  | Some (e, _) => exists e', polite (fun _ n => if n =? 2 then [QMoveElem 7 2; QInsertAfter 7 4] else [QSafeExclude n]) 0 e [1; 2; 3] [] e'
  | None => False
  end.
Proof.
  vm_compute srun. eexists. cbn [polite].
  do 3 (eexists _, _; split; [cbn; reflexivity|split; [repeat constructor|]]). reflexivity.
Qed.

(** An observer that unsubscribes the one to be called next makes the walk follow the
    null link of an excluded element. *)
Theorem notify_unsubscribe_next_refuted : exists os st cb,
  qexec qinit os = Ok st /\ (forall log n, cb log n = [] \/ exists k, cb log n = [QExclude k]) /\
  forall fuel, notify cb (3 + fuel) st 0 = UB.
Proof.
  exists three. eexists. exists (fun _ n => if n =? 1 then [QExclude 2] else []). split; [reflexivity|]. split.
  - intros _ n. destruct (n =? 1); eauto.
  - intros fuel. reflexivity.
Qed.
Print Assumptions notify_unsubscribe_next_refuted.

(** Observers that unsubscribe and subscribe themselves again are called again and
    again. *)
Theorem notify_resubscribe_refuted : exists os st cb,
  qexec qinit os = Ok st /\ (forall log n, cb log n = [QExclude n; QPushBack 0 n]) /\
  exists st', notify_while cb (fun log _ => length log <? 4) 10 st 0 = Ok (st', [1; 2; 3; 1; 2], false).
Proof.
  exists three. eexists. exists (fun _ n => [QExclude n; QPushBack 0 n]). split; [reflexivity|]. split; [reflexivity|].
  eexists. reflexivity.
Qed.
Print Assumptions notify_resubscribe_refuted.

(** An observer subscribed during the walk is called in it, unless it is subscribed by
    the last one. *)
Example notify_subscribed_meanwhile :
  match qexec qinit three with
  | Ok st => calls (notify (fun _ n => if n =? 1 then [QPushBack 0 4] else []) 5 st 0) = Ok [1; 2; 3; 4] /\
             calls (notify (fun _ n => if n =? 3 then [QPushBack 0 4] else []) 5 st 0) = Ok [1; 2; 3]
  | _ => False
  end.
Proof. vm_compute. auto. Qed.

(** The destructor of an observable (ClearObservers) leaves no observer behind that
    believes it is subscribed, and does not touch other observables. *)
Theorem clear_observers_unsubscribes : forall os e vs m k l s fuel,
  srun sinit os = Some (e, vs) -> qexec qinit os = Ok (m, k) ->
  find_list (lists e) l = Some s -> length s < fuel ->
  exists m', clear_observers fuel m l = Ok m' /\ empty m' l = Ok true /\
    (forall n, In n s -> included m' (El n) = Ok false) /\
    (forall l' s', l' <> l -> find_list (lists e) l' = Some s' -> iterate (S k) m' l' = Ok s').
Proof.
  intros os e vs m k l s fuel Hr Hx E Hf. destruct (sim_reach _ _ _ Hr) as (st0 & Hx' & Si).
  rewrite Hx in Hx'. injection Hx' as <-. destruct (clear_observers_ok l s (m, k) e fuel Si E Hf) as (m' & Ec & S').
  destruct (spop_facts l s e E) as (F1 & F2 & F3). pose proof S' as (R & ND & Cn & K). cbn [fst snd] in *.
  pose proof Si as (R0 & _).
  assert (El0 : find_list (lists (spop e l s)) l = Some []) by (rewrite F3, Nat.eqb_refl; reflexivity).
  exists m'. split; [auto|]. split; [|split].
  - rewrite (empty_ok m' l []); [reflexivity|]. apply (r_circ _ _ _ R). exact El0.
  - intros n Hn. eapply included_out; [exact R|rewrite F1; eapply (r_out _ _ _ R0); eauto|]. intros l' s' H X.
    unfold vw in H. rewrite F3 in H. destruct (Nat.eqb_spec l' l) as [->|Nl']; [injection H as <-; destruct X|].
    apply Nl'. eapply (r_dj _ _ _ R0); [exact H|exact E|exact X|exact Hn].
  - intros l' s' Nl' E'. assert (X : find_list (lists (spop e l s)) l' = Some s').
    { rewrite F3. destruct (Nat.eqb_spec l' l); congruence. }
    apply iterate_ok; [apply (r_circ _ _ _ R); exact X|]. rewrite K. eapply size_bound; [exact R|exact Cn|exact X].
Qed.
Print Assumptions clear_observers_unsubscribes.
