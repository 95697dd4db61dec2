(** Notification over the intrusive lists. *)
From Verif Require Import Common QListModel QListSpec QListProofs QListRel QListSim ObserverModel ObserverSpec.
From Coq Require Import ZifyBool ZifyNat.

Lemma sim_exec os : forall st e e' vs, Sim st e -> srun e os = Some (e', vs) -> exists st', qexec st os = Ok st' /\ Sim st' e'.
Proof.
  induction os as [|o os IH]; cbn [srun qexec]; intros st e e' vs Si H; [injection H as <- <-; eauto|].
  destruct (sstep e o) as [[e1 v]|] eqn:E; [|discriminate]. destruct (srun e1 os) as [[e2 vs']|] eqn:E2; [|discriminate].
  injection H as <- <-. destruct (sim_step _ _ _ _ _ Si E) as (st1 & -> & S1). cbn [rbind]. eauto.
Qed.

Definition cursor (l : nat) (cur : option nat) : ptr := Some (match cur with None => Nl l | Some n => El n end).

Lemma next_of_mid n s1 s2 : ~ In n s1 -> next_of n (s1 ++ n :: s2) = hd_error s2.
Proof.
  induction s1 as [|x s1 IH]; cbn; intros H; [now rewrite Nat.eqb_refl|].
  destruct (Nat.eqb_spec x n); [subst; tauto|]. apply IH. tauto.
Qed.

Lemma next_ok st e l s n : Sim st e -> find_list (lists e) l = Some s -> In n s ->
  fnext (fst st) (Some (El n)) = Ok (cursor l (next_of n s)).
Proof.
  intros (R & _) E Hn. pose proof (r_nd _ _ _ R _ _ E) as N. apply in_split in Hn as (s1 & s2 & ->).
  pose proof (r_circ _ _ _ R _ _ E) as C. rewrite map_app in C. cbn [map] in C.
  destruct (circ_elem _ _ _ _ _ C) as (l1 & p & q & l2 & E1 & E2 & C1 & L1 & L2 & C2).
  rewrite next_of_mid by (apply NoDup_remove in N as [_ N]; rewrite in_app_iff in N; tauto).
  rewrite fnext_ok. 2:{ apply (r_alive _ _ _ R). rewrite (r_out _ _ _ R _ _ _ E); [discriminate|]. rewrite in_app_iff. cbn; auto. }
  destruct L2 as [-> _]. unfold cursor. destruct s2; cbn in E2; injection E2 as <- _; reflexivity.
Qed.
Lemma begin_ok st e l s : Sim st e -> find_list (lists e) l = Some s ->
  fnext (fst st) (Some (Nl l)) = Ok (cursor l (hd_error s)).
Proof.
  intros (R & _) E. pose proof (r_circ _ _ _ R _ _ E) as C. rewrite fnext_ok by (eapply circ_null_alive; eauto).
  rewrite (circ_first _ _ _ C). unfold cursor. destruct s; reflexivity.
Qed.

Lemma notify_while_ok cb ans l : forall fuel st e cur log e' log' b,
  Sim st e -> snotify cb ans fuel e l cur log = Some (e', log', b) ->
  exists st', notify_while_loop cb ans fuel st l (cursor l cur) log = Ok (st', log', b) /\ Sim st' e'.
Proof.
  induction fuel as [|f IH]; intros st e cur log e' log' b Si H; [discriminate|]. cbn [snotify notify_while_loop] in *.
  destruct cur as [n|]; cbn [cursor p_is].
  - change (cursor l (Some n)) with (Some (El n)). cbn [addr_eqb]. destruct (find_list (lists e) l) as [s|] eqn:E; [|discriminate]. destruct (mem_of n s) eqn:Em; [|discriminate].
    apply mem_of_in in Em. destruct (srun e (cb log n)) as [[e1 vs]|] eqn:Er; [|discriminate].
    destruct (sim_exec _ _ _ _ _ Si Er) as (st1 & Ex & S1).
    cbn [as_elem rbind]. rewrite (next_ok _ _ _ _ _ Si E Em). cbn [rbind]. rewrite Ex. cbn [rbind].
    destruct (ans log n); [eauto|]. injection H as <- <- <-. eauto.
  - cbn [addr_eqb]. rewrite Nat.eqb_refl. injection H as <- <- <-. eauto.
Qed.

Lemma notify_is_while cb l : forall fuel st i log,
  notify_loop cb fuel st l i log = let* (p, _) := notify_while_loop cb (fun _ _ => true) fuel st l i log in Ok p.
Proof.
  induction fuel as [|f IH]; intros st i log; cbn [notify_loop notify_while_loop]; [reflexivity|].
  destruct (p_is i (Nl l)); [reflexivity|]. destruct (as_elem i); cbn [rbind]; try reflexivity.
  destruct (fnext (fst st) i); cbn [rbind]; try reflexivity. destruct (qexec st (cb log a)); cbn [rbind]; auto.
Qed.

(** [o] may change the part [rest] of the list [l] that is still to be visited:
    it appends to, empties or moves [l], or names a member of [rest]. *)
Definition disturbs (o : qop) (l : nat) (rest : list nat) : bool :=
  match o with
  | QPushBack a _ | QPopFront a | QPopBack a | QClear a => l =? a
  | QMoveList a b | QMoveAssign a b => (l =? a) || (l =? b)
  | QSpliceFront a b => l =? b
  | QSpliceBack a b => (l =? a) || (l =? b)
  | QInsertAfter p _ | QInsertBefore p _ => mem_of p rest
  | QExclude n | QSafeExclude n => mem_of n rest
  | QMoveElem n o | QAssignElem n o => mem_of n rest || mem_of o rest
  | _ => false
  end.

(** *** The part of a list after the cursor *)
Lemma suffix_kept e o e1 v l pre rest : sstep e o = Some (e1, v) -> find_list (lists e) l = Some (pre ++ rest) ->
  disturbs o l rest = false -> exists pre', find_list (lists e1) l = Some (pre' ++ rest).
Proof.
  intros E El Hd.
  assert (P : forall a t, (l =? a) = false -> exists pre', find_list (set_list (lists e) a t) l = Some (pre' ++ rest)).
  { intros a t Ha. exists pre. rewrite <- El. clear El E. induction (lists e) as [|[k u] ls IH]; cbn; [reflexivity|].
    destruct (Nat.eqb_spec k a); cbn; [destruct (Nat.eqb_spec k l); [lia|reflexivity]|]. destruct (Nat.eqb k l); auto. }
  assert (Q : forall f, (forall s t, f (s ++ t) = f s ++ f t) -> f rest = rest -> exists pre', find_list (edit f (lists e)) l = Some (pre' ++ rest)).
  { intros f Hf Hr. rewrite find_edit, El. cbn. rewrite Hf, Hr. eauto. }
  assert (Mo : forall n s, mem_of n s = false -> ~ In n s) by (intros n s H X; apply mem_of_in in X; congruence).
  assert (A1 : forall p a s t, after p a (s ++ t) = after p a s ++ after p a t) by (intros; apply flat_map_app).
  assert (A2 : forall p a s t, before p a (s ++ t) = before p a s ++ before p a t) by (intros; apply flat_map_app).
  assert (A3 : forall n s t, without n (s ++ t) = without n s ++ without n t) by (intros; apply filter_app).
  assert (A4 : forall p a s t, replace_ p a (s ++ t) = replace_ p a s ++ replace_ p a t) by (intros; apply map_app).
  destruct o; cbn [sstep disturbs] in *;
    repeat match type of E with
    | match ?c with _ => _ end = _ => destruct c eqn:?; try discriminate
    end;
    injection E as <- <-; cbn [lists with_lists with_elem find_list]; eauto;
    repeat match goal with H : _ || _ = false |- _ => apply orb_false_iff in H as [? ?] end.
  all: try (apply Q; [auto|]; first [now apply after_id, Mo | now apply before_id, Mo | now apply without_id, Mo | now apply replace_id, Mo]).
  - destruct (Nat.eqb_spec l0 l); [subst; rewrite El in *; discriminate|eauto].
  - destruct (Nat.eqb_spec l0 l); [lia|]. rewrite find_set_other by lia. eauto.
  - rewrite !find_set_other by lia. eauto.
  - destruct (Nat.eqb_spec l l0) as [->|N]; [|rewrite find_set_other by lia; eauto].
    rewrite (find_set _ _ _ (pre ++ rest)) by auto. rewrite updv_eq. rewrite El in *. exists (n :: pre). cbn. congruence.
  - destruct (Nat.eqb_spec l l0) as [->|N]; [|rewrite !find_set_other by lia; eauto].
    rewrite (find_set _ _ _ (pre ++ rest)) by (rewrite find_set_other; auto). rewrite updv_eq. rewrite El in *. exists (l2 ++ pre).
    rewrite <- app_assoc. congruence.
  - rewrite !find_set_other by lia. eauto.
  - destruct (lose_lists l1 (with_lists e (set_list (lists e) l0 []))) as [-> _]. cbn. rewrite find_set_other by lia. eauto.
  - apply Q; [intros; now rewrite A3, A4|]. rewrite without_id by auto. apply replace_id; auto.
Qed.

Lemma suffix_kept_run l rest os : forall e e1 vs pre, srun e os = Some (e1, vs) -> find_list (lists e) l = Some (pre ++ rest) ->
  Forall (fun o => disturbs o l rest = false) os -> exists pre', find_list (lists e1) l = Some (pre' ++ rest).
Proof.
  induction os as [|o os IH]; cbn [srun]; intros e e1 vs pre H El F; [injection H as <- _; eauto|].
  destruct (sstep e o) as [[e2 v]|] eqn:E; [|discriminate]. destruct (srun e2 os) as [[e3 vs']|] eqn:E2; [|discriminate].
  injection H as <- <-. inversion F; subst. destruct (suffix_kept _ _ _ _ _ _ _ E El) as (pre1 & E3); auto. eauto.
Qed.

(** The programs of the observers [s], called one after the other starting from [e],
    meet the preconditions of the list operations and leave the observers still to be
    called alone. *)
Fixpoint polite (cb : list nat -> nat -> list qop) (l : nat) (e : qspec) (s : list nat) (log : list nat) (e' : qspec) : Prop :=
  match s with
  | [] => e' = e
  | n :: rest =>
      exists e1 vs, srun e (cb log n) = Some (e1, vs) /\ Forall (fun o => disturbs o l rest = false) (cb log n) /\
                    polite cb l e1 rest (log ++ [n]) e'
  end.

(** The observers called by NotifyWhileTrue: up to the first that answers false. *)
Fixpoint up_to (ans : nat -> bool) (s : list nat) : list nat :=
  match s with [] => [] | n :: r => n :: (if ans n then up_to ans r else []) end.

Lemma polite_visits cb l ans : forall s st e pre log e' fuel, Sim st e -> find_list (lists e) l = Some (pre ++ s) ->
  polite cb l e s log e' -> length s < fuel ->
  exists e1, snotify cb (fun _ => ans) fuel e l (hd_error s) log = Some (e1, log ++ up_to ans s, forallb ans s) /\
    (forallb ans s = true -> e1 = e').
Proof.
  intros s. induction s as [|n s IH]; intros st e pre log e' fuel Si E Po Hf; (destruct fuel as [|f]; [cbn in Hf; lia|]); cbn [snotify hd_error].
  - cbn in Po. subst. cbn. rewrite app_nil_r. eauto.
  - destruct Po as (e1 & vs & Er & Fo & Po). rewrite E.
    replace (mem_of n (pre ++ n :: s)) with true by (symmetry; apply mem_of_in; rewrite in_app_iff; cbn; auto).
    rewrite Er. cbn [forallb up_to]. destruct (ans n); cbn [andb]; [|eexists; split; [reflexivity|discriminate]].
    pose proof Si as (R & _). pose proof (r_nd _ _ _ R _ _ E) as N.
    rewrite next_of_mid by (apply NoDup_remove in N as [_ N]; rewrite in_app_iff in N; tauto).
    destruct (sim_exec _ _ _ _ _ Si Er) as (st1 & _ & S1).
    destruct (suffix_kept_run l s (cb log n) e e1 vs (pre ++ [n]) Er) as (pre1 & E1); auto; [rewrite <- app_assoc; auto|].
    destruct (IH _ _ _ _ _ f S1 E1 Po) as (e2 & E2 & H2); [cbn in Hf; lia|]. rewrite E2, <- app_assoc. eauto.
Qed.

Lemma up_to_all s : up_to (fun _ => true) s = s /\ forallb (fun _ => true) s = true.
Proof. induction s as [|n s [IH1 IH2]]; cbn; [auto|]. rewrite IH1, IH2. auto. Qed.

Lemma sim_reach os e vs : srun sinit os = Some (e, vs) -> exists st, qexec qinit os = Ok st /\ Sim st e.
Proof. intros H. eapply sim_exec; [apply sim_init|exact H]. Qed.

(** Observers that only ever unsubscribe themselves. *)
Definition leaving (leave : nat -> bool) (_ : list nat) (n : nat) : list qop := if leave n then [QExclude n] else [].

Lemma leaving_polite leave l : forall s st e pre log, Sim st e -> find_list (lists e) l = Some (pre ++ s) ->
  exists e', polite (leaving leave) l e s log e' /\
    find_list (lists e') l = Some (pre ++ filter (fun n => negb (leave n)) s) /\ elems e' = elems e /\
    (forall l', l' <> l -> find_list (lists e') l' = find_list (lists e) l').
Proof.
  induction s as [|n s IH]; intros st e pre log Si E.
  - exists e. cbn. auto.
  - unfold leaving. cbn [polite filter]. pose proof Si as (R & ND & _).
    pose proof (r_nd _ _ _ R _ _ E) as N. apply NoDup_remove in N as [_ N]. rewrite in_app_iff in N.
    destruct (leave n) eqn:Hl; cbn [negb].
    + assert (Hm : member e n = true).
      { unfold member. apply existsb_exists. exists (l, pre ++ n :: s). split; [now apply find_in|]. apply mem_of_in. cbn. rewrite in_app_iff. cbn; auto. }
      assert (Er : srun e [QExclude n] = Some (with_lists e (edit (without n) (lists e)), [VUnit])) by (cbn [srun sstep]; rewrite Hm; reflexivity).
      destruct (sim_exec _ _ _ _ _ Si Er) as (st1 & _ & S1).
      pose proof (edit_one _ _ (lists e) l pre n s (without n) (pre ++ s) R E) as Ed.
      assert (Ed' : forall l', find_list (edit (without n) (lists e)) l' = updv (vw (lists e)) l (pre ++ s) l').
      { apply Ed; [intros; now apply without_mid|apply without_id]. }
      destruct (IH st1 _ pre (log ++ [n]) S1) as (e' & Po & F1 & F2 & F3); [cbn [lists with_lists]; rewrite Ed'; apply updv_eq|].
      exists e'. split; [|split; [auto|split; [auto|]]].
      * eexists _, _. split; [exact Er|]. split; [|exact Po]. constructor; [|constructor]. cbn [disturbs].
        destruct (mem_of n s) eqn:Em; [|reflexivity]. apply mem_of_in in Em. tauto.
      * intros l' Hl'. rewrite F3 by auto. cbn [lists with_lists]. rewrite Ed'. now apply updv_neq.
    + destruct (IH st e (pre ++ [n]) (log ++ [n]) Si) as (e' & Po & F1 & F2 & F3); [now rewrite <- app_assoc|].
      exists e'. rewrite <- app_assoc in F1. split; [|auto]. eexists _, _. split; [reflexivity|]. split; [constructor|exact Po].
Qed.

(** *** ClearObservers *)
Fixpoint spop (e : qspec) (l : nat) (s : list nat) : qspec :=
  match s with [] => e | _ :: r => spop (with_lists e (set_list (lists e) l r)) l r end.
Lemma clear_observers_ok l : forall s st e fuel, Sim st e -> find_list (lists e) l = Some s -> length s < fuel ->
  exists m', clear_observers fuel (fst st) l = Ok m' /\ Sim (m', snd st) (spop e l s).
Proof.
  induction s as [|n s IH]; intros [m k] e fuel Si E Hf; (destruct fuel as [|f]; [lia|]); cbn [clear_observers fst spop];
    pose proof Si as (R & _); cbn [fst] in R; pose proof (r_circ _ _ _ R _ _ E) as C; rewrite (empty_ok _ _ _ C); cbn [rbind length Nat.eqb].
  - eauto.
  - destruct (sim_pop_front m k e l (with_lists e (set_list (lists e) l s)) (VElem n) Si) as (st' & Q & S').
    { cbn [sstep]. now rewrite E. }
    cbn [qstep] in Q. destruct (pop_front m l) as [[m1 n1]| |]; cbn [rbind] in Q; try discriminate. injection Q as <- ->.
    cbn [rbind]. destruct (IH (m1, k) _ f S') as (m' & Ec & S2); [|cbn in Hf; lia|].
    + cbn [lists with_lists]. rewrite (find_set _ _ _ (n :: s)) by auto. apply updv_eq.
    + cbn [fst snd] in *. eauto.
Qed.
Lemma spop_facts l : forall s e, find_list (lists e) l = Some s ->
  elems (spop e l s) = elems e /\ born (spop e l s) = born e /\ forall l', find_list (lists (spop e l s)) l' = if l' =? l then Some [] else find_list (lists e) l'.
Proof.
  induction s as [|n s IH]; intros e E; cbn [spop].
  - repeat split. intros l'. destruct (Nat.eqb_spec l' l); congruence.
  - destruct (IH (with_lists e (set_list (lists e) l s))) as (H1 & H2 & H3).
    { cbn [lists with_lists]. rewrite (find_set _ _ _ (n :: s)) by auto. apply updv_eq. }
    cbn [lists with_lists elems born] in *. repeat split; auto. intros l'. rewrite H3.
    destruct (Nat.eqb_spec l' l); [reflexivity|]. rewrite (find_set _ _ _ (n :: s)) by auto. now apply updv_neq.
Qed.

Lemma leaving_count leave l ans : forall fuel m k i log st' log' b,
  notify_while_loop (leaving leave) ans fuel (m, k) l i log = Ok (st', log', b) -> snd st' = k.
Proof.
  induction fuel as [|f IH]; intros m k i log st' log' b; cbn [notify_while_loop]; [discriminate|].
  destruct (p_is i (Nl l)); [intros H; injection H as <- _ _; reflexivity|].
  destruct (as_elem i) as [n| |]; cbn [rbind]; try discriminate.
  destruct (fnext (fst (m, k)) i) as [i1| |]; cbn [rbind]; try discriminate. unfold leaving at 1. destruct (leave n); cbn [qexec qstep rbind].
  - destruct (exclude m (El n)) as [m1| |]; cbn [rbind]; try discriminate.
    destruct (ans log n); [apply IH|]. intros H. injection H as <- _ _. reflexivity.
  - destruct (ans log n); [apply IH|]. intros H. injection H as <- _ _. reflexivity.
Qed.
