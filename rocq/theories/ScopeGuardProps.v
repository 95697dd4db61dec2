(** C45: a scope guard runs its action exactly once unless released. *)
From Coq Require Import Permutation ZifyBool ZifyNat.
From Verif Require Import Common ScopeGuardModel.

(** ** Specification: ownership of actions *)

(** What the guards own ([None]: no such guard, [Some None]: nothing), the actions that must have run
    and those that have been released. *)
Record owners := Owners { own : nat -> option (option nat); ran : list nat; dropped : list nat }.

Definition opt_list (o : option nat) : list nat := match o with Some a => [a] | None => [] end.

(** A guard owns its action from its creation; moving transfers the action, release drops it; when its
    guard ends, or gets another action, the owned action is run. *)
Inductive ostep : owners -> gop -> owners -> Prop :=
| ONew s g a (e : bool) : own s g = None ->
    ostep s (GNew g a e) (Owners (upd (own s) g (Some (if e then Some a else None))) (ran s) (dropped s))
| OMove s g src f : own s g = None -> own s src = Some f ->
    ostep s (GMove g src) (Owners (upd (upd (own s) g (Some f)) src (Some None)) (ran s) (dropped s))
| OAssign s g src f f' : own s g = Some f -> own s src = Some f' -> g <> src ->
    ostep s (GAssign g src) (Owners (upd (upd (own s) g (Some f')) src (Some None)) (ran s ++ opt_list f) (dropped s))
| OSelf s g f : own s g = Some f -> ostep s (GAssign g g) s
| ORelease s g f : own s g = Some f ->
    ostep s (GRelease g) (Owners (upd (own s) g (Some None)) (ran s) (dropped s ++ opt_list f))
| ODestroy s g f : own s g = Some f ->
    ostep s (GDestroy g) (Owners (upd (own s) g None) (ran s ++ opt_list f) (dropped s)).

Inductive oexec : owners -> list gop -> owners -> Prop :=
| OEnd s : oexec s [] s
| OMore s o s' os s'' : ostep s o s' -> oexec s' os s'' -> oexec s (o :: os) s''.

Definition oinit : owners := Owners (fun _ => None) [] [].

(** The actions that were created with an engaged guard. *)
Definition created (os : list gop) : list nat :=
  flat_map (fun o => match o with GNew _ a true => [a] | _ => [] end) os.

(** Histories of the partial theorem: only guards that own something are moved from, and guards are not
    assigned while one of them owns something. *)
Inductive careful : owners -> list gop -> Prop :=
| CEnd s : careful s []
| CMore s o s' os : ostep s o s' ->
    match o with
    | GMove _ src => own s src <> Some None
    | GAssign g src => own s g = Some None /\ own s src = Some None
    | _ => True end ->
    careful s' os -> careful s (o :: os).

(** ** Proof *)
Section Proof.
Context (moved : option nat -> option nat).

Definition rel (s : owners) (w : world) : Prop :=
  ran s = log w /\ forall g,
    match own s g, guards w g with
    | None, None => True
    | Some (Some a), Some x => free x = Some a /\ engaged x = true
    | Some None, Some x => engaged x = false
    | _, _ => False
    end.

Lemma rel_get s w g f : rel s w -> own s g = Some f ->
  exists x, guards w g = Some x /\ match f with Some a => free x = Some a /\ engaged x = true | None => engaged x = false end.
Proof.
  intros [_ R] E. specialize (R g). rewrite E in R. destruct f, (guards w g); try tauto; eauto.
Qed.

Lemma rel_none s w g : rel s w -> own s g = None -> guards w g = None.
Proof. intros [_ R] E. specialize (R g). rewrite E in R. destruct (guards w g); tauto. Qed.

Lemma rel_upd s w g f x l d : rel s w -> l = ran s ->
  match f, x with
  | None, None => True
  | Some (Some a), Some x => free x = Some a /\ engaged x = true
  | Some None, Some x => engaged x = false
  | _, _ => False
  end -> rel (Owners (upd (own s) g f) l d) (World (upd (guards w) g x) (log w)).
Proof.
  intros [L R] -> M. split; [exact L|]. cbn. intros g'. destruct (Nat.eq_dec g' g) as [->|N].
  - rewrite !upd_eq. exact M.
  - rewrite !upd_neq by auto. apply R.
Qed.

Lemma step_rel s w o s' os : rel s w -> ostep s o s' -> careful s (o :: os) ->
  exists w', gstep moved w o = Ok w' /\ rel s' w' /\ careful s' os.
Proof.
  intros R O C.
  assert (C' : match o with
    | GMove _ src => own s src <> Some None
    | GAssign g src => own s g = Some None /\ own s src = Some None
    | _ => True end /\ careful s' os).
  { inversion C; subst. split; auto. assert (s' = s'0) as ->; [|auto].
    inversion O; subst; inversion H1; subst; try congruence;
      repeat match goal with A : own ?s ?g = _, B : own ?s ?g = _ |- _ => rewrite A in B; injection B as -> end; auto. }
  destruct C' as [CO CS].
  inversion O; subst; cbn [gstep].
  - rewrite (rel_none _ _ _ R H). eexists; split; [reflexivity|]. split; auto.
    apply rel_upd; auto. destruct e; cbn; auto.
  - destruct (rel_get _ _ _ _ R H0) as (x & Gx & M). rewrite Gx, (rel_none _ _ _ R H). cbn.
    eexists; split; [reflexivity|]. split; auto.
    destruct f as [a|]; [|congruence].
    apply (rel_upd (Owners (upd (own s) g (Some (Some a))) (ran s) (dropped s)) (World (upd (guards w) g (Some (Guard (free x) true))) (log w))); auto.
    apply rel_upd; auto. cbn. tauto.
  - destruct (rel_get _ _ _ _ R H0) as (x & Gx & M). destruct (rel_get _ _ _ _ R H) as (y & Gy & M').
    rewrite Gx, Gy. destruct (Nat.eqb_spec g src); [congruence|]. cbn.
    eexists; split; [reflexivity|]. split; auto.
    destruct CO as [C1 C2]. assert (f = None) as -> by congruence. assert (f' = None) as -> by congruence.
    cbn [opt_list]. rewrite app_nil_r.
    apply (rel_upd (Owners (upd (own s) g (Some None)) (ran s) (dropped s)) (World (upd (guards w) g (Some (Guard (free x) (engaged y)))) (log w))); auto.
    apply rel_upd; auto.
  - destruct CO as [C1 _]. destruct (rel_get _ _ _ _ R C1) as (x & Gx & M). rewrite Gx, Nat.eqb_refl.
    eexists; split; [reflexivity|]. split; auto.
    destruct R as [L R]. split; [exact L|]. cbn. intros g'. destruct (Nat.eq_dec g' g) as [->|N].
    + rewrite upd_eq, C1. reflexivity.
    + rewrite upd_neq by auto. apply R.
  - destruct (rel_get _ _ _ _ R H) as (x & Gx & M). rewrite Gx.
    eexists; split; [reflexivity|]. split; auto. apply rel_upd; auto.
  - destruct (rel_get _ _ _ _ R H) as (x & Gx & M). rewrite Gx. unfold destroy.
    destruct f as [a|].
    + destruct M as [-> ->]. cbn [rbind]. eexists; split; [reflexivity|]. split; auto.
      destruct R as [L R]. apply (rel_upd (Owners (own s) (ran s ++ [a]) (dropped s)) (World (guards w) (log w ++ [a]))); auto.
      split; [cbn; congruence|exact R].
    + rewrite M. cbn [rbind]. cbn [opt_list] in *. rewrite app_nil_r in *. eexists; split; [reflexivity|]. split; auto. now apply rel_upd.
Qed.

Lemma run_rel os : forall s w, rel s w -> careful s os ->
  exists s' w', oexec s os s' /\ grun moved w os = Ok w' /\ rel s' w'.
Proof.
  induction os as [|o os IH]; intros s w R C.
  - exists s, w. split; [constructor|]. split; [reflexivity|exact R].
  - inversion C; subst. destruct (step_rel _ _ _ _ _ R H1 C) as (w' & E & R' & C').
    destruct (IH _ _ R' C') as (s2 & w2 & X & Y & Z). exists s2, w2.
    split; [econstructor; eauto|]. split; [|exact Z]. cbn [grun]. rewrite E. exact Y.
Qed.
End Proof.

(** *** The owned actions are counted: nothing is lost or doubled *)

(** A list of distinct guards that includes all the existing ones. *)
Definition owned (s : owners) (dom : list nat) : list nat :=
  flat_map (fun g => match own s g with Some (Some a) => [a] | _ => [] end) dom.

Definition covers (s : owners) (dom : list nat) : Prop := NoDup dom /\ forall g, own s g <> None -> In g dom.

Lemma owned_ext s s' dom : (forall g, In g dom -> own s g = own s' g) -> owned s dom = owned s' dom.
Proof.
  unfold owned. induction dom as [|g dom IH]; intros H; cbn; auto. rewrite (H g) by now left.
  f_equal. apply IH. intros. apply H. now right.
Qed.

Definition holds (f : option (option nat)) : list nat := match f with Some (Some a) => [a] | _ => [] end.

(** Changing what one guard owns. *)
Lemma owned_split s dom g : NoDup dom -> In g dom ->
  exists rest, Permutation (owned s dom) (holds (own s g) ++ rest) /\
    forall s', (forall h, h <> g -> own s' h = own s h) -> Permutation (owned s' dom) (holds (own s' g) ++ rest).
Proof.
  intros N I. apply in_split in I. destruct I as (a & b & ->).
  apply NoDup_remove in N. destruct N as [_ NI].
  exists (owned s (a ++ b)).
  assert (H : forall s', (forall h, h <> g -> own s' h = own s h) -> Permutation (owned s' (a ++ g :: b)) (holds (own s' g) ++ owned s (a ++ b))).
  { intros s' E. unfold owned at 1. rewrite flat_map_app. cbn [flat_map].
    fold (owned s' a) (owned s' b). rewrite Permutation_app_swap_app. apply Permutation_app; [reflexivity|].
    unfold owned. rewrite <- flat_map_app. fold (owned s' (a ++ b)) (owned s (a ++ b)).
    rewrite (owned_ext s' s); auto. intros h Ih. apply E. intros ->. auto. }
  split; auto.
Qed.

Lemma ostep_count s o s' dom : ostep s o s' -> covers s dom ->
  exists dom', covers s' dom' /\
  Permutation (ran s' ++ dropped s' ++ owned s' dom') (ran s ++ dropped s ++ owned s dom ++ created [o]).
Proof.
  intros O [ND CV].
  assert (NEW : forall g s1 f, own s g = None -> own s1 g = Some f -> (forall h, h <> g -> own s1 h = own s h) ->
     ran s1 = ran s -> dropped s1 = dropped s ->
     exists dom1, covers s1 dom1 /\ Permutation (ran s1 ++ dropped s1 ++ owned s1 dom1) (ran s ++ dropped s ++ owned s dom ++ holds (Some f))).
  { intros g s1 f G G1 E R D. rewrite R, D. destruct (in_dec Nat.eq_dec g dom) as [I|NI].
    - exists dom. split.
      + split; auto. intros h H. destruct (Nat.eq_dec h g) as [->|Ne]; auto. apply CV. now rewrite <- E.
      + destruct (owned_split s dom g ND I) as (rest & P1 & P2). rewrite G in P1. cbn in P1.
        specialize (P2 s1 E). rewrite G1 in P2. rewrite P1, P2. do 2 apply Permutation_app_head. apply Permutation_app_comm.
    - exists (g :: dom). split.
      + split; [now constructor|]. intros h H. destruct (Nat.eq_dec h g) as [->|Ne]; [now left|]. right. apply CV. now rewrite <- E.
      + do 2 apply Permutation_app_head. unfold owned at 1. cbn [flat_map]. rewrite G1. fold (owned s1 dom).
        rewrite (owned_ext s1 s dom) by (intros h Ih; apply E; intros ->; auto). apply Permutation_app_comm. }
  assert (COV : forall s1, (forall h, own s1 h <> None -> own s h <> None) -> covers s1 dom).
  { intros s1 H. split; auto. }
  inversion O; subst; cbn [created flat_map].
  - destruct (NEW g (Owners (upd (own s) g (Some (if e then Some a else None))) (ran s) (dropped s)) (if e then Some a else None)) as (d1 & C1 & P1); auto.
    + cbn. apply upd_eq.
    + intros h N. cbn. now apply upd_neq.
    + exists d1. split; auto. destruct e; cbn in *; exact P1.
  - assert (Ng : g <> src) by congruence.
    set (s1 := Owners (upd (own s) src (Some None)) (ran s) (dropped s)).
    assert (S : In src dom) by (apply CV; congruence).
    destruct (owned_split s dom src ND S) as (rest & P1 & P2). rewrite H0 in P1.
    specialize (P2 s1 ltac:(intros; cbn; now apply upd_neq)). cbn in P2. rewrite upd_eq in P2. cbn in P2.
    set (s2 := Owners (upd (upd (own s) g (Some f)) src (Some None)) (ran s) (dropped s)).
    destruct (in_dec Nat.eq_dec g dom) as [I|NI].
    + exists dom. split.
      { split; auto. intros h Hh. cbn in Hh. destruct (Nat.eq_dec h src) as [->|]; auto. destruct (Nat.eq_dec h g) as [->|]; auto.
        apply CV. rewrite !upd_neq in Hh; auto. }
      destruct (owned_split s1 dom g ND I) as (rest' & Q1 & Q2).
      assert (E2 : forall h, h <> g -> own s2 h = own s1 h).
      { intros h N. cbn. unfold upd. destruct (Nat.eqb h src), (Nat.eqb_spec h g); congruence. }
      specialize (Q2 s2 E2). cbn in Q1, Q2. rewrite upd_neq in Q1 by auto. rewrite H in Q1. cbn in Q1.
      rewrite upd_neq, upd_eq in Q2 by auto. cbn [ran dropped s2]. do 2 apply Permutation_app_head.
      rewrite Q2, <- Q1, P2, app_nil_r, P1. reflexivity.
    + exists (g :: dom). split.
      { split; [now constructor|]. intros h Hh. cbn in Hh. destruct (Nat.eq_dec h g) as [->|]; [now left|right].
        destruct (Nat.eq_dec h src) as [->|]; auto. apply CV. rewrite !upd_neq in Hh; auto. }
      cbn [ran dropped s2]. do 2 apply Permutation_app_head. unfold owned at 1. cbn [flat_map].
      assert (own s2 g = Some f) as -> by (cbn; rewrite upd_neq, upd_eq by auto; reflexivity). fold (owned s2 dom). rewrite app_nil_r.
      rewrite (owned_ext s2 s1), P2, P1.
      { destruct f; reflexivity. }
      intros h Ih. cbn. unfold upd. destruct (Nat.eqb h src); auto. destruct (Nat.eqb_spec h g) as [->|]; auto. tauto.
  - set (s2 := Owners (upd (upd (own s) g (Some f')) src (Some None)) (ran s ++ opt_list f) (dropped s)).
    exists dom. split.
    { apply COV. intros h Hh. cbn in Hh. unfold upd in Hh. destruct (Nat.eqb_spec h src) as [E1|]; [rewrite E1; congruence|].
      destruct (Nat.eqb_spec h g) as [E2|]; [rewrite E2|]; congruence. }
    assert (S : In src dom) by (apply CV; congruence). assert (G : In g dom) by (apply CV; congruence).
    set (s1 := Owners (upd (own s) src (Some None)) (ran s) (dropped s)).
    destruct (owned_split s dom src ND S) as (rest & P1 & P2). rewrite H0 in P1.
    specialize (P2 s1 ltac:(intros; cbn; now apply upd_neq)). cbn in P2. rewrite upd_eq in P2. cbn in P2.
    destruct (owned_split s1 dom g ND G) as (rest' & Q1 & Q2).
    assert (E2 : forall h, h <> g -> own s2 h = own s1 h).
    { intros h N. cbn. unfold upd. destruct (Nat.eqb h src), (Nat.eqb_spec h g); congruence. }
    specialize (Q2 s2 E2). cbn in Q1, Q2. rewrite upd_neq in Q1 by auto. rewrite H in Q1.
    rewrite upd_neq, upd_eq in Q2 by auto. cbn [ran dropped s2]. rewrite Q2, app_nil_r, P1, <- P2, Q1.
    replace (opt_list f) with (holds (Some f)) by (destruct f; reflexivity).
    rewrite <- app_assoc. apply Permutation_app_head.
    rewrite (Permutation_app_swap_app (holds (Some f)) (dropped s)). apply Permutation_app_head.
    apply Permutation_app_swap_app.
  - exists dom. split; [split; auto|]. now rewrite app_nil_r.
  - exists dom. split.
    { apply COV. intros h Hh. cbn in Hh. unfold upd in Hh. destruct (Nat.eqb_spec h g) as [E1|]; [rewrite E1|]; congruence. }
    assert (G : In g dom) by (apply CV; congruence).
    destruct (owned_split s dom g ND G) as (rest & P1 & P2). rewrite H in P1.
    set (s1 := Owners (upd (own s) g (Some None)) (ran s) (dropped s ++ opt_list f)).
    specialize (P2 s1 ltac:(intros; cbn; now apply upd_neq)). cbn in P2. rewrite upd_eq in P2. cbn in P2.
    fold s1. cbn [ran dropped s1]. rewrite P2, P1, app_nil_r.
    replace (opt_list f) with (holds (Some f)) by (destruct f; reflexivity).
    now rewrite <- app_assoc.
  - exists dom. split.
    { apply COV. intros h Hh. cbn in Hh. unfold upd in Hh. destruct (Nat.eqb_spec h g) as [E1|]; [rewrite E1|]; congruence. }
    assert (G : In g dom) by (apply CV; congruence).
    destruct (owned_split s dom g ND G) as (rest & P1 & P2). rewrite H in P1.
    set (s1 := Owners (upd (own s) g None) (ran s ++ opt_list f) (dropped s)).
    specialize (P2 s1 ltac:(intros; cbn; now apply upd_neq)). cbn in P2. rewrite upd_eq in P2. cbn in P2.
    fold s1. cbn [ran dropped s1]. rewrite P2, P1, app_nil_r.
    replace (opt_list f) with (holds (Some f)) by (destruct f; reflexivity).
    rewrite <- app_assoc. apply Permutation_app_head. apply Permutation_app_swap_app.
Qed.

Lemma oexec_count s os s' dom : oexec s os s' -> covers s dom ->
  exists dom', covers s' dom' /\
  Permutation (ran s' ++ dropped s' ++ owned s' dom') (ran s ++ dropped s ++ owned s dom ++ created os).
Proof.
  intros E. revert dom. induction E as [s|s o s1 os s2 ST EX IH]; intros dom C.
  - exists dom. split; auto. cbn. now rewrite app_nil_r.
  - destruct (ostep_count _ _ _ _ ST C) as (d1 & C1 & P1). destruct (IH _ C1) as (d2 & C2 & P2).
    exists d2. split; auto. rewrite P2. change (o :: os) with ([o] ++ os).
    unfold created in *. rewrite flat_map_app. rewrite !app_assoc in *. now apply Permutation_app_tail.
Qed.

(** ** Theorems *)

(** For careful histories the code runs the actions exactly as ownership demands. *)
Theorem guard_ownership_partial (moved : option nat -> option nat) os : careful oinit os ->
  exists s w, oexec oinit os s /\ grun moved ginit os = Ok w /\ log w = ran s.
Proof.
  intros C. assert (R : rel oinit ginit) by (split; [reflexivity|intros g; exact Logic.I]).
  destruct (run_rel moved os _ _ R C) as (s & w & E & G & [L _]). eauto.
Qed.
Print Assumptions guard_ownership_partial.

(** In particular, when all guards have ended every action has been run or released exactly once. *)
Theorem guard_exactly_once_partial (moved : option nat -> option nat) os : careful oinit os ->
  exists s w, oexec oinit os s /\ grun moved ginit os = Ok w /\
    ((forall g, guards w g = None) -> Permutation (log w ++ dropped s) (created os)).
Proof.
  intros C. assert (R : rel oinit ginit) by (split; [reflexivity|intros g; exact Logic.I]).
  destruct (run_rel moved os _ _ R C) as (s & w & E & G & [L RR]). exists s, w. split; auto. split; auto.
  intros N. destruct (oexec_count _ _ _ [] E) as (dom & _ & P).
  { split; [constructor|]. cbn. congruence. }
  cbn in P. rewrite <- P, <- L.
  assert (owned s dom = []) as ->; [|now rewrite app_nil_r].
  unfold owned. clear - RR N. induction dom as [|g dom IH]; cbn; auto. specialize (RR g). rewrite N in RR.
  destruct (own s g) as [[a|]|]; try tauto. 
Qed.
Print Assumptions guard_exactly_once_partial.

(** Violated: moving a released guard engages it again, the released action is run. *)
Theorem guard_released_refuted : exists os w, grun (fun f => f) ginit os = Ok w /\
  In (GRelease 0) os /\ os = [GNew 0 7 true; GRelease 0; GMove 1 0; GDestroy 1; GDestroy 0] /\ log w = [7].
Proof. eexists; eexists; split; [|split; [|split; [reflexivity|]]]; [vm_compute; reflexivity| |reflexivity]. cbn; tauto. Qed.
Print Assumptions guard_released_refuted.

(** Violated: a guard that has been moved from twice makes the action run twice. *)
Theorem guard_twice_refuted : exists os w, grun (fun f => f) ginit os = Ok w /\
  (forall g, guards w g = None) /\ created os = [7] /\ log w = [7; 7].
Proof.
  exists [GNew 0 7 true; GMove 1 0; GMove 2 0; GDestroy 2; GDestroy 1; GDestroy 0]. eexists.
  split; [vm_compute; reflexivity|]. split; [|split; reflexivity].
  intros [|[|[|g]]]; reflexivity.
Qed.
Print Assumptions guard_twice_refuted.

(** Violated: move assignment loses the action of the target, nothing else is moved or released. *)
Theorem guard_assign_refuted : exists os w, grun (fun f => f) ginit os = Ok w /\
  (forall g, guards w g = None) /\ (forall g, ~ In (GRelease g) os) /\ created os = [7; 8] /\ log w = [8].
Proof.
  exists [GNew 0 7 true; GNew 1 8 true; GAssign 0 1; GDestroy 1; GDestroy 0]. eexists.
  split; [vm_compute; reflexivity|]. split; [intros [|[|g]]; reflexivity|]. split; [|split; reflexivity].
  intros g. cbn. intuition discriminate.
Qed.
Print Assumptions guard_assign_refuted.

(** Violated: an action that is moved into a guard that has been moved from is never run. *)
Theorem guard_assign_lost_refuted : exists os w, grun (fun f => f) ginit os = Ok w /\
  (forall g, guards w g = None) /\ (forall g, ~ In (GRelease g) os) /\ created os = [7; 8] /\ log w = [7].
Proof.
  exists [GNew 0 7 true; GMove 1 0; GNew 2 8 true; GAssign 0 2; GDestroy 2; GDestroy 1; GDestroy 0]. eexists.
  split; [vm_compute; reflexivity|]. split; [intros [|[|[|g]]]; reflexivity|]. split; [|split; reflexivity].
  intros g. cbn. intuition discriminate.
Qed.
Print Assumptions guard_assign_lost_refuted.

(** Two guards, one moved twice along a chain, one released after a move. *)
Definition demo_ops : list gop :=
  [GNew 0 7 true; GNew 1 8 true; GNew 5 9 false; GMove 2 0; GMove 3 2; GMove 4 1; GRelease 4;
   GDestroy 4; GDestroy 3; GDestroy 2; GDestroy 5; GDestroy 1; GDestroy 0].

Example guard_demo_careful : careful oinit demo_ops.
Proof.
  unfold demo_ops, oinit.
  Ltac red_own := cbn [own ran dropped opt_list app].
  do 3 (eapply CMore; [now apply ONew|exact Logic.I|]; red_own).
  do 3 (eapply CMore; [eapply OMove; reflexivity|discriminate|]; red_own).
  eapply CMore; [eapply ORelease; reflexivity|exact Logic.I|]; red_own.
  do 6 (eapply CMore; [eapply ODestroy; reflexivity|exact Logic.I|]; red_own). apply CEnd.
Qed.

Example guard_demo : exists w, grun (fun f => f) ginit demo_ops = Ok w /\ log w = [7].
Proof. eexists; split; [vm_compute; reflexivity|reflexivity]. Qed.
