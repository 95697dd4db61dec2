(** What the handles refer to in every run, also with the copies that go wrong; swap and comparison (C65). *)
From Verif Require Import Common HandleModel HandleProps.
From Coq Require Import ZifyBool ZifyNat.

(** ** What is there *)
(** A copy of a null handle is a handle of the process; so is a handle that is assigned to itself, because it is closed first. *)
Definition copied (v : option (option kobj)) : option (option kobj) := match v with Some None => Some (Some KProcess) | v => v end.
Definition actual_step (o : hop) (e : refs) : refs :=
  match o with
  | CopyCtor i j _ => upd e i (copied (e j))
  | CopyAssign i j _ => upd e i (if Nat.eqb i j then Some (Some KProcess) else copied (e j))
  | o => expected_step o e
  end.
Definition actual (os : list hop) : refs := fold_left (fun e o => actual_step o e) os (fun _ => None).

Lemma astep_ok o s e : owned s e -> proper o s -> exists s1, hstep o s = Ok s1 /\ owned s1 (actual_step o e).
Proof.
  intros R P. destruct o as [i|i h k|i j|i j|i j h|i j h|i|i]; try (apply hstep_ok; cbn; auto; fail); cbn [hstep proper actual_step] in *; unfold exists_ in P.
  - destruct P as (Pi & Pj & F). unfold duplicate, value. pose proof (o_refs s e R j) as Ej. rewrite Ej. destruct (slot s j) as [[g|]|] eqn:Es; [| |congruence].
    + destruct (lookup g (table s)) as [k|] eqn:L; [|destruct (o_open s e R j g Es L)]. cbn [copied]. eexists. split; [reflexivity|]. apply open_ok; auto. right. destruct (slot s i); auto. destruct Pi; discriminate.
    + cbn [copied]. eexists. split; [reflexivity|]. apply open_ok; auto. right. destruct (slot s i); auto. destruct Pi; discriminate.
  - destruct P as (Pi & Pj & F). destruct (close_ok i s e R Pi) as (s1 & -> & R1 & K1 & K2 & K3 & K4). cbn [rbind]. unfold duplicate, value. pose proof (o_refs s e R j) as Ej.
    assert (F1 : fresh s1 h) by (unfold fresh in *; destruct (lookup h (table s1)) eqn:E; auto; exfalso; apply (K3 h); congruence). destruct (Nat.eqb_spec i j) as [<-|N].
    + rewrite K2. eexists. split; [reflexivity|]. eapply owned_ext; [apply open_ok; [exact R1|now left|exact F1]|intros x; symmetry; apply upd_upd].
    + rewrite K1 by auto. rewrite Ej. destruct (slot s j) as [[g|]|] eqn:Es; [| |congruence].
      * rewrite (K4 j g) by auto. destruct (lookup g (table s)) as [k|] eqn:L; [|destruct (o_open s e R j g Es L)]. cbn [copied]. eexists. split; [reflexivity|]. eapply owned_ext; [apply open_ok; [exact R1|now left|exact F1]|intros x; symmetry; apply upd_upd].
      * cbn [copied]. eexists. split; [reflexivity|]. eapply owned_ext; [apply open_ok; [exact R1|now left|exact F1]|intros x; symmetry; apply upd_upd].
Qed.
Lemma arun_ok os : forall s e, owned s e -> proper_run os s -> exists s1, hrun os s = Ok s1 /\ owned s1 (fold_left (fun e o => actual_step o e) os e).
Proof.
  induction os as [|o os IH]; intros s e R P; cbn [hrun fold_left]; [eauto|]. destruct P as [P1 P2]. destruct (astep_ok o s e R P1) as (s1 & E & R1). rewrite E. cbn [rbind]. apply IH; auto.
Qed.

(** In every run, whatever is copied: no handle is closed twice or held by two objects, every open handle is held by an object, and each
    object refers to what [actual] says. *)
Theorem handles_exact : forall os, proper_run os empty ->
  exists s, hrun os empty = Ok s /\
  (forall i, actual os i = match slot s i with None => None | Some None => Some None | Some (Some h) => Some (lookup h (table s)) end) /\
  (forall i h, slot s i = Some (Some h) -> In h (map fst (table s))) /\
  (forall i j h, slot s i = Some (Some h) -> slot s j = Some (Some h) -> i = j) /\
  (forall h, In h (map fst (table s)) -> exists i, slot s i = Some (Some h)).
Proof.
  intros os P. destruct (arun_ok os _ _ empty_owned P) as (s & E & R). exists s. split; auto. destruct R as [R1 R2 R3 R4 R5]. split; [exact R1|]. split; [intros i h Hi; apply lookup_in; eauto|]. split; [exact R3|].
  intros h. rewrite <- lookup_in. apply R4.
Qed.
(** When all objects are destroyed no handle is open. *)
Theorem handles_exact_closed : forall os s, proper_run os empty -> hrun os empty = Ok s -> (forall i, slot s i = None) -> table s = [].
Proof.
  intros os s P E H. destruct (handles_exact os P) as (s' & E' & _ & _ & _ & B). assert (s' = s) by congruence. subst s'. destruct (table s) as [|[h k] t] eqn:T; auto. exfalso. destruct (B h) as (i & Ei); [now left|]. rewrite H in Ei. discriminate.
Qed.
(** Which runs go as expected: an object refers to something else than expected only if a null handle has been copied or a handle has been
    copied to itself. *)
Theorem handles_expected : forall os, plain_run os (fun _ => None) -> forall i, actual os i = expected os i.
Proof.
  intros os. unfold actual, expected. assert (G : forall os e e', (forall i, e i = e' i) -> plain_run os e' -> forall i, fold_left (fun e o => actual_step o e) os e i = fold_left (fun e o => expected_step o e) os e' i).
  { clear os. induction os as [|o os IH]; intros e e' EE P i; cbn [fold_left]; auto. destruct P as [P1 P2]. apply IH; auto. intros x. destruct o; cbn [actual_step expected_step plain_copy] in *; unfold upd.
    - destruct (Nat.eqb x i0); auto.
    - destruct (Nat.eqb x i0); auto.
    - destruct (Nat.eqb x j); auto. destruct (Nat.eqb x i0); auto.
    - destruct (Nat.eqb x j); auto. destruct (Nat.eqb x i0); auto.
    - destruct (Nat.eqb x i0); auto. rewrite EE. destruct (e' j) as [[v|]|]; auto. congruence.
    - destruct (Nat.eqb x i0); auto. rewrite EE. destruct P1 as [P1 N]. destruct (Nat.eqb_spec i0 j); [congruence|]. destruct (e' j) as [[v|]|]; auto. congruence.
    - destruct (Nat.eqb x i0); auto.
    - destruct (Nat.eqb x i0); auto. }
  intros P i. now apply G.
Qed.

(** ** std::swap *)
(** The objects exchange their handles, also if they are one object; nothing is opened or closed. *)
Theorem handles_swap : forall s i j t, exists_ s i -> exists_ s j -> ~ exists_ s t ->
  exists s', hrun (swap_ops i j t) s = Ok s' /\ table s' = table s /\ forall k, slot s' k = slot s (if Nat.eqb k i then j else if Nat.eqb k j then i else k).
Proof.
  intros s i j t Hi Hj Ht. unfold exists_ in *. destruct (slot s i) as [vi|] eqn:Ei; [|congruence]. destruct (slot s j) as [vj|] eqn:Ej; [|congruence]. destruct (slot s t) as [vt|] eqn:Et; [destruct Ht; discriminate|].
  assert (Nti : t <> i) by congruence. assert (Ntj : t <> j) by congruence.
  unfold swap_ops. cbn [hrun hstep rbind]. unfold close, value, set_slot. destruct (Nat.eq_dec i j) as [<-|N].
  - repeat first [rewrite upd_eq | rewrite upd_neq by congruence | rewrite Ei | rewrite Ej | progress cbn [rbind slot table]]. eexists. split; [reflexivity|]. split; [reflexivity|]. cbn [slot].
    intros k. unfold upd. destruct (Nat.eqb_spec k t) as [->|Nk]; [destruct (Nat.eqb_spec t i); congruence|]. destruct (Nat.eqb_spec k i); congruence.
  - repeat first [rewrite upd_eq | rewrite upd_neq by congruence | rewrite Ei | rewrite Ej | progress cbn [rbind slot table]]. eexists. split; [reflexivity|]. split; [reflexivity|]. cbn [slot].
    intros k. unfold upd. destruct (Nat.eqb_spec k t) as [->|Nk]; [destruct (Nat.eqb_spec t i), (Nat.eqb_spec t j); congruence|]. destruct (Nat.eqb_spec k j) as [->|Nj]; [destruct (Nat.eqb_spec j i); congruence|]. destruct (Nat.eqb_spec k i); congruence.
Qed.
(** ** operator== *)
(** Different objects are equal only if both are null. *)
Theorem handles_equal : forall os s i j, proper_run os empty -> hrun os empty = Ok s -> exists_ s i -> exists_ s j ->
  equal s i j = true <-> i = j \/ (actual os i = Some None /\ actual os j = Some None).
Proof.
  intros os s i j P E Hi Hj. destruct (handles_exact os P) as (s' & E' & A & O & U & _). assert (s' = s) by congruence. subst s'. rewrite !A. pose proof (O i) as Oi. pose proof (O j) as Oj. unfold exists_, equal, value in *. pose proof (U i j) as U'. destruct (slot s i) as [[a|]|] eqn:Ei; destruct (slot s j) as [[b|]|] eqn:Ej; try congruence.
  - split.
    + intros X. apply Nat.eqb_eq in X. subst b. left. eauto.
    + intros [->|(X & _)]; [assert (a = b) as -> by congruence; apply Nat.eqb_refl|]. specialize (Oi a eq_refl). rewrite <- lookup_in in Oi. congruence.
  - split; [discriminate|]. intros [->|(X & _)]; [congruence|]. specialize (Oi a eq_refl). rewrite <- lookup_in in Oi. congruence.
  - split; [discriminate|]. intros [->|(_ & X)]; [congruence|]. specialize (Oj b eq_refl). rewrite <- lookup_in in Oj. congruence.
  - split; auto.
Qed.

(** ** Examples *)
Example handles_exact_example : exists s, hrun [Default 0; CopyCtor 1 0 7; OpenHandle 2 8 (KFile 5); CopyAssign 2 2 9; OpenHandle 3 8 (KFile 6); CopyAssign 0 3 10] empty = Ok s /\
  table s = [(10, KFile 6); (8, KFile 6); (9, KProcess); (7, KProcess)] /\ map (actual [Default 0; CopyCtor 1 0 7; OpenHandle 2 8 (KFile 5); CopyAssign 2 2 9; OpenHandle 3 8 (KFile 6); CopyAssign 0 3 10]) [0; 1; 2; 3] = [Some (Some (KFile 6)); Some (Some KProcess); Some (Some KProcess); Some (Some (KFile 6))].
Proof. eexists. vm_compute. auto. Qed.
Example handles_swap_example : exists s, hrun ([OpenHandle 0 3 (KFile 5); Default 1] ++ swap_ops 0 1 2 ++ swap_ops 1 1 2) empty = Ok s /\ slot s 0 = Some None /\ slot s 1 = Some (Some 3) /\ slot s 2 = None /\ table s = [(3, KFile 5)] /\ equal s 0 1 = false.
Proof. eexists. vm_compute. repeat split. Qed.
