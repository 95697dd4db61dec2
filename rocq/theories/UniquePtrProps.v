(** What each awl::unique_ptr points to, which objects are deleted, and when that is undefined (C65). *)
From Verif Require Import Common HandleModel HandleProps.
From Coq Require Import ZifyBool ZifyNat.

(** ** What is expected *)
(** The pointers, the released objects, and the deleted objects, the last one first. *)
Definition pview : Type := (nat -> option (option nat)) * list nat * list nat.
Definition held (e : nat -> option (option nat)) (i : nat) : list nat := match e i with Some (Some p) => [p] | _ => [] end.
Definition pexpect (o : pop) (w : pview) : pview :=
  let '(e, r, d) := w in
  match o with
  | PDefault i => (upd e i (Some None), r, d)
  | PNew i p => (upd e i (Some (Some p)), r, d)
  | PMoveCtor i j => (upd (upd e i (e j)) j (Some None), r, d)
  | PMoveAssign i j => (upd (upd e i (e j)) j (Some None), r, held e i ++ d)
  | PResetNew i p => (upd e i (Some (Some p)), r, held e i ++ d)
  | PResetNull i => (upd e i (Some None), r, held e i ++ d)
  | PResetRaw i p => (upd e i (Some (Some p)), filter (fun q => negb (Nat.eqb q p)) r, held e i ++ d)
  | PRelease i => (upd e i (Some None), held e i ++ r, d)
  | PDestroy i => (upd e i None, r, held e i ++ d)
  end.
Definition pexpected (os : list pop) : pview := fold_left (fun w o => pexpect o w) os (fun _ => None, [], []).

Local Notation calm := (fun _ : nat => false).
Lemma erase_filter p l : NoDup l -> erase p l = filter (fun q => negb (Nat.eqb q p)) l.
Proof.
  induction l as [|q l IH]; cbn [erase filter]; intros Hn; auto. apply NoDup_cons_iff in Hn. destruct Hn as [Hi Hn]. destruct (Nat.eqb_spec q p) as [->|N]; cbn [negb]; [|now rewrite IH].
  symmetry. clear IH. induction l as [|x l IH]; auto. cbn [filter]. destruct (Nat.eqb_spec x p) as [->|]; [destruct Hi; now left|]. cbn [negb]. f_equal. apply IH; [intros X; apply Hi; now right|now apply NoDup_cons_iff in Hn].
Qed.
(** A deletion with any destructors, by that with calm ones *)
Lemma destroy_any re i s : NoDup (alive s) -> (forall p, pvalue s i = Some p -> In p (alive s)) ->
  destroy re i s = if existsb re (held (ptr s) i) then UB else destroy calm i s.
Proof.
  intros Hn Ha. unfold destroy, held. unfold pvalue in *. destruct (ptr s i) as [[p|]|]; cbn [existsb]; auto. rewrite orb_false_r. assert (A : existsb (Nat.eqb p) (alive s) = true) by (apply existsb_exists; exists p; split; [auto|apply Nat.eqb_refl]). rewrite A. cbn [alive].
  destruct (re p); auto. assert (B : existsb (Nat.eqb p) (erase p (alive s)) = false); [|now rewrite B]. apply not_true_is_false. intros X. apply existsb_exists in X. destruct X as (x & Hx & Ex). apply Nat.eqb_eq in Ex. subst x. apply erase_in in Hx; tauto.
Qed.
(** The objects that a step deletes *)
Definition victims (o : pop) (s : pstate) : list nat :=
  match o with PMoveAssign i _ | PResetNew i _ | PResetNull i | PResetRaw i _ | PDestroy i => held (ptr s) i | _ => [] end.
Lemma pstep_any re o s : powned s -> pproper o s -> pstep re o s = if existsb re (victims o s) then UB else pstep calm o s.
Proof.
  intros [R1 R2 R3 R4 R5] P. assert (H : forall i p, pvalue s i = Some p -> In p (alive s)). { intros i p X. apply R1. right. exists i. unfold pvalue in X. destruct (ptr s i); congruence. }
  destruct o as [i|i p|i j|i j|i p|i|i p|i|i]; cbn [pstep victims pproper existsb] in *; auto; unfold reset.
  - rewrite (destroy_any re i s) by eauto. now destruct (existsb re _).
  - destruct P as [P F]. rewrite (destroy_any re i _); [now destruct (existsb re _)|constructor; auto|]. intros q X. right. eapply H. exact X.
  - rewrite (destroy_any re i s) by eauto. now destruct (existsb re _).
  - rewrite (destroy_any re i s) by eauto. now destruct (existsb re _).
  - rewrite (destroy_any re i s) by eauto. now destruct (existsb re _).
Qed.
Definition shows (s : pstate) (w : pview) : Prop := (forall i, ptr s i = fst (fst w) i) /\ raw s = snd (fst w).
Lemma destroy_same i s s1 : destroy calm i s = Ok s1 -> ptr s1 = ptr s /\ raw s1 = raw s.
Proof. unfold destroy. destruct (pvalue s i); [destruct (existsb _ _); [|discriminate]|]; intros X; injection X as <-; auto. Qed.
Lemma pstep_shows o s s1 w : powned s -> pproper o s -> shows s w -> pstep calm o s = Ok s1 -> shows s1 (pexpect o w) /\ snd (pexpect o w) = victims o s ++ snd w.
Proof.
  intros R P [W1 W2] E. destruct w as [[e r] d]. cbn [fst snd] in *. assert (Hh : forall i, held (ptr s) i = held e i) by (intros i; unfold held; now rewrite W1).
  assert (Hv : forall j, pexists s j -> Some (pvalue s j) = e j). { intros j X. unfold pexists in X. unfold pvalue. rewrite <- W1. destruct (ptr s j); congruence. }
  assert (Hu : forall i v x, upd (ptr s) i v x = upd e i v x) by (intros; unfold upd; now rewrite W1).
  destruct o as [i|i p|i j|i j|i p|i|i p|i|i]; cbn [pstep victims pproper pexpect] in *; unfold reset in *.
  - injection E as <-. split; [split|]; cbn; auto.
  - injection E as <-. split; [split|]; cbn; auto.
  - injection E as <-. split; [split|]; cbn; auto. intros x. rewrite (Hv j) by tauto. unfold upd. rewrite !W1. reflexivity.
  - destruct (destroy calm i s) as [s0| |] eqn:D; cbn [rbind] in E; try discriminate. injection E as <-. apply destroy_same in D. destruct D as [D1 D2]. split; [split|]; cbn; rewrite ?D1, ?D2, ?Hh; auto. intros x. rewrite (Hv j) by tauto. unfold upd. rewrite !W1. reflexivity.
  - destruct (destroy calm i _) as [s0| |] eqn:D; cbn [rbind] in E; try discriminate. injection E as <-. apply destroy_same in D. destruct D as [D1 D2]. cbn [ptr raw] in *. split; [split|]; cbn; rewrite ?D1, ?D2, ?Hh; auto.
  - destruct (destroy calm i s) as [s0| |] eqn:D; cbn [rbind] in E; try discriminate. injection E as <-. apply destroy_same in D. destruct D as [D1 D2]. split; [split|]; cbn; rewrite ?D1, ?D2, ?Hh; auto.
  - destruct (destroy calm i s) as [s0| |] eqn:D; cbn [rbind] in E; try discriminate. injection E as <-. apply destroy_same in D. destruct D as [D1 D2]. split; [split|]; cbn; rewrite ?D1, ?D2, ?Hh; auto. rewrite <- W2. apply erase_filter, (p_rawdup s R).
  - injection E as <-. rewrite <- Hh. unfold held, pvalue. destruct (ptr s i) as [[p|]|]; (split; [split|]); cbn; auto. now rewrite W2.
  - destruct (destroy calm i s) as [s0| |] eqn:D; cbn [rbind] in E; try discriminate. injection E as <-. apply destroy_same in D. destruct D as [D1 D2]. split; [split|]; cbn; rewrite ?D1, ?D2, ?Hh; auto.
Qed.
Lemma pgrow os : forall w, exists l, snd (fold_left (fun w o => pexpect o w) os w) = l ++ snd w.
Proof.
  induction os as [|o os IH]; intros w; cbn [fold_left]; [now exists []|]. destruct (IH (pexpect o w)) as (l & ->). destruct w as [[e r] d]. destruct o; cbn [pexpect snd]; eauto; rewrite app_assoc; eauto.
Qed.
Lemma prun_any re os : forall s w, powned s -> shows s w -> existsb re (snd w) = false -> pproper_run calm os s ->
  let w' := fold_left (fun w o => pexpect o w) os w in
  if existsb re (snd w') then prun re os s = UB else exists s', prun re os s = Ok s' /\ powned s' /\ shows s' w'.
Proof.
  induction os as [|o os IH]; intros s w R W D P; cbn [fold_left prun].
  - cbn. rewrite D. eauto.
  - destruct P as [P1 P2]. destruct (pstep_ok calm (fun _ => eq_refl) o s R P1) as (s1 & E & R1). destruct (pstep_shows o s s1 w R P1 W E) as [W1 V]. rewrite (pstep_any re o s R P1). cbn zeta. destruct (existsb re (victims o s)) eqn:X.
    + destruct (pgrow os (pexpect o w)) as (l & ->). rewrite V, !existsb_app, X, orb_true_r. reflexivity.
    + rewrite E. cbn [rbind]. apply IH; auto. now rewrite V, existsb_app, X, D.
Qed.
Lemma pempty_owned : powned pempty.
Proof. constructor; cbn; try discriminate; try constructor; try tauto. intros [[]|(i & X)]. discriminate. Qed.

(** Every run: it is undefined exactly if an object whose destructor uses its pointer is deleted; otherwise the pointers and the released
    objects are as expected, and these are the objects that are alive, each of them once. *)
Theorem unique_ptr_exact : forall re os, pproper_run calm os pempty ->
  let '(e, r, d) := pexpected os in
  if existsb re d then prun re os pempty = UB
  else exists s, prun re os pempty = Ok s /\ (forall i, ptr s i = e i) /\ raw s = r /\ NoDup (alive s) /\
    (forall p, In p (alive s) <-> In p r \/ exists i, e i = Some (Some p)) /\ (forall i j p, e i = Some (Some p) -> e j = Some (Some p) -> i = j).
Proof.
  intros re os P. pose proof (prun_any re os pempty (fun _ => None, [], []) pempty_owned (conj (fun _ => eq_refl) eq_refl) eq_refl P) as H. cbn zeta in H. fold (pexpected os) in H. destruct (pexpected os) as [[e r] d]. cbn [snd] in H. destruct (existsb re d); auto.
  destruct H as (s & E & [R1 R2 R3 R4 R5] & W1 & W2). cbn [fst snd] in *. exists s. split; auto. split; auto. split; auto. split; auto. split.
  - intros p. rewrite R1, W2. split; (intros [X|(i & Ei)]; [now left|right; exists i]); [now rewrite <- W1|now rewrite W1].
  - intros i j p. rewrite <- !W1. apply R2.
Qed.
(** operator==: different pointers are equal only if both are null. *)
Theorem unique_ptr_equal : forall os s i j, pproper_run calm os pempty -> prun calm os pempty = Ok s -> pexists s i -> pexists s j ->
  pequal s i j = true <-> i = j \/ (fst (fst (pexpected os)) i = Some None /\ fst (fst (pexpected os)) j = Some None).
Proof.
  intros os s i j P E Hi Hj. pose proof (unique_ptr_exact calm os P) as H. destruct (pexpected os) as [[e r] d]. cbn [fst]. assert (X : existsb calm d = false) by (clear; induction d; auto). rewrite X in H. destruct H as (s' & E' & W & _ & _ & _ & U). assert (s' = s) by congruence. subst s'. specialize (U i j). unfold pexists, pequal, pvalue in *. rewrite <- !W in *.
  destruct (ptr s i) as [[a|]|] eqn:Ei; destruct (ptr s j) as [[b|]|] eqn:Ej; try congruence.
  - rewrite Nat.eqb_eq. split; [intros ->; left; eauto|]. intros [->|[X1 _]]; congruence.
  - split; [discriminate|]. intros [->|[X1 _]]; congruence.
  - split; [discriminate|]. intros [->|[_ X1]]; congruence.
  - split; auto.
Qed.

(** ** Examples *)
Definition up_ops : list pop := [PNew 0 5; PNew 1 6; PMoveAssign 0 1; PResetNew 1 7; PRelease 0; PResetRaw 1 6; PNew 2 8; PMoveAssign 2 2].
Example unique_ptr_exact_example : (let '(e, r, d) := pexpected up_ops in (map e [0; 1; 2; 3], r, d)) = ([Some None; Some (Some 6); Some None; None], [], [8; 7; 5]) /\
  (exists s, prun (Nat.eqb 6) up_ops pempty = Ok s /\ alive s = [6] /\ pequal s 0 2 = true /\ pequal s 0 1 = false) /\ prun (Nat.eqb 7) up_ops pempty = UB.
Proof. split; [reflexivity|]. split; [|reflexivity]. eexists. split; [reflexivity|]. vm_compute. auto. Qed.
