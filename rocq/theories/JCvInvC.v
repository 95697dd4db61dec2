(** No lost wake up in the model of condition_variable_any2, and what the waits return *)
From Coq Require Import ZifyBool ZifyNat.
From Verif Require Import Common JCvModel JCvInv JCvInvB.

Section InvC.
Context {data : Type} (pr : nat -> data -> bool) (n : nat).
Notation state := (@state data).

(** On the way to sleep after the test of the stop flag *)
Definition asleep (s : state) (x : nat) : bool :=
  match pcs s x with WUnlock m | WWait m => tok m | WBlocked m => tok m && mem x (waiting s) | _ => false end.
Definition invC (s : state) : Prop := forall x, asleep s x = true -> In x (reg s) \/ exists u, calling (pcs s u) = Some x.

(** The data have not been changed since the last notify_all *)
Definition fresh1 (b : bool) (e : event data) : bool := match e with ESet _ => false | ENotified _ => true | _ => b end.
Definition fresh (l : list (event data)) : bool := fold_left fresh1 l true.
Lemma fresh_snoc : forall l e, fresh (l ++ [e]) = fresh1 (fresh l) e.
Proof. intros l e. unfold fresh. now rewrite fold_left_app. Qed.
Lemma fresh_after : forall l1 u l2, (forall d, ~ In (ESet d) l2) -> fresh (l1 ++ ENotified u :: l2) = true.
Proof.
  intros l1 u l2. revert l1. induction l2 as [|e l2 IH] using rev_ind; intros l1 K.
  - now rewrite fresh_snoc.
  - change (l1 ++ ENotified u :: l2 ++ [e]) with (l1 ++ (ENotified u :: l2) ++ [e]). rewrite app_assoc, fresh_snoc.
    rewrite IH by (intros d I; apply (K d), in_or_app; now left). destruct e; try easy. destruct (K d). apply in_or_app. right. now left.
Qed.

Definition excuse (s : state) (x : nat) (m : mode) : Prop := timed m = true /\ expired s x = true \/ tok m = true /\ stop s = true.
Definition dl (s : state) (x : nat) (p : pc) : Prop :=
  match p with
  | WLockM m | WStop m | WUnlock m => prd m = true -> pr x (dat s) = false
  | WWait m => fresh (log s) = true -> prd m = true -> pr x (dat s) = false
  | WBlocked m => In x (waiting s) -> fresh (log s) = true -> prd m = true -> pr x (dat s) = false
  | WTake m l | WRead m l => l = true -> timed m = true /\ expired s x = true
  | WRelease m r l | WRelock m r l => (l = true -> timed m = true /\ expired s x = true) /\ (r = true -> prd m = true -> timed m = true /\ excuse s x m)
  | WFinal m => excuse s x m
  | WDtor m v => (prd m = true -> v = pr x (dat s)) /\ (v = false -> excuse s x m)
  | _ => True
  end.
Definition invD (s : state) : Prop := forall x, dl s x (pcs s x).

Lemma invC_init : forall d : data, invC (init d).
Proof. intros d x. now cbn. Qed.
Lemma invD_init : forall d : data, invD (init d).
Proof. intros d x. now cbn. Qed.

Section Step.
Context (t : nat) (a : @action data) (s s' : state) (H : step pr n t a s = Some (Ok s')) (A : invA n s) (B : invB s).
Lemma calling_step : forall u c, calling (pcs s u) = Some c -> calling (pcs s' u) = Some c \/ mtx s = Some u /\ waiting s' = [] /\ pcs s' u = RFin c /\ t = u.
Proof.
  intros u c M. pose proof (a_m _ _ A t) as Mt. clear A B.
  split_step H; try (left; exact M); xcase u t; try (left; exact M); rewrite P in M; cbn [calling] in *; try discriminate M; auto.
  right. injection M as <-. rewrite ?P in Mt. cbn in Mt. now rewrite (proj1 Mt).
Qed.
Lemma reg_step : forall c, In c (reg s) -> In c (reg s') \/ calling (pcs s' t) = Some c \/ t = c /\ pcs s' t = PUser.
Proof.
  intros c K. clear A B. split_step H; try (left; exact K); rewrite ?upd_eq; try tauto.
  - left. now right.
  - rewrite in_del. destruct (Nat.eq_dec c t); [right; right; easy|now left; split].
  - easy.
  - destruct K as [->|K]; [right; left; easy|now left].
Qed.
Lemma asleep_step : forall x, asleep s' x = true -> asleep s x = true \/ x = t /\ In x (reg s).
Proof.
  intros x. pose proof (b_cb _ B t) as Ct. pose proof (b_fin _ B t) as Ft. pose proof (b_stop _ B) as S. pose proof (a_hl _ _ A) as _. clear A B.
  assert (forall u c, target (pcs s u) = Some c -> stop s = true) as T by (intros u c U; apply (S u); destruct (pcs s u); easy).
  unfold asleep. split_step H; try tauto; xcase x t; try rewrite P in *; cbn [tokac] in *; try easy; try tauto.
  all: cbn [mem existsb]; rewrite ?andb_false_r; try easy; try tauto.
  all: try (destruct (pcs s x); rewrite ?andb_false_r; try easy; tauto).
  all: try (destruct (pcs s x); try easy; try tauto; rewrite !andb_true_iff, !mem_in, ?in_del; cbn [In]; tauto).
  - intros Z. rewrite Z in *. match goal with E : true && stop s = false |- _ => cbn in E; rewrite E in * end.
    right. split; [easy|]. destruct (Ct eq_refl) as [K|[K|(u & K)]]; [easy|now specialize (Ft K)|]. now specialize (T _ _ K).
  - rewrite andb_true_iff. tauto.
  - destruct (pcs s x); try easy; try tauto. rewrite !andb_true_iff, !mem_in. cbn [In]. intuition congruence.
  - match goal with E : waiting s = [] |- _ => rewrite E end. tauto.
Qed.
Lemma invC_step : invC s -> invC s'.
Proof.
  intros C x Z. pose proof (asleep_step x Z) as Y.
  assert (In x (reg s) \/ exists u, calling (pcs s u) = Some x) as [K|(u & K)] by (destruct Y as [Y|(_ & Y)]; auto).
  - destruct (reg_step x K) as [L|[L|(<- & L)]]; [now left|right; now exists t|]. unfold asleep in Z. now rewrite L in Z.
  - right. destruct (calling_step u x K) as [L|(L1 & L2 & L3 & ->)]; [now exists u|].
    exfalso. unfold asleep in Z. rewrite L2 in Z.
    assert (x <> u) by (intros ->; now rewrite L3 in Z).
    assert (pcs s' x = pcs s x) as E. { clear - H H0. split_step H; rewrite ?upd_neq by easy; easy. }
    rewrite E in Z. pose proof (a_m _ _ A x) as M. rewrite L1 in M. destruct (pcs s x); try easy; [| |now rewrite andb_false_r in Z]; cbn in M; destruct M as (M & _); specialize (M eq_refl); congruence.
Qed.
Lemma invD_step : invD s -> invD s'.
Proof.
  intros D x. pose proof (D x) as Dx. pose proof (D t) as Dt. pose proof (a_hl _ _ A x) as HL. pose proof (a_hl _ _ A t) as HLt. pose proof (a_m _ _ A x) as Mx. pose proof (a_m _ _ A t) as Mt. clear D A B.
  split_step H; xcase x t; rewrite ?P in *.
  all: try exact Dx; try exact I.
  all: unfold dl, excuse in *; proj; rewrite ?fresh_snoc; cbn [fresh1]; rewrite ?upd_eq, ?upd_neq by easy.
  all: try (match goal with |- context [match pcs s ?x with _ => _ end] => destruct (pcs s x) end; cbn [hl hm] in *; rewrite ?in_del; cbn [In]; try exact I; try exact Dx; try (intuition congruence); fail).
  all: cbn [hl hm] in *; rewrite ?in_del; try (intuition congruence).
  - split; [easy|]. unfold after_wait. intros K Z. rewrite Z in K. cbn in K. apply andb_prop in K. destruct K as (K1 & K2). split; [easy|].
    apply orb_prop in K2. destruct K2 as [K2|K2]; [left; now apply Dx|right; now apply andb_prop].
  - split; [congruence|]. intros K. left. apply Dx. now destruct late.
Qed.
End Step.

Definition inv (s : state) : Prop := invA n s /\ invB s /\ invC s /\ invD s.
Lemma inv_init : forall d : data, inv (init d).
Proof. intros d. split; [apply invA_init|split; [apply invB_init|split; [apply invC_init|apply invD_init]]]. Qed.
Lemma inv_step : forall t a (s s' : state), inv s -> step pr n t a s = Some (Ok s') -> inv s'.
Proof.
  intros t a s s' (A & B & C & D) H. split; [now apply (invA_step pr n t a s)|split; [now apply (invB_step pr n t a s)|split]].
  - now apply (invC_step t a s).
  - now apply (invD_step t a s).
Qed.
Lemma inv_run : forall tr (s s' : state), inv s -> run pr n tr s = Some (Ok s') -> inv s'.
Proof.
  induction tr as [|(t, a) tr IH]; cbn [run]; intros s s' I R; [injection R as <-; easy|].
  destruct (step pr n t a s) as [[s1| |]|] eqn:E; try discriminate R. apply (IH s1); [|easy]. now apply (inv_step t a s).
Qed.
End InvC.
