(** The stop state in the model of condition_variable_any2: who is registered, who is called *)
From Coq Require Import ZifyBool ZifyNat.
From Verif Require Import Common JCvModel JCvInv.

Ltac base P := cbn [hm hl nl blocked uses_object mode_of toktok tokac target calling active inl] in *; try rewrite P in *; cbn [hm hl nl blocked uses_object mode_of toktok tokac target calling active inl] in *.
Ltac xcase x t := destruct (Nat.eq_dec x t) as [->|]; [rewrite ?upd_eq|rewrite ?upd_neq by easy].
Section InvB.
Context {data : Type} (pr : nat -> data -> bool) (n : nat).
Notation state := (@state data).

Lemma invB_init : forall d : data, invB (init d).
Proof. intros d. constructor; unfold init; proj; cbn; try easy; intros; try easy. constructor. Qed.

Section Step.
Context (t : nat) (a : @action data) (s s' : state) (H : step pr n t a s = Some (Ok s')).
Lemma stop_mono : stop s = true -> stop s' = true.
Proof. intros M. split_step H; congruence. Qed.
Lemma target_step : forall u c, target (pcs s u) = Some c -> target (pcs s' u) = Some c \/ fin s' c = true.
Proof.
  intros u c M. split_step H; try (left; exact M); xcase u t; try (left; exact M); rewrite P in M; cbn [target] in *; try discriminate M; auto.
  injection M as <-. right. apply upd_eq.
Qed.
Lemma active_step : forall u, active (pcs s u) = true -> active (pcs s' u) = true \/ reg s' = [] /\ In (EReq u true) (log s').
Proof.
  intros u M. split_step H; try (left; exact M); xcase u t; try (left; exact M); rewrite P in M; cbn [active] in *; try discriminate M; auto.
  right. split; [easy|]. apply in_or_app. right. now left.
Qed.
Context (A : invA n s) (B : invB s).
Lemma b_reg_step : forall c, In c (reg s') -> tokac (pcs s' c) = true /\ fin s' c = false.
Proof.
  intros c. destruct A as [_ _ _ _ _ _ _ TT]. destruct B as [R D X _ _ _ _ _ _ _].
  pose proof (TT t) as Tt. pose proof (R t) as Rt. pose proof (R c) as Rc. pose proof (X t) as Xt. clear TT R X A B.
  split_step H; rewrite ?in_del; xcase c t; base P; try easy; rewrite ?mem_out, ?mem_in in *.
  all: try match goal with E : reg _ = _ |- _ => rewrite E in *; clear E end.
  all: cbn [In] in *; try solve [intuition congruence].
  intros K. destruct (Xt _ eq_refl) as (X1 & X2 & X3). rewrite upd_neq by (intros ->; easy). auto.
Qed.
Lemma b_nodup_step : NoDup (reg s').
Proof.
  destruct B as [R D X _ _ _ _ _ _ _]. pose proof (R t) as Rt. clear R A B.
  split_step H; base P; try easy.
  - constructor; [|easy]. intros K. now destruct (Rt K).
  - now apply nodup_del.
  - match goal with E : reg _ = _ |- _ => now rewrite E end.
  - now inversion D.
Qed.
Lemma b_exec_step : forall u c, target (pcs s' u) = Some c -> tokac (pcs s' c) = true /\ ~ In c (reg s') /\ fin s' c = false.
Proof.
  intros u c. destruct A as [_ _ _ _ _ _ _ TT]. destruct B as [R D X O _ _ _ _ _ _].
  pose proof (TT t) as Tt. pose proof (R c) as Rc. pose proof (X u c) as Xu. pose proof (X t c) as Xt. pose proof (O u t) as Ot. clear TT R X O A B.
  assert (forall v, target (pcs s v) <> None -> active (pcs s v) = true) as K by (intros v; destruct (pcs s v); cbn; easy).
  pose proof (K u) as Ku. clear K.
  split_step H; rewrite ?in_del; xcase u t; try (rewrite P in *); cbn [target] in *; try discriminate; intros M; try injection M as M; subst; try specialize (Xu M); try specialize (Xt eq_refl); rewrite ?P in *.
  all: try match goal with E : reg _ = _ |- _ => rewrite E in *; clear E end.
  all: try (apply NoDup_cons_iff in D).
  all: destruct (Nat.eq_dec c t) as [->|]; [rewrite ?P, ?upd_eq in *|rewrite ?(upd_neq (pcs s) t) by easy].
  all: cbn [tokac active In] in *; rewrite ?mem_in in *; try solve [intuition congruence].
  all: rewrite ?upd_neq by easy; try solve [intuition congruence].
Qed.
Lemma b_one_step : forall u v, active (pcs s' u) = true -> active (pcs s' v) = true -> u = v.
Proof.
  intros u v. destruct B as [_ _ _ O T _ _ _ _ _]. pose proof (O u v) as Ouv. pose proof (O u t) as Out. pose proof (O t v) as Otv. pose proof (T u) as Tu. pose proof (T v) as Tv. clear O T A B.
  split_step H; rewrite ?P in *; try exact Ouv.
  all: destruct (Nat.eq_dec u t) as [->|]; destruct (Nat.eq_dec v t) as [->|]; rewrite ?upd_eq, ?upd_neq by easy; cbn [active] in *; try easy; intuition congruence.
Qed.
Lemma b_stop_step : forall u, active (pcs s' u) = true -> stop s' = true.
Proof.
  intros u. destruct B as [_ _ _ _ T _ _ _ _ _]. pose proof (T t) as Tt. pose proof (T u) as Tu. clear T A B.
  split_step H; xcase u t; base P; try easy; intuition congruence.
Qed.
Lemma b_fin_step : forall c, fin s' c = true -> stop s' = true.
Proof.
  intros c. destruct B as [_ _ _ _ T F I _ _ _]. pose proof (T t) as Tt. pose proof (F c) as Fc. pose proof (I t) as It. clear F I T A B.
  split_step H; base P; try easy; intuition; try congruence.
  all: match goal with K : upd _ ?x _ ?c = true |- _ => destruct (Nat.eq_dec c x) as [->|]; [rewrite upd_eq in K; discriminate|rewrite upd_neq in K by easy; intuition congruence] end.
Qed.
Lemma b_inl_step : forall x, inl (pcs s' x) = true -> stop s' = true.
Proof.
  intros x. destruct B as [_ _ _ _ _ _ T _ _ _]. pose proof (T t) as Tt. pose proof (T x) as Tx. clear T A B.
  split_step H; xcase x t; base P; try easy; intuition congruence.
Qed.
Lemma b_pend_step : stop s' = true -> reg s' <> [] -> exists u, active (pcs s' u) = true.
Proof.
  intros S R. destruct (Bool.bool_dec (stop s) true) as [S0|S0].
  - assert (reg s <> []) as R0.
    { intros Z. apply R. split_step H; try easy; try congruence. rewrite Z. easy. }
    destruct (b_pend _ B S0 R0) as (u & U). destruct (active_step u U) as [K|(K & _)]; [now exists u|easy].
  - exists t. destruct B as [_ _ _ _ _ _ _ _ _ _]. clear A B. split_step H; try congruence. now rewrite upd_eq.
Qed.
Lemma b_cb_step : forall x, tokac (pcs s' x) = true -> In x (reg s') \/ fin s' x = true \/ exists u, target (pcs s' u) = Some x.
Proof.
  intros x M.
  assert (tokac (pcs s x) = true -> (exists u, target (pcs s u) = Some x) -> fin s' x = true \/ exists u, target (pcs s' u) = Some x) as K.
  { intros _ (u & U). destruct (target_step u x U) as [V|V]; [right; now exists u|now left]. }
  pose proof (b_cb _ B x) as Bx. pose proof (b_inl _ B t) as It. pose proof (a_toktok _ _ A t) as Tt. clear A B.
  assert (tokac (pcs s x) = true -> In x (reg s) \/ fin s x = true -> In x (reg s') \/ fin s' x = true \/ exists u, target (pcs s' u) = Some x) as K1.
  { clear K Bx. intros W0 W. split_step H; try tauto; revert M W0; xcase x t; base P; try easy; intros M W0; rewrite ?in_del; try tauto.
    - cbn [In]. tauto.
    - cbn [In] in W. tauto.
    - cbn [In] in W. destruct W as [[->|W]|W]; [|tauto|tauto]. right. right. exists t. now rewrite upd_eq.
    - match goal with |- context [upd (fin s) ?c true ?x] => destruct (Nat.eq_dec x c) as [->|]; [rewrite upd_eq; tauto|rewrite upd_neq by easy; tauto] end. }
  destruct (tokac (pcs s x)) eqn:W.
  - destruct (Bx eq_refl) as [Z|[Z|Z]]; [apply K1; auto|apply K1; auto|]. right. now apply K.
  - clear K K1 Bx. split_step H; revert M; try congruence; xcase x t; base P; try easy; try congruence.
    + cbn [In]. tauto.
    + intros _. right. left. rewrite ?upd_eq; easy.
Qed.
Lemma b_done_step : forall u, In (EReq u true) (log s') -> stop s' = true /\ forall v, active (pcs s' v) = false.
Proof.
  intros u K.
  assert (forall v, In (EReq u true) (log s) -> stop s = true /\ active (pcs s v) = false) as K0.
  { intros v Z. destruct (b_done _ B u Z) as (Z1 & Z2). auto. }
  pose proof (K0 t) as Kt. pose proof (b_stop _ B t) as St. pose proof (b_one _ B) as O. clear A B.
  split_step H; rewrite ?in_app_iff in K; cbn [In] in K.
  all: split; [try (destruct K as [K|K]; [|destruct K as [K|K]; [|easy]]); try (now apply K0); try discriminate K; rewrite ?P in *; cbn in *; intuition congruence|].
  all: intros w; specialize (K0 w); specialize (O w t); xcase w t; rewrite ?P in *; cbn [active] in *; try easy; try tauto; try (destruct K as [K|K]; [|destruct K as [K|K]; [|easy]]); try tauto; try discriminate K; try (intuition congruence).
  all: match goal with |- ?b = false => destruct b; [exfalso; intuition congruence|easy] end.
Qed.
End Step.
Lemma invB_step : forall t a (s s' : state), invA n s -> invB s -> step pr n t a s = Some (Ok s') -> invB s'.
Proof.
  intros t a s s' A B H. constructor.
  - now apply (b_reg_step t a s).
  - now apply (b_nodup_step t a s).
  - now apply (b_exec_step t a s).
  - now apply (b_one_step t a s).
  - now apply (b_stop_step t a s).
  - now apply (b_fin_step t a s).
  - now apply (b_inl_step t a s).
  - now apply (b_pend_step t a s).
  - now apply (b_cb_step t a s).
  - now apply (b_done_step t a s).
Qed.
End InvB.
