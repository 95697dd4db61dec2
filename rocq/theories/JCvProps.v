(** Theorems on condition_variable_any2 *)
From Coq Require Import ZifyBool ZifyNat.
From Verif Require Import Common JCvModel JCvSpec JCvInv JCvInvB JCvInvC.

Section Cv.
Context {data : Type} (pr : nat -> data -> bool) (n : nat).
Notation state := (@state data).

Lemma no_ub : forall t a (s : state) r, inv pr n s -> step pr n t a s = Some r -> exists s', r = Ok s'.
Proof.
  intros t a s r (A & B & _ & _) H. pose proof (a_alive _ _ A t) as AL. pose proof (b_exec _ B t) as X. clear A B.
  assert (forall c, tokac (pcs s c) = true -> has_local (pcs s c) = true) as K by (intros c; destruct (pcs s c); easy).
  unfold step in H. destruct (t <? n); [|discriminate].
  destruct (pcs s t) eqn:P; cbn [uses_object target] in *;
  match type of H with
  | user_step _ _ ?a _ = _ => destruct a; cbn [user_step] in H; try discriminate H
  | lib_step _ _ ?a _ _ = _ => destruct a; cbn [lib_step] in H; try discriminate H
  end; unfold acquire in H.
  all: try (specialize (X _ eq_refl); destruct X as (X & _ & _); rewrite (K _ X) in H).
  all: try rewrite (AL eq_refl) in H.
  all: cbn [guard] in H.
  all: repeat match type of H with
  | None = Some _ => discriminate H
  | Some (Ok _) = Some _ => injection H as <-; eexists; reflexivity
  | (if ?b then _ else _) = Some _ => destruct b
  | (match ?b with _ => _ end) = Some _ => destruct b
  end.
Qed.
Lemma run_inv : forall tr (s : state) r, inv pr n s -> run pr n tr s = Some r -> exists s', r = Ok s' /\ inv pr n s'.
Proof.
  induction tr as [|(t, a) tr IH]; cbn [run]; intros s r I R; [injection R as <-; eauto|].
  destruct (step pr n t a s) as [r1|] eqn:E; [|discriminate]. destruct (no_ub t a s r1 I E) as (s1 & ->).
  apply (IH s1); [now apply (inv_step pr n t a s)|easy].
Qed.

(** No execution is undefined: whatever uses the internals after the destructor of the
    condition variable has one of the waits that keep them, and a callback finds the wait
    that it belongs to. *)
Theorem jcv_safe : forall d tr r, run pr n tr (init d) = Some r ->
  exists s, r = Ok s /\ (forall t, mtx s = Some t \/ In t (waiting s) -> alive s = true \/ exists u, has_local (pcs s u) = true).
Proof.
  intros d tr r R. destruct (run_inv tr _ r (inv_init pr n d) R) as (s & -> & (A & B & _ & _)). exists s. split; [easy|].
  intros t [K|K].
  - apply (a_m _ _ A) in K. pose proof (a_alive _ _ A t) as AL. pose proof (b_exec _ B t) as X.
    destruct (pcs s t) eqn:P; try discriminate K; try (right; exists t; now rewrite P); [left; now apply AL|].
    destruct (X _ eq_refl) as (X1 & _). right. exists c. destruct (pcs s c); easy.
  - apply (a_wait _ _ A) in K. right. exists t. destruct (pcs s t); easy.
Qed.

(** The user's lock is held whenever a predicate is called, and then nobody else changes the data. *)
Theorem jcv_locked : forall d tr s t, run pr n tr (init d) = Some (Ok s) -> asks (pcs s t) = true ->
  lock s = Some t /\ forall u d', u <> t -> step pr n u (USet d') s = None.
Proof.
  intros d tr s t R K. destruct (run_inv tr _ _ (inv_init pr n d) R) as (s0 & [= <-] & (A & _)).
  pose proof (a_hl _ _ A t) as HL. assert (lock s = Some t) as L by (apply HL; destruct (pcs s t); easy). split; [easy|].
  intros u d' N. unfold step. destruct (u <? n); [|easy]. destruct (pcs s u); cbn [user_step lib_step]; try easy; try (destruct all; easy).
  rewrite L. destruct (Nat.eqb_spec t u); [congruence|easy].
Qed.

(** A wait returns with the user's lock held.  It returns what the predicate says of the
    data as they are then; false without reason - a timeout or a stop - is impossible.
    Nothing refers to the finished wait. *)
Theorem jcv_return : forall d tr s t a s' u m v, run pr n tr (init d) = Some (Ok s) -> step pr n t a s = Some (Ok s') -> log s' = log s ++ [ERet u m v] ->
  u = t /\ wait_of (pcs s t) = Some m /\ pcs s' t = PUser /\ lock s' = Some t /\
  (prd m = true -> v = pr t (dat s')) /\
  (v = false -> timed m = true /\ expired s' t = true \/ tok m = true /\ stop s' = true) /\
  mtx s' <> Some t /\ ~ In t (waiting s') /\ ~ In t (reg s') /\ (forall w, ~ calls (pcs s' w) t).
Proof.
  intros d tr s t a s' u m v R H G. destruct (run_inv tr _ _ (inv_init pr n d) R) as (s0 & [= <-] & I).
  pose proof (inv_step pr n t a s s' I H) as (A' & B' & _ & _). destruct I as (A & _ & _ & D).
  assert (pcs s' t = PUser -> mtx s' <> Some t /\ ~ In t (waiting s') /\ ~ In t (reg s') /\ (forall w, ~ calls (pcs s' w) t)) as X.
  { intros P'. split; [intros K; apply (a_m _ _ A') in K; now rewrite P' in K|].
    split; [intros K; apply (a_wait _ _ A') in K; now rewrite P' in K|].
    split; [intros K; apply (b_reg _ B') in K; now rewrite P' in K|].
    intros w K. assert (target (pcs s' w) = Some t) as W by (destruct K as [K|[K|K]]; now rewrite K). apply (b_exec _ B') in W. now rewrite P' in W. }
  clear A' B'. pose proof (a_hl _ _ A t) as HL. pose proof (D t) as Dt. clear D. pose proof (a_tok _ _ A t) as TK. clear A.
  assert (forall (l : list (event data)) x, l = l ++ [x] -> False) as NA. { intros l x Z. apply (f_equal (@length _)) in Z. rewrite app_length in Z. cbn in Z. lia. }
  revert X. split_step H; rewrite ?upd_eq; rewrite ?P in *; cbn [hl mode_of wait_of dl] in *; intros X;
  try (now destruct (NA _ _ G)); apply app_inj_tail in G; destruct G as (_ & G); try discriminate G; injection G as <- <- <-; specialize (X eq_refl);
  repeat match goal with |- _ /\ _ => split end; try tauto; try (apply HL; easy).
Qed.

(** After request_stop() has returned true no wait with the token sleeps ... *)
Theorem jcv_stop : forall d tr s u t m, run pr n tr (init d) = Some (Ok s) -> In (EReq u true) (log s) -> pcs s t = WBlocked m -> tok m = true -> ~ In t (waiting s).
Proof.
  intros d tr s u t m R K P T W. destruct (run_inv tr _ _ (inv_init pr n d) R) as (s0 & [= <-] & (A & B & C & _)).
  destruct (b_done _ B u K) as (S & Q).
  assert (asleep s t = true) as Z. { unfold asleep. rewrite P, T. now apply mem_in. }
  destruct (C t Z) as [L|(v & L)].
  - destruct (b_pend _ B S) as (v & V); [intros E; now rewrite E in L|]. now rewrite Q in V.
  - specialize (Q v). destruct (pcs s v); easy.
Qed.

(** ... and from the moment when the flag is set a wait with the token returns within 11 steps of its thread. *)
Definition rank (p : pc) : nat :=
  match p with
  | WCheck _ | WDtor _ _ => 1 | WFinal _ | WStop _ => 2 | WLockM _ => 3 | WPred _ => 4 | WInlDo _ | WRelock _ _ _ => 5 | WInl _ | WRelease _ _ _ => 6 | WCtor _ | WRead _ _ => 7
  | WTake _ _ => 8 | WBlocked _ => 9 | WWait _ => 10 | WUnlock _ => 11 | _ => 0
  end.
Lemma log_step : forall t a (s s' : state), step pr n t a s = Some (Ok s') -> exists l, log s' = log s ++ l.
Proof.
  intros t a s s' H.
  split_step H; (exists []; rewrite app_nil_r; reflexivity) || (eexists; reflexivity).
Qed.
Lemma pcs_step : forall t a (s s' : state) x, step pr n t a s = Some (Ok s') -> x <> t -> pcs s' x = pcs s x.
Proof. intros t a s s' x H N. split_step H; rewrite ?upd_neq by easy; easy. Qed.
Lemma rank_step : forall t a (s s' : state), step pr n t a s = Some (Ok s') -> stop s = true -> token_wait (pcs s t) = true ->
  token_wait (pcs s' t) = true /\ rank (pcs s' t) < rank (pcs s t) \/ exists m v, log s' = log s ++ [ERet t m v].
Proof.
  intros t a s s' H S T. unfold token_wait in *. revert S T.
  split_step H; cbn [wait_of rank]; rewrite ?upd_eq; cbn [wait_of rank]; intros S T; try discriminate T; try (rewrite T, S in *); try discriminate; try (left; split; [easy|lia]); right; do 2 eexists; reflexivity.
Qed.
Lemma returned_app : forall t (l1 l2 : list (event data)), returned t l1 = true \/ returned t l2 = true -> returned t (l1 ++ l2) = true.
Proof. intros t l1 l2 K. unfold returned in *. rewrite existsb_app. destruct K as [->| ->]; [easy|apply orb_true_r]. Qed.
Lemma log_run : forall tr (s s' : state), run pr n tr s = Some (Ok s') -> exists l, log s' = log s ++ l.
Proof.
  induction tr as [|(t, a) tr IH]; cbn [run]; intros s s' R; [injection R as <-; exists []; now rewrite app_nil_r|].
  destruct (step pr n t a s) as [[s1| |]|] eqn:E; try discriminate. destruct (log_step t a s s1 E) as (l1 & L1). destruct (IH s1 s' R) as (l2 & L2).
  exists (l1 ++ l2). now rewrite L2, L1, app_assoc.
Qed.
Lemma rank_run : forall tr (s s' : state) t, run pr n tr s = Some (Ok s') -> stop s = true -> token_wait (pcs s t) = true ->
  exists l, log s' = log s ++ l /\ (moves t tr <= rank (pcs s t) \/ returned t l = true).
Proof.
  induction tr as [|(u, a) tr IH]; intros s s' t R S T; cbn [run] in R.
  - injection R as <-. exists []. rewrite app_nil_r. split; [easy|]. left. cbn. lia.
  - destruct (step pr n u a s) as [[s1| |]|] eqn:E; try discriminate.
    pose proof (stop_mono pr n u a s s1 E S) as S1.
    destruct (Nat.eq_dec t u) as [->|N].
    + destruct (rank_step u a s s1 E S T) as [(T1 & K)|(m & v & L1)].
      * destruct (log_step u a s s1 E) as (l1 & L1). destruct (IH s1 s' u R S1 T1) as (l2 & L2 & M). exists (l1 ++ l2). split; [now rewrite L2, L1, app_assoc|].
        destruct M as [M|M]; [|right; apply returned_app; now right]. left. unfold moves in *. cbn [filter fst]. rewrite Nat.eqb_refl. cbn [length]. lia.
      * destruct (log_run tr s1 s' R) as (l2 & L2). exists ([ERet u m v] ++ l2). split; [now rewrite L2, L1, app_assoc|]. right. apply returned_app. left. cbn. now rewrite Nat.eqb_refl.
    + pose proof (pcs_step u a s s1 t E N) as P. rewrite <- P in T. destruct (log_step u a s s1 E) as (l1 & L1). destruct (IH s1 s' t R S1 T) as (l2 & L2 & M).
      exists (l1 ++ l2). split; [now rewrite L2, L1, app_assoc|]. rewrite P in M.
      destruct M as [M|M]; [|right; apply returned_app; now right]. left. unfold moves in *. cbn [filter fst]. destruct (Nat.eqb_spec u t); [congruence|easy].
Qed.
Theorem jcv_stop_bounded : forall s tr' s' t, stop s = true -> token_wait (pcs s t) = true -> run pr n tr' s = Some (Ok s') ->
  exists l, log s' = log s ++ l /\ (moves t tr' <= 11 \/ returned t l = true).
Proof.
  intros s tr' s' t S T R. destruct (rank_run tr' s s' t R S T) as (l & L & M). exists l. split; [easy|]. destruct M as [M|M]; [left|now right].
  assert (rank (pcs s t) <= 11) by (destruct (pcs s t); cbn; lia). lia.
Qed.

(** After notify_all() nobody sleeps whose predicate is true, until the data are changed
    again ... *)
Theorem jcv_notify : forall d tr s u l1 l2 t m, run pr n tr (init d) = Some (Ok s) -> log s = l1 ++ ENotified u :: l2 -> existsb sets l2 = false ->
  pcs s t = WBlocked m -> prd m = true -> pr t (dat s) = true -> ~ In t (waiting s).
Proof.
  intros d tr s u l1 l2 t m R L F P Q V W. destruct (run_inv tr _ _ (inv_init pr n d) R) as (s0 & [= <-] & (_ & _ & _ & D)).
  specialize (D t). rewrite P in D. cbn in D. rewrite (D W) in V; [discriminate| |easy].
  rewrite L. apply fresh_after. intros d' K. assert (existsb sets l2 = true) by (apply existsb_exists; exists (ESet d'); easy). congruence.
Qed.
(** ... and such a wait returns within 8 steps of its thread. *)
Definition rank2 (p : pc) : nat :=
  match p with
  | WDtor _ _ => 1 | WFinal _ | WPred _ => 2 | WInlDo _ | WRelock _ _ _ => 3 | WInl _ | WRelease _ _ _ => 4 | WCtor _ | WRead _ _ => 5 | WCheck _ | WTake _ _ => 6
  | WBlocked _ => 7 | WWait _ => 8 | _ => 0
  end.
Definition pred_wait (p : pc) : bool := match wait_of p with Some m => prd m | None => false end.
Lemma rank2_step : forall t a (s s' : state), invD pr s -> step pr n t a s = Some (Ok s') -> pr t (dat s) = true -> pred_wait (pcs s t) = true ->
  pred_wait (pcs s' t) = true /\ rank2 (pcs s' t) < rank2 (pcs s t) \/ exists m v, log s' = log s ++ [ERet t m v].
Proof.
  intros t a s s' D H S T. unfold pred_wait in *. pose proof (D t) as Dt. clear D. revert S T Dt.
  split_step H; cbn [wait_of rank2 dl]; rewrite ?upd_eq; cbn [wait_of rank2]; intros S T Dt; try discriminate T; try congruence; try (rewrite T in * ); try discriminate; try (rewrite Dt in S by easy; discriminate S);
  try (left; split; [easy|lia]); right; do 2 eexists; reflexivity.
Qed.
Lemma dat_step : forall t a (s s' : state) l, step pr n t a s = Some (Ok s') -> log s' = log s ++ l -> existsb sets l = false -> dat s' = dat s.
Proof.
  intros t a s s' l H G F. revert G F. split_step H; intros G F; try easy. apply app_inv_head in G. subst l. discriminate F.
Qed.
Lemma rank2_run : forall tr (s s' : state) t l, inv pr n s -> run pr n tr s = Some (Ok s') -> log s' = log s ++ l -> existsb sets l = false ->
  pr t (dat s) = true -> pred_wait (pcs s t) = true -> moves t tr <= rank2 (pcs s t) \/ returned t l = true.
Proof.
  induction tr as [|(u, a) tr IH]; intros s s' t l I R L F S T; cbn [run] in R.
  - left. cbn. lia.
  - destruct (step pr n u a s) as [[s1| |]|] eqn:E; try discriminate.
    pose proof (inv_step pr n u a s s1 I E) as I1.
    destruct (log_step u a s s1 E) as (l1 & L1). destruct (log_run tr s1 s' R) as (l2 & L2).
    assert (l = l1 ++ l2) as ->. { rewrite L2, L1, <- app_assoc in L. now apply app_inv_head in L. }
    rewrite existsb_app, orb_false_iff in F. destruct F as (F1 & F2).
    pose proof (dat_step u a s s1 l1 E L1 F1) as Z. rewrite <- Z in S.
    destruct (Nat.eq_dec t u) as [->|N].
    + rewrite Z in S. destruct (rank2_step u a s s1 ltac:(apply I) E S T) as [(T1 & K)|(m & v & L1')].
      * rewrite <- Z in S. destruct (IH s1 s' u l2 I1 R L2 F2 S T1) as [M|M]; [|right; apply returned_app; now right].
        left. unfold moves in *. cbn [filter fst]. rewrite Nat.eqb_refl. cbn [length]. lia.
      * rewrite L1' in L1. apply app_inv_head in L1. subst l1. right. apply returned_app. left. cbn. now rewrite Nat.eqb_refl.
    + pose proof (pcs_step u a s s1 t E N) as P. rewrite <- P in T.
      destruct (IH s1 s' t l2 I1 R L2 F2 S T) as [M|M]; [|right; apply returned_app; now right]. rewrite P in M.
      left. unfold moves in *. cbn [filter fst]. destruct (Nat.eqb_spec u t); [congruence|easy].
Qed.
Theorem jcv_notify_bounded : forall d tr s tr' s' t m l, run pr n tr (init d) = Some (Ok s) -> wait_of (pcs s t) = Some m -> prd m = true -> pr t (dat s) = true ->
  run pr n tr' s = Some (Ok s') -> log s' = log s ++ l -> existsb sets l = false -> moves t tr' <= 8 \/ returned t l = true.
Proof.
  intros d tr s tr' s' t m l R W Q V R' L F. destruct (run_inv tr _ _ (inv_init pr n d) R) as (s0 & [= <-] & I).
  destruct (rank2_run tr' s s' t l I R' L F V) as [M|M]; [unfold pred_wait; now rewrite W| |now right].
  left. assert (rank2 (pcs s t) <= 8) by (destruct (pcs s t); cbn; lia). lia.
Qed.

(** Who has locked the internal mutex unlocks it within three own steps, whatever else happens before. *)
Theorem jcv_mutex : forall d tr s t, run pr n tr (init d) = Some (Ok s) -> mtx s = Some t ->
  exists tr' s', length tr' <= 3 /\ Forall (fun x => fst x = t) tr' /\ run pr n tr' s = Some (Ok s') /\ mtx s' = None.
Proof.
  intros d tr s t R M. destruct (run_inv tr _ _ (inv_init pr n d) R) as (s0 & [= <-] & (A & B & _)).
  pose proof (proj2 (a_m _ _ A t) M) as P. pose proof (a_alive _ _ A t) as AL. pose proof (a_out _ _ A t) as O. pose proof (b_exec _ B t) as X. clear A B.
  assert (forall c, tokac (pcs s c) = true -> has_local (pcs s c) = true) as K by (intros c; destruct (pcs s c); easy).
  assert (t <? n = true) as Lt. { destruct (Nat.ltb_spec t n) as [|G]; [easy|]. destruct (O G) as (Z & _). now rewrite Z in P. }
  destruct (pcs s t) eqn:E; try discriminate P.
  - exists [(t, AStep)]. eexists. repeat split; [cbn; lia|repeat constructor| |]; [cbn [run]; unfold step; rewrite Lt, E; cbn [lib_step]; reflexivity|reflexivity].
  - destruct (tok m && stop s) eqn:T.
    + exists [(t, AStep)]. eexists. repeat split; [cbn; lia|repeat constructor| |]; [cbn [run]; unfold step; rewrite Lt, E; cbn [lib_step]; rewrite T; reflexivity|reflexivity].
    + exists [(t, AStep); (t, AStep); (t, AStep)]. eexists. repeat split; [cbn; lia|repeat constructor| |].
      * cbn [run]. unfold step at 1. rewrite Lt, E. cbn [lib_step]. rewrite T. unfold step at 1. rewrite Lt. cbn [go pcs]. rewrite upd_eq. cbn [lib_step]. unfold step at 1. rewrite Lt. cbn [go pcs]. rewrite upd_eq. cbn [lib_step]. reflexivity.
      * reflexivity.
  - exists [(t, AStep); (t, AStep)]. eexists. repeat split; [cbn; lia|repeat constructor| |].
    + cbn [run]. unfold step at 1. rewrite Lt, E. cbn [lib_step]. unfold step at 1. rewrite Lt. cbn [go pcs]. rewrite upd_eq. cbn [lib_step]. reflexivity.
    + reflexivity.
  - exists [(t, AStep)]. eexists. repeat split; [cbn; lia|repeat constructor| |]; [cbn [run]; unfold step; rewrite Lt, E; cbn [lib_step]; reflexivity|reflexivity].
  - exists [(t, AStep); (t, AStep)]. eexists. repeat split; [cbn; lia|repeat constructor| |].
    + cbn [run]. unfold step at 1. rewrite Lt, E. cbn [lib_step]. unfold step at 1. rewrite Lt. cbn [go pcs]. rewrite upd_eq. cbn [lib_step]. reflexivity.
    + reflexivity.
  - exists [(t, AStep)]. eexists. repeat split; [cbn; lia|repeat constructor| |]; [cbn [run]; unfold step; rewrite Lt, E; cbn [lib_step]; reflexivity|reflexivity].
  - destruct all.
    + exists [(t, AStep)]. eexists. repeat split; [cbn; lia|repeat constructor| |]; [cbn [run]; unfold step; rewrite Lt, E; cbn [lib_step]; rewrite AL by easy; reflexivity|reflexivity].
    + destruct (waiting s) as [|w l] eqn:W.
      * exists [(t, AStep)]. eexists. repeat split; [cbn; lia|repeat constructor| |]; [cbn [run]; unfold step; rewrite Lt, E; cbn [lib_step]; rewrite W, AL by easy; reflexivity|reflexivity].
      * exists [(t, AVictim w)]. eexists. repeat split; [cbn; lia|repeat constructor| |]; [cbn [run]; unfold step; rewrite Lt, E; cbn [lib_step]; unfold mem; rewrite W; cbn [existsb]; rewrite Nat.eqb_refl, AL by easy; cbn [orb]; reflexivity|reflexivity].
  - destruct (X _ eq_refl) as (X1 & _). exists [(t, AStep)]. eexists. repeat split; [cbn; lia|repeat constructor| |]; [cbn [run]; unfold step; rewrite Lt, E; cbn [lib_step]; rewrite (K _ X1); reflexivity|reflexivity].
Qed.

(** The destructor of the callback waits for a thread that executes this very callback. *)
Theorem jcv_destructor : forall d tr s t m v, run pr n tr (init d) = Some (Ok s) -> pcs s t = WDtor m v -> step pr n t AStep s = None -> exists u, u <> t /\ calls (pcs s u) t.
Proof.
  intros d tr s t m v R P H. destruct (run_inv tr _ _ (inv_init pr n d) R) as (s0 & [= <-] & (A & B & _)).
  pose proof (b_cb _ B t) as C. pose proof (a_out _ _ A t) as O. unfold step in H. rewrite P in *. cbn [lib_step tokac] in *.
  destruct (Nat.ltb_spec t n) as [|G]; [|destruct (O G); discriminate].
  destruct (tok m); [|discriminate]. destruct (mem t (reg s)) eqn:Mt; [discriminate|]. rewrite mem_out in Mt.
  destruct (fin s t); [discriminate|]. destruct (C eq_refl) as [Z|[Z|(u & Z)]]; try easy.
  exists u. split; [intros ->; now rewrite P in Z|]. unfold calls. destruct (pcs s u); try discriminate Z; injection Z as ->; tauto.
Qed.

(** If no function of the library can go on, each is either asleep in the condition variable
    or waits for the lock that user code holds. *)
Theorem jcv_deadlock : forall d tr s, run pr n tr (init d) = Some (Ok s) ->
  (forall t, pcs s t <> PUser -> step pr n t AStep s = None /\ forall c, step pr n t (AVictim c) s = None) ->
  forall t, pcs s t = PUser \/ (exists m, pcs s t = WBlocked m /\ In t (waiting s)) \/
            exists m r l u, pcs s t = WRelock m r l /\ lock s = Some u /\ pcs s u = PUser.
Proof.
  intros d tr s R Stuck.
  assert (mtx s = None) as M.
  { destruct (mtx s) as [u|] eqn:M; [|easy]. exfalso. destruct (jcv_mutex d tr s u R M) as (tr' & s' & _ & F & R' & M').
    destruct (run_inv tr _ _ (inv_init pr n d) R) as (s0 & [= <-] & (A & _)). pose proof (proj2 (a_m _ _ A u) M) as Pm.
    destruct (Stuck u) as (S1 & S2); [intros Z; now rewrite Z in Pm|]. destruct tr' as [|(u', a) tr']; cbn [run] in R'; [injection R' as <-; congruence|].
    inversion F as [|x y E _]. cbn in E. subst u'. destruct a; try (now rewrite S1 in R'); try (now rewrite S2 in R');
    unfold step in R'; destruct (u <? n); try discriminate R'; destruct (pcs s u); try discriminate Pm; cbn [lib_step] in R'; try discriminate R'; repeat match goal with b : bool |- _ => destruct b end; discriminate R'. }
  pose proof (jcv_destructor d tr s) as Dt.
  destruct (run_inv tr _ _ (inv_init pr n d) R) as (s0 & [= <-] & (A & B & _)).
  assert (forall t, t < n \/ pcs s t = PUser) as O. { intros t. destruct (Nat.lt_ge_cases t n) as [|G]; [now left|]. right. now apply (a_out _ _ A). }
  (* who can go on *)
  assert (forall t, match pcs s t with PUser => True | WBlocked _ => In t (waiting s) | WRelock _ _ _ => lock s <> None | WDtor _ _ => True | _ => False end) as K.
  { intros t. destruct (O t) as [Lt|Z]; [|now rewrite Z]. destruct (pcs s t) eqn:P; try exact I;
    (destruct (Stuck t) as (S1 & S2); [now rewrite P|]); unfold step in S1, S2; rewrite P in S1, S2; apply Nat.ltb_lt in Lt; rewrite Lt in S1, S2; cbn [lib_step] in S1, S2; unfold acquire in S1; rewrite ?M in S1; try discriminate S1.
    - destruct (mem t (waiting s)) eqn:Z; [|discriminate]. now apply mem_in.
    - destruct (lock s); discriminate.
    - destruct (alive s); discriminate.
    - destruct all; [discriminate|]. destruct (waiting s) as [|w l] eqn:W; [discriminate|]. specialize (S2 w). unfold mem in S2. cbn [existsb] in S2. rewrite Nat.eqb_refl in S2. discriminate.
    - destruct (has_local (pcs s c)); discriminate. }
  assert (forall t m v, pcs s t <> WDtor m v) as ND.
  { intros t m v P. destruct (Stuck t) as (S1 & _); [now rewrite P|]. destruct (Dt t m v R P S1) as (u & _ & C). specialize (K u). now destruct C as [C|[C|C]]; rewrite C in K. }
  intros t. specialize (K t) as Kt. destruct (pcs s t) eqn:P; try easy; [now left|right; left; eauto| |now destruct (ND t m v)].
  right. right. destruct (lock s) as [u|] eqn:L; [|easy]. do 3 eexists. exists u. split; [reflexivity|]. split; [easy|].
  specialize (K u). pose proof (a_nl _ _ A u) as NL. rewrite L in NL. destruct (pcs s u) eqn:Pu; try easy; [now destruct (NL eq_refl)|now destruct (NL eq_refl)|now destruct (ND u m0 v)].
Qed.
End Cv.

(** Two threads, the data are a bool, the predicate is its value. *)
Definition ex_pr (t : nat) (d : bool) : bool := d.
Definition ex_run (tr : list (nat * @action bool)) : option (list (event bool) * option nat * list nat * list nat * pc * bool) :=
  match run ex_pr 2 tr (init false) with Some (Ok s) => Some (log s, lock s, waiting s, reg s, pcs s 0, alive s) | _ => None end.
Definition steps (t k : nat) : list (nat * @action bool) := repeat (t, AStep) k.
Definition ex_m : mode := Mode true true false.
Definition ex_sleep (m : mode) (k : nat) : list (nat * @action bool) := [(0, ULock); (0, UWait m)] ++ steps 0 k.
(** Thread 0 sleeps in wait(lock, token, pred); the condition variable is destroyed; thread 1 requests a stop. *)
Example ex_stop : ex_run (ex_sleep ex_m 7 ++ [(1, UDestroy); (1, URequest)] ++ steps 1 6) = Some ([EReq 1 true], None, [], [], WBlocked ex_m, false).
Proof. vm_compute. reflexivity. Qed.
Example ex_stop_ret : ex_run (ex_sleep ex_m 7 ++ [(1, UDestroy); (1, URequest)] ++ steps 1 6 ++ steps 0 9) = Some ([EReq 1 true; ERet 0 ex_m false], Some 0, [], [], PUser, false).
Proof. vm_compute. reflexivity. Qed.
(** The wait is interrupted between the test of the predicate and the internal lock: it does not sleep;
    its destructor waits for the callback. *)
Example ex_late : ex_run (ex_sleep ex_m 3 ++ [(1, URequest)] ++ steps 1 2 ++ steps 0 2) = Some ([], Some 0, [], [], WDtor ex_m false, true) /\
  ex_run (ex_sleep ex_m 3 ++ [(1, URequest)] ++ steps 1 2 ++ steps 0 3) = None /\
  ex_run (ex_sleep ex_m 3 ++ [(1, URequest)] ++ steps 1 2 ++ steps 0 2 ++ steps 1 3 ++ steps 0 1) = Some ([ERet 0 ex_m false], Some 0, [], [], PUser, true).
Proof. vm_compute. repeat split; reflexivity. Qed.
(** Thread 1 makes the predicate true. *)
Example ex_notify : ex_run (ex_sleep ex_m 7 ++ [(1, ULock); (1, USet true); (1, UNotify true)] ++ steps 1 2 ++ steps 0 4 ++ [(1, UUnlock)] ++ steps 0 3) =
  Some ([ESet true; ENotified 1; ERet 0 ex_m true], Some 0, [], [], PUser, true).
Proof. vm_compute. reflexivity. Qed.
(** A timeout, with and without predicate *)
Example ex_timeout : ex_run ([(0, ULock); (0, UWait (Mode true false true))] ++ steps 0 6 ++ [(0, ATimeout)] ++ steps 0 6) = Some ([ERet 0 (Mode true false true) false], Some 0, [], [], PUser, true) /\
  ex_run ([(0, ULock); (0, UWait (Mode false false true))] ++ steps 0 5 ++ [(0, ATimeout)] ++ steps 0 5) = Some ([ERet 0 (Mode false false true) false], Some 0, [], [], PUser, true).
Proof. vm_compute. split; reflexivity. Qed.
(** notify_one wakes up the thread that is chosen. *)
Example ex_one : ex_run ([(0, ULock); (0, UWait (Mode true false false))] ++ steps 0 6 ++ [(1, UNotify false); (1, AStep); (1, AVictim 0)]) = Some ([], None, [], [], WBlocked (Mode true false false), true).
Proof. vm_compute. reflexivity. Qed.
