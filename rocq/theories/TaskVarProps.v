(** C94: tasks of coroutines in variables. *)
From Coq Require Import Relations Permutation ZifyBool ZifyNat.
From Verif Require Import Common CoroModel TaskVarModel TaskVarSpec TaskVarProofs.

Lemma owned_init p : owned (tinit p).
Proof. constructor; cbn; try lia; try tauto. constructor; cbn; try discriminate; try tauto; try lia; try constructor; intros; unfold al in *; cbn in *; intuition; lia. Qed.
Lemma mlive_init p : mlive (tinit p).
Proof. constructor; cbn; try tauto; try constructor; lia. Qed.
Lemma run_owned update n : forall m m', owned m -> trun update n m = Ok m' -> owned m'.
Proof.
  induction n as [|n IH]; intros m m' Ow; cbn [trun]; [intros H; now injection H as <-|]. destruct (ttick update m) as [m1| |] eqn:E; cbn [rbind]; try discriminate. apply IH. eapply tick_owned; eauto.
Qed.
Lemma run_live update n : forall m, owned m -> mlive m -> kept update m -> careful_run update n m ->
  match trun update n m with UB => False | Throw _ => True | Ok m' => mlive m' /\ kept update m' end.
Proof.
  induction n as [|n IH]; intros m Ow L K C; cbn [trun]; [auto|]. destruct C as [C1 C2]. pose proof (tick_live update m Ow L K C1) as X. destruct (ttick update m) as [m1| |] eqn:E; cbn [rbind]; auto. destruct X as [L1 K1]. apply IH; auto. eapply tick_owned; eauto.
Qed.
Lemma kept_init update p : kept update (tinit p). Proof. intros _ c. reflexivity. Qed.

(** Any program, at any moment: no coroutine is destroyed twice, what a variable holds is not destroyed and no other
    variable holds it; when no function is executing, each coroutine has been destroyed, or is held by exactly one
    variable, or has been released. *)
Theorem task_owned_once update p n m : trun update n (tinit p) = Ok m ->
  NoDup (tdestroyed m) /\ (forall c, In c (tdestroyed m) -> c < tnext m) /\
  (forall x c, tvars m x = Some c -> c < tnext m /\ ~ In c (tdestroyed m) /\ forall y, tvars m y = Some c -> y = x) /\
  (tstack m = [] -> forall c, c < tnext m -> In c (tdestroyed m) \/ (exists x, tvars m x = Some c) \/ towned (tframes m c) = false).
Proof.
  intros R. destruct (run_owned _ _ _ _ (owned_init p) R) as [[O1 O2 O3 O4 O5 O6 O7] _ _ _]. split; auto. split; [intros c X; now apply O7 in X|]. split.
  - intros x c E. destruct (O2 _ _ E) as (Lc & Ac & _). split; auto. split; [|eauto]. intros X. apply O7 in X. destruct X as [_ X]. congruence.
  - intros Es c Lc. destruct (al m c) eqn:A; [|left; now apply O7]. right. destruct (towned (tframes m c)) eqn:W; auto. left. destruct (O5 c Lc A W) as [|X]; auto. rewrite Es in X. destruct X.
Qed.

Lemma free_kept update m x m1 : kept update m -> tfree m x = Ok m1 -> kept update m1.
Proof.
  intros K E U. specialize (K U). revert E. unfold tfree. destruct (tvars m x) as [c|]; [|intros H; now injection H as <-]. destruct (tdestroy m c) as [m2| |] eqn:D; cbn [rbind]; try discriminate. intros H. injection H as <-. apply destroy_inv in D as (_ & _ & ->). intros g. cbn. unfold upd. destruct (g =? c); cbn; auto.
Qed.
Lemma finish_kept update m h o st m' : kept update m -> tfinish update m h o st = Ok m' -> kept update m'.
Proof.
  intros K E U. specialize (K U). unfold tfinish in E. rewrite K in E. cbn [rbind] in E. set (m1 := TMachine _ _ _ _ _ _) in E. assert (K1 : forall c, towned (tframes m1 c) = true) by (intros c; unfold m1; cbn; unfold upd; destruct (c =? h); cbn; auto).
  destruct (tawaiting (tframes m h)) as [q|]; [|injection E as <-; auto]. unfold guard in E. destruct (talive (tframes m1 q)); [|discriminate]. destruct (tresume update m1 h) as [[m3 r]| |] eqn:Er; cbn [rbind] in E; try discriminate. apply resume_frames in Er as (F & _). destruct (tcode (tframes m3 q)); try discriminate. injection E as <-. intros g. cbn. unfold upd. destruct (F g) as (_ & _ & _ & W). destruct (Nat.eqb_spec g q); subst; cbn; rewrite W; auto.
Qed.
Lemma tick_kept update m m' : kept update m -> ttick update m = Ok m' -> kept update m'.
Proof.
  intros K. unfold ttick. destruct (tstack m) as [|[h|x c|[|o k|n k]] st].
  - intros H; now injection H as <-.
  - unfold guard. destruct (talive (tframes m h)); [|discriminate]. destruct (tcode (tframes m h)) as [[v|e|k|x k|o k]|c k|]; try discriminate.
    + now apply finish_kept.
    + destruct update eqn:U; [discriminate|]. now apply finish_kept.
    + intros H. injection H as <-. intros U g. cbn. unfold upd. destruct (g =? h); cbn; now apply K.
    + destruct (tvars m x) as [c|]; [|discriminate]. destruct (talive (tframes m c)); [|discriminate]. destruct (tawaiting (tframes m c)); [discriminate|]. destruct (tdone (tframes m c)).
      * destruct (tresume update m c) as [[m1 r]| |] eqn:Er; cbn [rbind]; try discriminate. apply resume_frames in Er as (F & _). intros H. injection H as <-. intros U g. cbn. unfold upd. destruct (F g) as (_ & _ & _ & W). destruct (Nat.eqb_spec g h); subst; cbn; rewrite W; now apply K.
      * intros H. injection H as <-. intros U g. cbn. unfold upd. destruct (g =? h); cbn; [destruct (h =? c)|destruct (g =? c)]; cbn; now apply K.
    + destruct (tstmt update m o) as [[[m1 r] a]| |] eqn:E; cbn [rbind]; try discriminate. intros H. injection H as <-. intros U g. cbn. unfold upd. pose proof (stmt_kept _ _ _ _ _ _ K E U) as W. destruct (g =? h); cbn; auto.
  - unfold tassign. destruct (tfree m x) as [m1| |] eqn:F; cbn [rbind]; try discriminate. intros H. injection H as <-. exact (free_kept _ _ _ _ K F).
  - intros H; now injection H as <-.
  - destruct (tstmt update m o) as [[[m1 r] a]| |] eqn:E; cbn [rbind]; try discriminate. intros H. injection H as <-. exact (stmt_kept _ _ _ _ _ _ K E).
  - destruct (nth_error (ttimers m) n) as [h|]; [|intros H; now injection H as <-]. unfold guard. destruct (talive (tframes m h)); [|discriminate]. intros H; now injection H as <-.
Qed.
Lemma run_kept update n : forall m m', kept update m -> trun update n m = Ok m' -> kept update m'.
Proof. induction n as [|n IH]; intros m m' K; cbn [trun]; [intros H; now injection H as <-|]. destruct (ttick update m) as [m1| |] eqn:E; cbn [rbind]; try discriminate. apply IH. eapply tick_kept; eauto. Qed.

(** ProcessTask: when all functions have returned and all variables are empty, each coroutine that was ever started
    has been destroyed exactly once. *)
Theorem task_no_leak p n m : trun false n (tinit p) = Ok m -> tstack m = [] -> (forall x, tvars m x = None) -> Permutation (tdestroyed m) (seq 0 (tnext m)).
Proof.
  intros R Es V. destruct (task_owned_once _ _ _ _ R) as (N & B & _ & A). apply NoDup_Permutation; [auto|apply seq_NoDup|]. intros c. rewrite in_seq. split; [intros X; specialize (B _ X); lia|]. intros X.
  destruct (A Es c ltac:(lia)) as [|[[x E]|E]]; auto; [rewrite V in E; discriminate|]. rewrite (run_kept _ _ _ _ (kept_init false p) R eq_refl) in E. discriminate.
Qed.

(** A careful program has no undefined behaviour: it destroys only tasks that are empty or whose coroutine has
    finished, takes the value of a finished one, asks a task that is not empty whether it is done. *)
Theorem task_careful_safe update p n : careful_run update n (tinit p) -> trun update n (tinit p) <> UB.
Proof. intros C E. pose proof (run_live update n _ (owned_init p) (mlive_init p) (kept_init update p) C) as X. now rewrite E in X. Qed.

(** In a careful program no awaiting coroutine is forgotten: the chain of coroutines an unfinished one waits for ends
    at one that is executing or waits for an event, unless the coroutine waits for itself. *)
Theorem task_wait_chain update p n m c : careful_run update n (tinit p) -> trun update n (tinit p) = Ok m -> unfinished m c ->
  (exists d, clos_refl_trans _ (waits_for m) c d /\ (executes m d \/ expects_event m d)) \/ clos_trans _ (waits_for m) c c.
Proof. intros C E U. pose proof (run_live update n _ (owned_init p) (mlive_init p) (kept_init update p) C) as X. rewrite E in X. destruct X as [L _]. now apply chain. Qed.
(** So when nothing executes and no event is expected, each coroutine has finished or waits, in the end, for itself. *)
Corollary task_all_finish update p n m : careful_run update n (tinit p) -> trun update n (tinit p) = Ok m -> tstack m = [] -> ttimers m = [] ->
  (forall c, ~ clos_trans _ (waits_for m) c c) -> forall c, c < tnext m -> tcode (tframes m c) = TDone.
Proof.
  intros C E Es Et N c Lc. destruct (tcode (tframes m c)) as [b|d k|] eqn:Ec; auto; exfalso.
  all: destruct (task_wait_chain update p n m c C E) as [(d' & _ & [X|X])|X]; [split; congruence|unfold executes in X; now rewrite Es in X|unfold expects_event in X; now rewrite Et in X|now apply (N c)].
Qed.

(** is_ready() of a task that is not empty answers whether its coroutine has returned; it throws the exception that
    left the coroutine. *)
Theorem task_is_ready p n m x c : careful_run false n (tinit p) -> trun false n (tinit p) = Ok m -> tvars m x = Some c ->
  (tready m x = Ok (RBool false) <-> tcode (tframes m c) <> TDone) /\
  (tready m x = Ok (RBool true) <-> exists v, tcode (tframes m c) = TDone /\ tresult (tframes m c) = Some (OVal v)) /\
  (forall e, tready m x = Ok (ROut (OExn e)) <-> tcode (tframes m c) = TDone /\ tresult (tframes m c) = Some (OExn e)).
Proof.
  intros C E V. pose proof (run_live false n _ (owned_init p) (mlive_init p) (kept_init false p) C) as X. rewrite E in X. destruct X as [L _].
  destruct (o_var _ _ _ _ _ _ (w_own _ (run_owned _ _ _ _ (owned_init p) E)) _ _ V) as (Lc & Ac & _). unfold al in Ac. pose proof (v_done _ _ _ _ L c Lc) as D. unfold tready. rewrite V, Ac. cbn [guard].
  destruct (tresult (tframes m c)) as [[v|e]|]; (split; [|split; [|intros e']]); split; try discriminate; try (intros H; injection H as ->); try (intros (w & _ & H); discriminate); try (intros (_ & H); try discriminate; injection H as ->); try (intros H; exfalso; apply H, D; discriminate); eauto; try (split; auto; apply D; discriminate).
  - intros _. exists v. split; auto. apply D. discriminate.
  - intros _ H. apply D in H. congruence.
Qed.
(** done() of UpdateTask tells whether the coroutine has finished. *)
Theorem task_is_done p n m x c : trun true n (tinit p) = Ok m -> tvars m x = Some c ->
  (tis_done m x = Ok (RBool true) <-> tcode (tframes m c) = TDone) /\ (tis_done m x = Ok (RBool false) <-> tcode (tframes m c) <> TDone).
Proof.
  intros E V. destruct (o_var _ _ _ _ _ _ (w_own _ (run_owned _ _ _ _ (owned_init p) E)) _ _ V) as (Lc & Ac & _). unfold al in Ac.
  unfold tis_done, tdone. rewrite V, Ac. cbn [guard]. destruct (tcode (tframes m c)); split; split; intros H; try discriminate; try reflexivity; congruence.
Qed.
(** A coroutine runs up to its first suspension before its task is assigned: if it awaits the task in the variable
    that it is going to be assigned to, then it waits for the previous task in that variable. *)
Theorem task_eager_start u m x k c0 st kk : tstack m = AMain (MDo (OStart x (TAwait x k)) kk) :: st -> tvars m x = Some c0 -> c0 < tnext m ->
  talive (tframes m c0) = true -> tcode (tframes m c0) <> TDone -> tawaiting (tframes m c0) = None ->
  exists m2, trun u 2 m = Ok m2 /\ tcode (tframes m2 (tnext m)) = TWait c0 k /\ tawaiting (tframes m2 c0) = Some (tnext m) /\ tvars m2 x = Some c0.
Proof.
  intros St V L A D W. destruct m as [fr nx vs sk tm ds]. cbn [tstack tvars tframes tnext] in *. subst sk.
  cbn [trun]. change (ttick u (TMachine fr nx vs (AMain (MDo (OStart x (TAwait x k)) kk) :: st) tm ds))
    with (Ok (TMachine (upd fr nx (new_tframe (TAwait x k))) (S nx) vs (ACoro nx :: AAssign x nx :: AMain (kk RUnit) :: st) tm ds)). cbn [rbind].
  unfold ttick. cbn [tstack tframes tvars tnext ttimers tdestroyed]. rewrite upd_eq. cbn [new_tframe talive guard tcode]. rewrite V.
  rewrite (upd_ne fr nx c0) by lia. rewrite A. cbn [guard]. rewrite W.
  unfold tdone. destruct (tcode (fr c0)) eqn:C; [| |congruence]; cbn [rbind]; eexists; (split; [reflexivity|]); cbn [set_stack set_frame tframes tvars];
    rewrite upd_eq; (split; [reflexivity|]); rewrite upd_ne by lia; rewrite upd_eq; auto.
Qed.
(** The value can be taken once: after get() the next one gives a moved-from value. *)
Theorem task_get_once m x m1 v : tget m x = Ok (m1, ROut (OVal v)) -> exists m2, tget m1 x = Ok (m2, RMoved).
Proof.
  unfold tget. destruct (tvars m x) as [c|] eqn:V; [|discriminate]. unfold guard. destruct (talive (tframes m c)) eqn:A; [|discriminate]. destruct (tresult (tframes m c)) as [[w|e]|] eqn:R; try discriminate. destruct (taken (tframes m c)) eqn:T; intros H; try discriminate. injection H as <- <-. cbn [set_frame tvars tframes]. rewrite V, upd_eq. cbn. rewrite ?A, ?R. eauto.
Qed.

(** release() before the end *)
Definition un (m : tmachine) : Prop := forall c, c < tnext m -> talive (tframes m c) = true -> towned (tframes m c) = false -> tcode (tframes m c) <> TDone.
Lemma un_frames m m' : un m -> tnext m' = tnext m -> (forall g, talive (tframes m' g) = true -> towned (tframes m' g) = false -> tcode (tframes m' g) = TDone -> talive (tframes m g) = true /\ towned (tframes m g) = false /\ tcode (tframes m g) = TDone) -> un m'.
Proof. intros U N F c Lc A W D. destruct (F c A W D) as (X & Y & Z). apply (U c); congruence. Qed.
Lemma free_un m x m1 : un m -> tfree m x = Ok m1 -> un m1.
Proof.
  intros U. unfold tfree. destruct (tvars m x) as [c|]; [|intros H; now injection H as <-]. destruct (tdestroy m c) as [m2| |] eqn:D; cbn [rbind]; try discriminate. intros H. injection H as <-. apply destroy_inv in D as (_ & _ & ->). apply (un_frames m); auto.
  intros g. cbn. unfold upd. destruct (Nat.eqb_spec g c); subst; cbn; auto. discriminate.
Qed.
Lemma stmt_un update m o m' r a : un m -> early m o -> tstmt update m o = Ok (m', r, a) -> un m'.
Proof.
  intros U Er E. destruct o as [x b|x y|x|x|x|x|x]; cbn [tstmt early] in *.
  - injection E as <- <- <-. intros c. cbn. unfold upd. destruct (Nat.eqb_spec c (tnext m)); [discriminate|]. intros Lc. apply U. lia.
  - unfold tmove in E. destruct (tfree m x) as [m1| |] eqn:F; cbn [rbind] in E; try discriminate. injection E as <- <- <-. exact (free_un _ _ _ U F).
  - destruct (tfree m x) as [m1| |] eqn:F; cbn [rbind] in E; try discriminate. injection E as <- <- <-. exact (free_un _ _ _ U F).
  - destruct update; [discriminate|]. destruct (tready m x); cbn [rbind] in E; try discriminate. now injection E as <- <- <-.
  - destruct update; [discriminate|]. unfold tget in E. destruct (tvars m x) as [c|]; [|discriminate]. unfold guard in E. destruct (talive (tframes m c)) eqn:A; [|discriminate]. destruct (tresult (tframes m c)) as [[|]|]; cbn [rbind] in E; try discriminate; injection E as <- <- <-; auto. apply (un_frames m); auto. intros g. cbn. unfold upd. destruct (Nat.eqb_spec g c); subst; cbn; auto.
  - destruct update; [|discriminate]. destruct (tis_done m x); cbn [rbind] in E; try discriminate. now injection E as <- <- <-.
  - destruct update; [|discriminate]. unfold trelease in E. destruct (tvars m x) as [c|] eqn:V; cbn [rbind] in E; [|injection E as <- <- <-; auto]. unfold guard in E. destruct (talive (tframes m c)) eqn:A; cbn [rbind] in E; [|discriminate]. injection E as <- <- <-. apply (un_frames m); auto.
    intros g. cbn. unfold upd. destruct (Nat.eqb_spec g c); subst; cbn; auto. intros _ _ D. exfalso. exact (Er c eq_refl D).
Qed.
Lemma finish_un update m h o st m' : un m -> tfinish update m h o st = Ok m' -> un m'.
Proof.
  intros U. unfold tfinish. set (m1 := TMachine _ _ _ _ _ _). intros E.
  assert (E2 : exists m2, (if towned (tframes m h) then Ok m1 else tdestroy m1 h) = Ok m2 /\ un m2).
  { destruct (towned (tframes m h)) eqn:Et.
    - exists m1. split; auto. apply (un_frames m); auto. intros g. unfold m1. cbn. unfold upd. destruct (Nat.eqb_spec g h); subst; cbn; auto. discriminate.
    - destruct (tdestroy m1 h) as [m2| |] eqn:D; cbn [rbind] in E; try discriminate. exists m2. split; auto. apply destroy_inv in D as (_ & _ & ->). apply (un_frames m); auto. intros g. unfold m1. cbn. unfold upd. destruct (Nat.eqb_spec g h); subst; cbn; auto. discriminate. }
  destruct E2 as (m2 & E2 & U2). rewrite E2 in E. cbn [rbind] in E. destruct (tawaiting (tframes m h)) as [q|]; [|injection E as <-; auto]. unfold guard in E. destruct (talive (tframes m2 q)); [|discriminate]. destruct (tresume update m2 h) as [[m3 r]| |] eqn:Er; cbn [rbind] in E; try discriminate. apply resume_frames in Er as (F & A & N & _). destruct (tcode (tframes m3 q)); try discriminate. injection E as <-.
  apply (un_frames m2); auto. intros g. cbn. unfold upd. destruct (F g) as (C & _ & _ & W). specialize (A g). destruct (Nat.eqb_spec g q); subst; cbn; [discriminate|]. now rewrite C, W, A.
Qed.
Lemma tick_un update m m' : un m -> releases_early m -> ttick update m = Ok m' -> un m'.
Proof.
  intros U R. unfold ttick, releases_early in *. destruct (tstack m) as [|[h|x c|[|o k|n k]] st].
  - intros H; now injection H as <-.
  - unfold guard. destruct (talive (tframes m h)); [|discriminate]. destruct (tcode (tframes m h)) as [[v|e|k|x k|o k]|c k|]; try discriminate.
    + now apply finish_un.
    + destruct update eqn:Eu; [discriminate|]. now apply finish_un.
    + intros H. injection H as <-. apply (un_frames m); auto. intros g. cbn. unfold upd. destruct (g =? h); cbn; auto. discriminate.
    + destruct (tvars m x) as [c|]; [|discriminate]. destruct (talive (tframes m c)) eqn:Ac; [|discriminate]. destruct (tawaiting (tframes m c)); [discriminate|]. destruct (tdone (tframes m c)) eqn:Dc.
      * destruct (tresume update m c) as [[m1 r]| |] eqn:Er; cbn [rbind]; try discriminate. apply resume_frames in Er as (F & A & N & _). intros H. injection H as <-. apply (un_frames m); auto. intros g. cbn. unfold upd. destruct (F g) as (C & _ & _ & W). specialize (A g). destruct (Nat.eqb_spec g h); subst; cbn; [discriminate|]. now rewrite C, W, A.
      * intros H. injection H as <-. apply (un_frames m); auto. intros g. cbn. unfold upd. destruct (g =? h); cbn; [discriminate|]. destruct (Nat.eqb_spec g c); subst; cbn; auto.
    + destruct (tstmt update m o) as [[[m1 r] a]| |] eqn:E; cbn [rbind]; try discriminate. intros H. injection H as <-. pose proof (stmt_un _ _ _ _ _ _ U R E) as W. apply (un_frames m1); auto. intros g. cbn. unfold upd. destruct (g =? h); cbn; auto. discriminate.
  - unfold tassign. destruct (tfree m x) as [m1| |] eqn:F; cbn [rbind]; try discriminate. intros H. injection H as <-. exact (free_un _ _ _ U F).
  - intros H; now injection H as <-.
  - destruct (tstmt update m o) as [[[m1 r] a]| |] eqn:E; cbn [rbind]; try discriminate. intros H. injection H as <-. exact (stmt_un _ _ _ _ _ _ U R E).
  - destruct (nth_error (ttimers m) n) as [h|]; [|intros H; now injection H as <-]. unfold guard. destruct (talive (tframes m h)); [|discriminate]. intros H; now injection H as <-.
Qed.
Lemma run_un update n : forall m m', un m -> early_run update n m -> trun update n m = Ok m' -> un m'.
Proof. induction n as [|n IH]; intros m m' U R; cbn [trun]; [intros H; now injection H as <-|]. destruct R as [R1 R2]. destruct (ttick update m) as [m1| |] eqn:E; cbn [rbind]; try discriminate. apply IH; auto. eapply tick_un; eauto. Qed.

(** Tasks that are released before their coroutine finishes: when all functions have returned and all variables are
    empty, each coroutine has been destroyed or has not finished. *)
Theorem task_release_no_leak update p n m c : early_run update n (tinit p) -> trun update n (tinit p) = Ok m -> tstack m = [] -> (forall x, tvars m x = None) ->
  c < tnext m -> tcode (tframes m c) = TDone -> In c (tdestroyed m).
Proof.
  intros R E Es V Lc D. destruct (task_owned_once _ _ _ _ E) as (_ & _ & _ & A). destruct (A Es c Lc) as [|[[x X]|X]]; auto; [rewrite V in X; discriminate|].
  apply (o_ds _ _ _ _ _ _ (w_own _ (run_owned _ _ _ _ (owned_init p) E))). split; auto. unfold al. destruct (talive (tframes m c)) eqn:Ac; auto. exfalso. assert (U0 : un (tinit p)) by (intros g; cbn; lia). exact (run_un update n _ m U0 R E c Lc Ac X D).
Qed.

Definition ms : list top -> tmain := fold_right (fun o k => MDo o (fun _ => k)) MEnd.
(** The code: release() of a task whose coroutine has finished leaks the coroutine: its frame is never destroyed. *)
Theorem task_release_finished_refuted : exists p n m, trun true n (tinit p) = Ok m /\ careful_run true n (tinit p) /\ tstack m = [] /\ (forall x, tvars m x = None) /\ ttimers m = [] /\ tcode (tframes m 0) = TDone /\ tnext m = 1 /\ tdestroyed m = [].
Proof.
  exists (ms [OStart 0 (TRet 0); ORelease 0]), 10. eexists. split; [vm_compute; reflexivity|]. split; [|cbn; repeat split; auto; intros [|]; reflexivity].
  repeat (split; [cbn; unfold freeable; cbn; auto; try discriminate; try (intros ? H; discriminate H)|intros ? H; vm_compute in H; injection H as <-]). exact I.
Qed.
(** get() of a task that is not ready is undefined behaviour. *)
Theorem task_get_unready_refuted : exists p n, trun false n (tinit p) = UB.
Proof. exists (ms [OStart 0 (TTimer (TRet 7)); OGet 0]), 5. vm_compute. reflexivity. Qed.
(** The destruction of a task whose coroutine waits for an event: the event then resumes a destroyed coroutine. *)
Theorem task_free_suspended_refuted : forall update, exists p n, trun update n (tinit p) = UB.
Proof. intros update. exists (MDo (OStart 0 (TTimer (TRet 7))) (fun _ => MDo (OFree 0) (fun _ => MFire 0 MEnd))), 9. destruct update; vm_compute; reflexivity. Qed.
(** The same with an assignment of a new task to the variable. *)
Theorem task_overwrite_suspended_refuted : forall update, exists p n, trun update n (tinit p) = UB.
Proof. intros update. exists (MDo (OStart 0 (TTimer (TRet 7))) (fun _ => MDo (OStart 0 (TRet 1)) (fun _ => MFire 0 MEnd))), 9. destruct update; vm_compute; reflexivity. Qed.
(** [x = std::move(x)] destroys the coroutine of [x]. *)
Theorem task_self_move_refuted : forall update, exists p n m, trun update n (tinit p) = Ok m /\ tvars m 0 = None /\ tdestroyed m = [0] /\ trun update (n + 4) (tinit p) = UB.
Proof. intros update. exists (MDo (OStart 0 (TTimer (TRet 7))) (fun _ => MDo (OMove 0 0) (fun _ => MFire 0 MEnd))), 4. destruct update; eexists; split; try (vm_compute; reflexivity); repeat split; vm_compute; reflexivity. Qed.
(** The destruction of a coroutine that awaits another one: the end of the other one resumes it. *)
Theorem task_awaiter_destroyed_refuted : forall update, exists p n, trun update n (tinit p) = UB.
Proof.
  intros update. exists (MDo (OStart 0 (TTimer (TRet 7))) (fun _ => MDo (OStart 1 (TAwait 0 (fun _ => TRet 8))) (fun _ => MDo (OFree 1) (fun _ => MFire 0 MEnd)))), 20. destruct update; vm_compute; reflexivity.
Qed.
(** Coroutines can wait for each other for ever: a careful program in which nothing executes, no event is expected, and
    two coroutines have not finished. *)
Theorem task_await_cycle_refuted : forall update, exists p n m, careful_run update n (tinit p) /\ trun update n (tinit p) = Ok m /\ tstack m = [] /\ ttimers m = [] /\ unfinished m 0 /\ unfinished m 1 /\ waits_for m 0 1 /\ waits_for m 1 0.
Proof.
  intros update. exists (MDo (OStart 0 (TTimer (TAwait 1 (fun _ => TRet 7)))) (fun _ => MDo (OStart 1 (TAwait 0 (fun _ => TRet 8))) (fun _ => MFire 0 MEnd))), 20.
  destruct update; eexists; (split; [|split; [vm_compute; reflexivity|cbn; unfold unfinished, waits_for; cbn; repeat split; auto; try discriminate; eauto]]).
  all: repeat (split; [cbn; unfold freeable; cbn; auto; try discriminate; try (intros ? H; discriminate H)|intros ? H; vm_compute in H; injection H as <-]); exact I.
Qed.

(** A careful program: one coroutine awaits another one, the tasks are moved around, is_ready() and get() are called
    after the event, then both tasks are destroyed. *)
Definition sample : tmain :=
  MDo (OStart 0 (TTimer (TRet 7))) (fun _ =>
  MDo (OStart 1 (TAwait 0 (fun r => match r with ROut (OVal v) => TRet (v + 1) | _ => TRet 0 end))) (fun _ =>
  MDo (OMove 2 0) (fun _ => MDo (OReady 1) (fun r0 => MFire 0
  (MDo (OReady 1) (fun r1 => MDo (OGet 1) (fun r2 => MDo (OGet 2) (fun r3 =>
  match r0, r1, r2, r3 with RBool false, RBool true, ROut (OVal 8), RMoved => ms [OFree 1; OFree 2] | _, _, _, _ => MDo (OStart 9 (TRet 99)) (fun _ => MEnd) end)))))))).
Example task_sample : exists m, careful_run false 40 (tinit sample) /\ trun false 40 (tinit sample) = Ok m /\ tstack m = [] /\ tnext m = 2 /\ tdestroyed m = [1; 0].
Proof.
  eexists. split; [|split; [vm_compute; reflexivity|auto]].
  repeat (split; [cbn; unfold freeable; cbn; auto; try discriminate; try (intros ? H; vm_compute in H; first [discriminate H|injection H as <-; vm_compute; reflexivity])|intros ? H; vm_compute in H; injection H as <-]). exact I.
Qed.
(** A released UpdateTask destroys itself at its end, and the coroutine that awaited it goes on. *)
Example task_release_sample : exists m, trun true 40 (tinit (MDo (OStart 0 (TTimer (TRet 0))) (fun _ => MDo (OStart 1 (TAwait 0 (fun _ => TRet 0))) (fun _ => MDo (ORelease 0) (fun _ => MFire 0 (ms [OFree 1])))))) = Ok m /\ tdestroyed m = [0; 1].
Proof. eexists. split; vm_compute; reflexivity. Qed.
