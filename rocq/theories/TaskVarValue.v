(** C94: the values that coroutines deliver. *)
From Coq Require Import ZifyBool ZifyNat.
From Verif Require Import Common CoroModel TaskVarModel TaskVarSpec TaskVarProofs TaskVarProps.

(** The next step is the end of coroutine [c], which returns a value or throws. *)
Definition finishes (m : tmachine) (c : nat) (o : outcome) : Prop :=
  exists st, tstack m = ACoro c :: st /\ match o with OVal v => tcode (tframes m c) = TRun (TRet v) | OExn e => tcode (tframes m c) = TRun (TThrow e) end.

(** A step: what it does to the outcome of [c] and to a coroutine that waits for [d] *)
Record evolves (update : bool) (m m' : tmachine) : Prop := Evolves {
  e_next : tnext m <= tnext m';
  e_new : forall c, tnext m <= c < tnext m' -> tresult (tframes m' c) = None /\ taken (tframes m' c) = false;
  e_res : forall c, c < tnext m -> tresult (tframes m' c) = tresult (tframes m c) \/ exists o, finishes m c o /\ tresult (tframes m' c) = Some o;
  e_taken : forall c, c < tnext m -> taken (tframes m' c) = true -> taken (tframes m c) = true \/ tresult (tframes m' c) <> None;
  e_wait : forall p d k, p < tnext m -> tcode (tframes m p) = TWait d k ->
    tcode (tframes m' p) = TWait d k \/
    exists c o, finishes m c o /\ tawaiting (tframes m c) = Some p /\ tcode (tframes m' p) = TRun (k (if update then RUnit else if taken (tframes m c) then match o with OVal _ => RMoved | OExn e => ROut (OExn e) end else ROut o)) }.

(** Steps that keep the code of all other coroutines, and all outcomes *)
Lemma evolves_frames update m m' : tnext m' = tnext m ->
  (forall c, c < tnext m -> tresult (tframes m' c) = tresult (tframes m c) /\ (taken (tframes m' c) = true -> taken (tframes m c) = true \/ tresult (tframes m c) <> None) /\ (tcode (tframes m' c) = tcode (tframes m c) \/ exists b, tcode (tframes m c) = TRun b)) -> evolves update m m'.
Proof.
  intros N F. constructor; [lia|intros; lia| | |].
  - intros c L. left. now apply F.
  - intros c L T. destruct (F c L) as (-> & X & _). auto.
  - intros p d k L E. destruct (F p L) as (_ & _ & [X|[b X]]); [left|]; congruence.
Qed.
Lemma free_frames m x m1 : tfree m x = Ok m1 -> tnext m1 = tnext m /\ forall c, tresult (tframes m1 c) = tresult (tframes m c) /\ taken (tframes m1 c) = taken (tframes m c) /\ tcode (tframes m1 c) = tcode (tframes m c).
Proof.
  unfold tfree. destruct (tvars m x) as [c|]; [|intros H; injection H as <-; auto]. destruct (tdestroy m c) as [m2| |] eqn:D; cbn [rbind]; try discriminate. intros H. injection H as <-. apply destroy_inv in D as (_ & _ & ->). split; auto. intros g. cbn. unfold upd. destruct (Nat.eqb_spec g c); subst; cbn; auto.
Qed.
Lemma stmt_frames update m o m' r a : tstmt update m o = Ok (m', r, a) ->
  tnext m <= tnext m' /\ (forall c, tnext m <= c < tnext m' -> tresult (tframes m' c) = None /\ taken (tframes m' c) = false) /\
  forall c, c < tnext m -> tresult (tframes m' c) = tresult (tframes m c) /\ (taken (tframes m' c) = true -> taken (tframes m c) = true \/ tresult (tframes m c) <> None) /\ tcode (tframes m' c) = tcode (tframes m c).
Proof.
  intros E. assert (FR : forall x m1, tfree m x = Ok m1 -> tnext m <= tnext m1 /\ (forall c, tnext m <= c < tnext m1 -> tresult (tframes m1 c) = None /\ taken (tframes m1 c) = false) /\
    forall c, c < tnext m -> tresult (tframes m1 c) = tresult (tframes m c) /\ (taken (tframes m1 c) = true -> taken (tframes m c) = true \/ tresult (tframes m c) <> None) /\ tcode (tframes m1 c) = tcode (tframes m c)).
  { intros x m1 F. apply free_frames in F as [N F]. split; [lia|]. split; [intros; lia|]. intros c _. destruct (F c) as (-> & -> & ->). auto. }
  destruct o as [x b|x y|x|x|x|x|x]; cbn [tstmt] in E.
  - injection E as <- <- <-. cbn [tnext tframes]. split; [lia|]. split; [intros c L; assert (c = tnext m) by lia; subst; rewrite upd_eq; auto|]. intros c L. rewrite upd_ne by lia. auto.
  - unfold tmove in E. destruct (tfree m x) as [m1| |] eqn:F; cbn [rbind] in E; try discriminate. injection E as <- <- <-. exact (FR _ _ F).
  - destruct (tfree m x) as [m1| |] eqn:F; cbn [rbind] in E; try discriminate. injection E as <- <- <-. exact (FR _ _ F).
  - destruct update; [discriminate|]. destruct (tready m x); cbn [rbind] in E; try discriminate. injection E as <- <- <-. split; [lia|]. split; [intros; lia|]. auto.
  - destruct update; [discriminate|]. unfold tget in E. destruct (tvars m x) as [c|]; [|discriminate]. unfold guard in E. destruct (talive (tframes m c)); [|discriminate].
    destruct (tresult (tframes m c)) as [[v|e]|] eqn:Er; cbn [rbind] in E; try discriminate; injection E as <- <- <-; (split; [cbn; lia|split; [cbn; intros; lia|]]); auto. intros g _. cbn [set_frame tframes]. rewrite upd_at. destruct (Nat.eqb_spec g c); subst; cbn; auto. repeat split; auto. intros _. right. congruence.
  - destruct update; [|discriminate]. destruct (tis_done m x); cbn [rbind] in E; try discriminate. injection E as <- <- <-. split; [lia|]. split; [intros; lia|]. auto.
  - destruct update; [|discriminate]. unfold trelease in E. destruct (tvars m x) as [c|]; cbn [rbind] in E; [|injection E as <- <- <-; split; [lia|]; split; [intros; lia|]; auto]. unfold guard in E. destruct (talive (tframes m c)); cbn [rbind] in E; [|discriminate]. injection E as <- <- <-. split; [cbn; lia|]. split; [cbn; intros; lia|]. intros g _. cbn [set_var set_frame tframes]. rewrite upd_at. destruct (Nat.eqb_spec g c); subst; cbn; auto.
Qed.
Lemma resume_value update m c m' r : tresume update m c = Ok (m', r) ->
  tnext m' = tnext m /\ (forall g, tresult (tframes m' g) = tresult (tframes m g) /\ (taken (tframes m' g) = true -> taken (tframes m g) = true \/ tresult (tframes m g) <> None) /\ tcode (tframes m' g) = tcode (tframes m g)) /\
  r = if update then RUnit else match tresult (tframes m c) with Some (OVal v) => if taken (tframes m c) then RMoved else ROut (OVal v) | Some (OExn e) => ROut (OExn e) | None => RUnit end.
Proof.
  unfold tresume. destruct update; [intros H; injection H as <- <-; repeat split; auto|]. unfold guard. destruct (talive (tframes m c)); [|intros H; discriminate H]. destruct (tresult (tframes m c)) as [[v|e]|] eqn:R; intros H; try discriminate H; injection H as <- <-; [|repeat split; auto].
  split; auto. split; auto. intros g. cbn [set_frame tframes]. rewrite upd_at. destruct (Nat.eqb_spec g c); subst; cbn; auto. repeat split; auto. intros _. right. congruence.
Qed.
Lemma finish_evolves update m h o st m' : tstack m = ACoro h :: st -> h < tnext m -> (tcode (tframes m h) = match o with OVal v => TRun (TRet v) | OExn e => TRun (TThrow e) end) -> tfinish update m h o st = Ok m' -> evolves update m m'.
Proof.
  intros Es Lh Ec E. assert (Fi : finishes m h o) by (exists st; split; auto; destruct o; auto).
  assert (Eb : exists b, tcode (tframes m h) = TRun b) by (destruct o; eauto). unfold tfinish in E. set (m1 := TMachine _ _ _ _ _ _) in E.
  assert (E2 : exists m2, (if towned (tframes m h) then Ok m1 else tdestroy m1 h) = Ok m2 /\ tnext m2 = tnext m /\ forall g, tresult (tframes m2 g) = (if g =? h then Some o else tresult (tframes m g)) /\ taken (tframes m2 g) = taken (tframes m g) /\ tcode (tframes m2 g) = (if g =? h then TDone else tcode (tframes m g))).
  { destruct (towned (tframes m h)) eqn:Et.
    - exists m1. split; auto. split; auto. intros g. unfold m1. cbn. unfold upd. destruct (Nat.eqb_spec g h); subst; cbn; auto.
    - destruct (tdestroy m1 h) as [m2| |] eqn:D; cbn [rbind] in E; try discriminate. exists m2. split; auto. apply destroy_inv in D as (_ & _ & ->). split; auto. intros g. unfold m1. cbn. unfold upd. rewrite Nat.eqb_refl. destruct (Nat.eqb_spec g h); subst; cbn; auto. }
  destruct E2 as (m2 & E2 & N2 & F2). rewrite E2 in E. cbn [rbind] in E. clear E2 m1. destruct (tawaiting (tframes m h)) as [q|] eqn:Ea.
  - unfold guard in E. destruct (talive (tframes m2 q)); [|discriminate]. destruct (tresume update m2 h) as [[m3 r]| |] eqn:Er; cbn [rbind] in E; try discriminate. apply resume_value in Er as (N3 & F3 & Hr). destruct (tcode (tframes m3 q)) as [|d k|] eqn:Cq; try discriminate. injection E as <-.
    destruct (F2 h) as (Rh & Th & _). rewrite Nat.eqb_refl in Rh. rewrite Rh, Th in Hr.
    assert (Cq0 : q <> h /\ tcode (tframes m q) = TWait d k). { destruct (F3 q) as (_ & _ & X). destruct (F2 q) as (_ & _ & Y). rewrite Cq, Y in X. destruct (Nat.eqb_spec q h); [discriminate|auto]. } destruct Cq0 as [Nqh Cq0].
    constructor; cbn [set_stack set_frame tframes tnext]; [lia|intros; lia| | |].
    + intros c _. rewrite upd_at. destruct (F3 c) as (X & _). destruct (F2 c) as (Y & _). destruct (Nat.eqb_spec c q) as [->|]; cbn; [left; rewrite X, Y; destruct (Nat.eqb_spec q h); congruence|]. rewrite X, Y. destruct (Nat.eqb_spec c h) as [->|]; eauto.
    + intros c _. rewrite upd_at. destruct (F3 c) as (X & T & _). destruct (F2 c) as (Y & T2 & _). rewrite Y, T2 in *. destruct (Nat.eqb_spec c q) as [->|]; cbn; rewrite ?X; auto.
    + intros p d' k' _ Ep. rewrite upd_at. destruct (Nat.eqb_spec p q) as [->|].
      * rewrite Cq0 in Ep. injection Ep as <- <-. right. exists h, o. cbn. split; auto. split; auto. f_equal. f_equal. rewrite Hr. destruct update; auto. destruct o, (taken (tframes m h)); auto.
      * left. destruct (F3 p) as (_ & _ & ->). destruct (F2 p) as (_ & _ & ->). destruct (Nat.eqb_spec p h); [subst; destruct Eb; congruence|auto].
  - injection E as <-. constructor; [lia|intros; lia| | |].
    + intros c _. destruct (F2 c) as (-> & _). destruct (Nat.eqb_spec c h) as [->|]; eauto.
    + intros c _. destruct (F2 c) as (_ & -> & _). auto.
    + intros p d' k' _ Ep. left. destruct (F2 p) as (_ & _ & ->). destruct (Nat.eqb_spec p h); [subst; destruct Eb; congruence|auto].
Qed.
Lemma tick_evolves update m m' : owned m -> ttick update m = Ok m' -> evolves update m m'.
Proof.
  intros Ow. unfold ttick. destruct (tstack m) as [|[h|x c|[|o k|n k]] st] eqn:Es.
  - intros H. injection H as <-. apply evolves_frames; auto.
  - assert (Lh : h < tnext m) by (apply (w_stack m Ow); rewrite Es; cbn; auto).
    unfold guard. destruct (talive (tframes m h)); [|discriminate]. destruct (tcode (tframes m h)) as [[v|e|k|x k|o k]|c k|] eqn:Ec; try discriminate.
    + apply finish_evolves; auto.
    + destruct update eqn:U; [discriminate|]. apply finish_evolves; auto.
    + intros H. injection H as <-. apply evolves_frames; auto. intros g _. cbn [tframes set_frame]. rewrite upd_at. destruct (Nat.eqb_spec g h); subst; cbn; eauto 8.
    + destruct (tvars m x) as [c|]; [|discriminate]. destruct (talive (tframes m c)); [|discriminate]. destruct (tawaiting (tframes m c)); [discriminate|]. destruct (tdone (tframes m c)).
      * destruct (tresume update m c) as [[m1 r]| |] eqn:Er; cbn [rbind]; try discriminate. apply resume_value in Er as (N & F & _). intros H. injection H as <-. apply evolves_frames; auto. intros g _. cbn [tframes set_frame]. rewrite upd_at. destruct (F g) as (A & B & C). destruct (Nat.eqb_spec g h); subst; cbn; eauto 8.
      * intros H. injection H as <-. apply evolves_frames; auto. intros g _. cbn [tframes set_frame set_stack]. rewrite !upd_at. destruct (Nat.eqb_spec g h); subst; cbn; [destruct (Nat.eqb_spec h c); subst; cbn; eauto 8|]. destruct (Nat.eqb_spec g c); subst; cbn; eauto 8.
    + destruct (tstmt update m o) as [[[m1 r] a]| |] eqn:E; cbn [rbind]; try discriminate. intros H. injection H as <-. apply stmt_frames in E as (N & New & F).
      constructor; cbn [set_stack set_frame tframes tnext]; auto; intros c.
      * intros L. rewrite upd_ne by lia. auto.
      * intros L. left. rewrite upd_at. destruct (F c L) as (A & B & C). destruct (Nat.eqb_spec c h); subst; cbn; auto.
      * intros L. rewrite upd_at. destruct (F c L) as (A & B & C). destruct (Nat.eqb_spec c h); subst; cbn; rewrite A; auto.
      * intros d k' L X. left. rewrite upd_ne by congruence. destruct (F c L) as (_ & _ & ->). auto.
  - unfold tassign. destruct (tfree m x) as [m1| |] eqn:F; cbn [rbind]; try discriminate. intros H. injection H as <-. apply free_frames in F as [N F]. apply evolves_frames; auto. intros g _. cbn [set_stack set_var tframes]. destruct (F g) as (-> & -> & ->). auto.
  - intros H. injection H as <-. apply evolves_frames; auto.
  - destruct (tstmt update m o) as [[[m1 r] a]| |] eqn:E; cbn [rbind]; try discriminate. intros H. injection H as <-. apply stmt_frames in E as (N & New & F). constructor; cbn [set_stack tframes tnext]; auto; intros c.
    + intros L. left. now apply F.
    + intros L. destruct (F c L) as (A & B & C). rewrite A. auto.
    + intros d k' L X. left. destruct (F c L) as (_ & _ & ->). auto.
  - destruct (nth_error (ttimers m) n) as [h|]; [unfold guard; destruct (talive (tframes m h)); [|discriminate]|]; intros H; injection H as <-; apply evolves_frames; auto.
Qed.

Lemma run_last update : forall n m m', trun update (Datatypes.S n) m = Ok m' -> exists m0, trun update n m = Ok m0 /\ ttick update m0 = Ok m'.
Proof.
  induction n as [|n IH]; intros m m' H.
  - cbn [trun] in H. destruct (ttick update m) as [m1| |] eqn:E; cbn [rbind] in H; try discriminate. injection H as <-. exists m. auto.
  - cbn [trun] in H. destruct (ttick update m) as [m1| |] eqn:E; cbn [rbind] in H; try discriminate. apply IH in H as (m0 & A & B). exists m0. split; auto. cbn [trun]. rewrite E. exact A.
Qed.
Lemma run_taken update p : forall n m c, trun update n (tinit p) = Ok m -> c < tnext m -> taken (tframes m c) = true -> tresult (tframes m c) <> None.
Proof.
  induction n as [|n IH]; intros m c E L T; [injection E as <-; cbn in L; lia|]. apply run_last in E as (m0 & E0 & Et). pose proof (tick_evolves _ _ _ (run_owned _ _ _ _ (owned_init p) E0) Et) as [N New Res Tk _].
  destruct (Nat.lt_ge_cases c (tnext m0)) as [Lc|Lc]; [|destruct (New c ltac:(lia)); congruence]. destruct (Tk c Lc T) as [T0|X]; auto. specialize (IH _ _ E0 Lc T0). destruct (Res c Lc) as [->|(o & _ & ->)]; [auto|discriminate].
Qed.
Lemma run_result update p : forall n m c o, trun update n (tinit p) = Ok m -> c < tnext m -> tresult (tframes m c) = Some o -> exists k m0, k < n /\ trun update k (tinit p) = Ok m0 /\ finishes m0 c o.
Proof.
  induction n as [|n IH]; intros m c o E L T; [injection E as <-; cbn in L; lia|]. apply run_last in E as (m0 & E0 & Et). pose proof (tick_evolves _ _ _ (run_owned _ _ _ _ (owned_init p) E0) Et) as [N New Res _ _].
  destruct (Nat.lt_ge_cases c (tnext m0)) as [Lc|Lc]; [|destruct (New c ltac:(lia)); congruence]. destruct (Res c Lc) as [X|(o' & F & X)].
  - rewrite X in T. destruct (IH _ _ _ E0 Lc T) as (k & m1 & Lk & R & F). exists k, m1. auto.
  - assert (o' = o) by congruence. subst. exists n, m0. auto.
Qed.

(** get() gives what its coroutine returned or threw, or, after the value has been taken, a moved-from value. *)
Theorem task_get_result p n m x m1 r : trun false n (tinit p) = Ok m -> tget m x = Ok (m1, r) ->
  exists c k m0 o, tvars m x = Some c /\ k < n /\ trun false k (tinit p) = Ok m0 /\ finishes m0 c o /\ (r = ROut o \/ r = RMoved /\ exists v, o = OVal v).
Proof.
  intros E G. unfold tget in G. destruct (tvars m x) as [c|] eqn:V; [|discriminate]. destruct (o_var _ _ _ _ _ _ (w_own _ (run_owned _ _ _ _ (owned_init p) E)) _ _ V) as (Lc & _). unfold guard in G. destruct (talive (tframes m c)); [|discriminate].
  destruct (tresult (tframes m c)) as [o|] eqn:R; [|discriminate]. destruct (run_result _ _ _ _ _ _ E Lc R) as (k & m0 & Lk & E0 & F). exists c, k, m0, o. repeat (split; auto). destruct o as [v|e]; injection G as <- <-; auto. destruct (taken (tframes m c)); eauto.
Qed.
(** A coroutine in co_await goes on exactly when the awaited one ends, with the value or the exception of that one. *)
Theorem task_await_result update p n m m' q c k : careful_run update n (tinit p) -> trun update n (tinit p) = Ok m -> ttick update m = Ok m' -> q < tnext m -> tcode (tframes m q) = TWait c k ->
  match tcode (tframes m' q) with TRun b => exists o, finishes m c o /\ b = k (if update then RUnit else ROut o) | s => s = TWait c k /\ forall o, ~ finishes m c o end.
Proof.
  intros Ca E Et Lq Eq. pose proof (run_owned _ _ _ _ (owned_init p) E) as Ow. pose proof (run_live update n _ (owned_init p) (mlive_init p) (kept_init update p) Ca) as X. rewrite E in X. destruct X as [L _].
  destruct (v_wait _ _ _ _ L _ _ _ Lq Eq) as (Lc & _ & Nc & Aw). pose proof (tick_evolves _ _ _ Ow Et) as EV. destruct (e_wait _ _ _ EV q c k Lq Eq) as [X|(d & o & F & A & X)]; rewrite X.
  - split; auto. intros o (st & Es & Ec). revert Et. unfold ttick. rewrite Es. assert (Ac : talive (tframes m c) = true) by (eapply (v_run _ _ _ _ L); rewrite Es; cbn; auto). rewrite Ac. cbn [guard].
    assert (G : tfinish update m c o st = Ok m' -> False).
    { unfold tfinish. rewrite Aw. set (m1 := TMachine _ _ _ _ _ _). destruct (if towned (tframes m c) then Ok m1 else tdestroy m1 c) as [m2| |]; cbn [rbind]; try discriminate. unfold guard. destruct (talive (tframes m2 q)); [|discriminate]. destruct (tresume update m2 c) as [[m3 r]| |]; cbn [rbind]; try discriminate. destruct (tcode (tframes m3 q)); try discriminate. intros H. injection H as <-. cbn in X. rewrite upd_eq in X. discriminate. }
    destruct o; rewrite Ec; auto. destruct update; [discriminate|auto].
  - pose proof F as (st & Es & Ed). assert (Ld : d < tnext m) by (apply (w_stack m Ow); rewrite Es; cbn; auto). assert (Nd : tcode (tframes m d) <> TDone) by (destruct o; congruence).
    destruct (v_await _ _ _ _ L d q Ld Nd A) as (_ & _ & k' & Eq'). assert (d = c) by congruence. subst d. exists o. split; auto. destruct update; auto. destruct (taken (tframes m c)) eqn:T; auto. exfalso. apply (run_taken _ _ _ _ _ E Lc T). destruct (tresult (tframes m c)) eqn:R; auto. exfalso. apply Nc. apply (v_done _ _ _ _ L c Lc). congruence.
Qed.

(** In the sample the first coroutine ends with 7, then the second one, which awaited it, with 8. *)
Example task_value_sample : exists m0 m1 m2, trun false 9 (tinit sample) = Ok m0 /\ finishes m0 0 (OVal 7) /\ ttick false m0 = Ok m1 /\ finishes m1 1 (OVal 8) /\ trun false 14 (tinit sample) = Ok m2 /\ tget m2 2 <> UB.
Proof. do 3 eexists. split; [vm_compute; reflexivity|]. split; [eexists; cbn; auto|]. split; [vm_compute; reflexivity|]. split; [eexists; cbn; auto|]. split; [vm_compute; reflexivity|]. vm_compute. discriminate. Qed.
