(** Theorems on stop_source, stop_token and stop_callback of Extras/JThread. *)
From Coq Require Import ZifyBool ZifyNat.
From Verif Require Import Common JStopModel JStopSpec JStopWord JStopAbs JStopInv JStopInv2 JStopLog JStopRefine.

Section Threads.
Context (n : nat).

Lemma run_good tr s a r : good n s a -> run n tr s = Some r -> careful n tr s -> exists s' a', r = Ok s' /\ good n s' a'.
Proof.
  revert s a. induction tr as [|[t x] tr IH]; intros s a G E C; cbn [run careful] in *.
  - injection E as <-. now exists s, a.
  - destruct C as [NP C]. destruct (step n t x s) as [r1|] eqn:Es; [|discriminate].
    destruct (step_good n t x s a r1 G Es) as (s1 & a1 & -> & G1).
    + intros Z X. destruct (Nat.le_gt_cases (references s) 1) as [|H]; [assumption|]. destruct NP. now repeat split.
    + now apply (IH s1 a1).
Qed.

(** An execution in which the state is not deleted too early is defined, its history is one
    that the standard allows, and the state is deleted exactly when nothing refers to it. *)
Theorem jstop_safe_partial tr r : run n tr init = Some r -> careful n tr init ->
  exists s, r = Ok s /\ lawful (log s) /\ (freed s = true <-> sources s = 0 /\ references s = 0).
Proof.
  intros E C. destruct (run_good tr init ainit r (good_init n) E C) as (s & a & -> & [HR I1 I2 I3 I4]). exists s. split; [reflexivity|].
  rewrite (r_lg s a HR), (r_fr s a HR), (r_sr s a HR), (references_eq s a HR). split; [exact (g_law a I4)|].
  rewrite (k_fr a I3). lia.
Qed.

(** It is so if there is a stop_source in every state of the execution. *)
Lemma source_careful tr s : (forall k s1, run n (firstn k tr) s = Some (Ok s1) -> 1 <= sources s1) -> careful n tr s.
Proof.
  revert s. induction tr as [|[t x] tr IH]; intros s H; cbn [careful]; [exact I|]. split.
  - intros (Z & _). specialize (H 0 s eq_refl). lia.
  - destruct (step n t x s) as [[s1| |]|] eqn:E; auto. apply IH. intros k s2 E2. apply (H (S k) s2). cbn [firstn run]. now rewrite E.
Qed.
Theorem jstop_source_safe tr r : run n tr init = Some r -> (forall k s, run n (firstn k tr) init = Some (Ok s) -> 1 <= sources s) ->
  exists s, r = Ok s /\ lawful (log s) /\ freed s = false.
Proof.
  intros E H. destruct (jstop_safe_partial tr r E (source_careful tr init H)) as (s & -> & L & F). exists s. split; [reflexivity|]. split; [exact L|].
  specialize (H (length tr) s). rewrite firstn_all in H. specialize (H E). destruct (freed s); [|reflexivity]. apply proj1 in F. specialize (F eq_refl). lia.
Qed.

(** Every event of a lawful history was allowed when it happened. *)
Theorem jstop_allowed h h1 e h2 : lawful h -> h = h1 ++ e :: h2 -> allowed h1 e.
Proof.
  intros L. revert h1 e h2. induction L as [|h x L IH A]; intros h1 e h2 E; [now destruct h1|].
  destruct h2 as [|y h2] using rev_ind.
  - apply app_inj_tail in E as [-> ->]. exact A.
  - apply (IH h1 e h2). change (h1 ++ e :: h2 ++ [y]) with (h1 ++ (e :: h2) ++ [y]) in E. rewrite app_assoc in E. now apply app_inj_tail in E as [-> _].
Qed.

(** A step that is excluded above deletes the state although something refers to it. *)
Theorem jstop_early_delete tr s t x r : run n tr init = Some (Ok s) -> careful n tr init -> premature t x s -> step n t x s = Some r ->
  exists s1, r = Ok s1 /\ freed s1 = true /\ 1 <= references s1.
Proof.
  intros E C (Z & H2 & X) Es. destruct (run_good tr init ainit _ (good_init n) E C) as (s' & a & Q & [HR I1 I2 I3 I4]). injection Q as <-.
  pose proof (fits_all a I3) as FA. rewrite (references_eq s a HR) in H2. pose proof (r_sr s a HR) as Sr. rewrite Z in Sr. rewrite <- Sr in FA.
  assert (HW : word s = enc (sp a) (lk a) (S (tk a + refs (ob a) (num a) - 1)) 0).
  { rewrite (r_word s a HR), <- Sr. f_equal. lia. }
  assert (Hlt : (word s <? token_inc + source_inc)%Z = true).
  { rewrite HW, enc_remove_token_last; [reflexivity|]. destruct FA. split; lia. }
  assert (Hf : freed s = false) by (apply (not_freed s a HR I3); lia).
  unfold step in Es. destruct (Nat.ltb_spec t n) as [Ht|]; [|discriminate].
  destruct (stacks s t) as [|f st] eqn:Est; [discriminate|]. cbn [hd_error] in X. pose proof Est as Est'. rewrite (r_stk s a HR) in Est'.
  assert (HD : forall w c, f = FRmDrop c -> lib_step w t f st s = Some r -> exists s1, r = Ok s1 /\ freed s1 = true /\ 1 <= references s1).
  { intros w c -> El. cbn [lib_step] in El. unfold touch in El. rewrite Hf in El. cbn [negb guard] in El. injection El as <-. eexists. split; [reflexivity|].
    unfold gone, remove_token. cbn [set_cb word]. rewrite Hlt. split; [reflexivity|].
    pose proof (top_J n a t _ st Est' I2) as [_ HJ]. cbn [fcb JC] in HJ. destruct HJ as (Hc & _ & Er & _).
    unfold references. cbn [tokens note set_cb set_stack free set_word cbs ncb].
    rewrite (r_tk s a HR), (r_num s a HR).
    assert (G : sum (fun d => Nat.b2n (c_ref (upd (upd (cbs s) c (with_ref (cbs s c) false)) c (with_life (upd (cbs s) c (with_ref (cbs s c) false) c) LGone) d))) (num a) = refs (upd (ob a) c (o_gone (ob a c))) (num a)).
    { apply sum_ext. intros i _. destruct (Nat.eq_dec i c) as [->|N]; [now rewrite !upd_eq|]. rewrite !upd_neq by exact N. now rewrite (r_cb s a HR i). }
    rewrite G. pose proof (refs_lose a c Hc Er). lia. }
  destruct f; try (destruct X as [->|(c' & Ec)]; [discriminate|]; discriminate).
  - destruct X as [->|(c' & Ec)]; [|discriminate]. cbn [user_step] in Es. destruct (_ <? _)%nat eqn:B in Es; [|discriminate]. injection Es as <-.
    unfold touch. rewrite Hf. cbn [negb guard]. eexists. split; [reflexivity|]. unfold remove_token. rewrite Hlt. split; [reflexivity|].
    rewrite (busy_eq n s a HR), (r_tk s a HR) in B. unfold references. cbn [tokens set_objs free set_word cbs ncb].
    pose proof (references_eq s a HR) as RE. unfold references in RE. rewrite (r_tk s a HR) in *. lia.
  - destruct X as [->|_]; [discriminate|]. destruct x; try discriminate; [apply (HD false c eq_refl Es)|apply (HD true c eq_refl Es)].
Qed.

(** ** Waiting *)
(** The thread that has the lock releases it in at most two steps of its own. *)
Theorem jstop_unlocks tr s : run n tr init = Some (Ok s) -> careful n tr init -> is_locked (word s) = true ->
  exists t s1, t < n /\ (run n [(t, AStep)] s = Some (Ok s1) \/ run n [(t, AStep); (t, AStep)] s = Some (Ok s1)) /\ is_locked (word s1) = false.
Proof.
  intros E C L. destruct (run_good tr init ainit _ (good_init n) E C) as (s' & a & Q & [HR I1 I2 I3 I4]). injection Q as <-.
  rewrite (word_locked s a HR) in L. pose proof (i_lock n a I1) as T. rewrite L in T. cbn [Nat.b2n] in T.
  destruct (tot_pos n holds (stk a)) as (t & f & Ht & Hf & B); [lia|].
  assert (Top : exists st, stk a t = f :: st).
  { destruct (i_shape n a I1 t) as [W|(g & st & N & Eq & W)].
    - exfalso. revert Hf. generalize (stk a t) W. intros l W'. induction W'; cbn; intuition; subst; discriminate.
    - rewrite Eq in *. destruct Hf as [->|Hf]; [now exists st|]. exfalso. revert Hf. clear Eq. induction W; cbn; intuition; subst; discriminate. }
  destruct Top as [st Est].
  assert (Hs : forall x, step n t AStep x = if Nat.ltb t n then match stacks x t with FUser :: r => user_step n t AStep r x | g :: r => lib_step false t g r x | [] => None end else None).
  { intros x. unfold step. destruct (t <? n); [|reflexivity]. destruct (stacks x t) as [|g r]; [reflexivity|]. now destruct g. }
  assert (one : forall x b g r, good n x b -> stk b t = g :: r -> g <> FUser -> (forall c, g <> FRmDrop c) -> exists x' b', step n t AStep x = Some (Ok x') /\ lstep t b r g b' /\ R x' b').
  { intros x b g r [HR' J1 J2 J3 J4] Eg N1 N2. destruct (refine_lib n x b HR' J1 J2 J3 t g r false Ht Eg N1) as (x' & b' & E1 & E2 & E3); [intros c Ec; now destruct (N2 c)|].
    exists x', b'. split; [|now split]. rewrite Hs. destruct (Nat.ltb_spec t n); [|lia]. rewrite (r_stk x b HR'), Eg. destruct g; exact E1. }
  assert (Hloop : forall x b r, good n x b -> stk b t = FReqLoop :: r -> exists x', step n t AStep x = Some (Ok x') /\ is_locked (word x') = false).
  { intros x b r G Eg. destruct (one x b _ r G Eg) as (x' & b' & E1 & E2 & E3); try discriminate. exists x'. split; [exact E1|]. rewrite (word_locked x' b' E3). inversion E2; subst; try reflexivity. inversion H. }
  assert (G0 : good n s a) by (now constructor).
  destruct f; try discriminate.
  - destruct (one s a _ st G0 Est) as (x' & b' & E1 & E2 & E3); try discriminate.
    destruct (step_good n t AStep s a _ G0 E1) as (x2 & b2 & Q & G2).
    { intros _ [X|[c X]]; [discriminate|]. rewrite (r_stk s a HR), Est in X. discriminate. }
    injection Q as <-. assert (Eg : stk b2 t = FReqLoop :: st).
    { destruct G2 as [HR2 _ _ _ _]. rewrite <- (r_stk x' b2 HR2), (r_stk x' b' E3). inversion E2; subst; [inversion H|]. cbn [stk s_stk s_sig]. now rewrite upd_eq. }
    destruct (Hloop x' b2 st G2 Eg) as (x3 & E4 & U). exists t, x3. split; [exact Ht|]. split; [|exact U]. right. cbn [run]. now rewrite E1, E4.
  - destruct (Hloop s a st G0 Est) as (x3 & E4 & U). exists t, x3. split; [exact Ht|]. split; [|exact U]. left. cbn [run]. now rewrite E4.
  - destruct (one s a _ st G0 Est) as (x' & b' & E1 & E2 & E3); try discriminate. exists t, x'. split; [exact Ht|]. split; [left; cbn [run]; now rewrite E1|].
    rewrite (word_locked x' b' E3). inversion E2; subst; [inversion H|reflexivity].
  - destruct (one s a _ st G0 Est) as (x' & b' & E1 & E2 & E3); try discriminate. exists t, x'. split; [exact Ht|]. split; [left; cbn [run]; now rewrite E1|].
    rewrite (word_locked x' b' E3). inversion E2; subst; [inversion H|reflexivity|reflexivity].
Qed.

(** A destructor that waits for the end of a call waits for another thread that has taken
    the callback from the list and has not finished the call. *)
Theorem jstop_wait tr s t c st : run n tr init = Some (Ok s) -> careful n tr init -> t < n -> stacks s t = FRmSpin c :: st -> c_fin (cbs s c) = false ->
  exists u m, u <> t /\ u < n /\ (In (FReqRun c m) (stacks s u) \/ In (FReqBody c m false) (stacks s u)).
Proof.
  intros E C Ht Est Hfin. destruct (run_good tr init ainit _ (good_init n) E C) as (s' & a & Q & [HR I1 I2 I3 I4]). injection Q as <-.
  rewrite (r_stk s a HR) in *. pose proof (top_J n a t _ st Est I2) as [Hsig HJ]. cbn [fcb JC Jw] in HJ, Hsig. destruct HJ as (Hc & L & Er & Nl).
  assert (Ef : a_fin (ob a c) = false) by (rewrite (r_cb s a HR c); exact Hfin).
  destruct (j_ref n a I2 c Hc Er) as [G|[G|[(u & f & Hf & X)|(u & Hu)]]]; [contradiction|congruence| |].
  - assert (Hu : u < n).
    { destruct (Nat.lt_ge_cases u n) as [|Hu]; [assumption|]. rewrite (i_out n a I1 u Hu) in Hf. destruct Hf as [<-|[]]. destruct X. }
    pose proof (j_fr n a I2 u f Hf) as [Hw _]. destruct f; try (now destruct X).
    + cbn in X. subst c0. exists u, more. split; [|split; [exact Hu|now left]]. intros ->. cbn [Jw] in Hw. tauto.
    + destruct removed; [now destruct X|]. cbn in X. subst c0. exists u, more. split; [|split; [exact Hu|now right]]. intros ->. cbn [Jw] in Hw. tauto.
  - exfalso. pose proof (one_rm n a t _ st Ht Est I1 I2 c) as OR. cbn [is_rm] in OR. rewrite Nat.eqb_refl in OR.
    destruct (in_oth _ _ _ _ _ _ Est Hu) as [[_ D]|Ho]; [discriminate|]. specialize (OR u _ eq_refl Ho). cbn in OR. rewrite Nat.eqb_refl in OR. discriminate.
Qed.
End Threads.

(** Two tokens of a source; the source and a token are destroyed; the other token is used. *)
Theorem jstop_token_refuted : exists tr, run 1 tr init = Some UB.
Proof. exists [(0, ANewToken); (0, ANewToken); (0, ADelSource); (0, ADelToken); (0, AQuery)]. vm_compute. reflexivity. Qed.
(** A callback registered with a token; the source and the token are destroyed; then the callback is. *)
Theorem jstop_callback_refuted : exists tr, run 1 tr init = Some UB /\ ~ In AQuery (map snd tr).
Proof.
  exists [(0, ANewToken); (0, AConstruct false); (0, AStep); (0, AStep); (0, AStep); (0, AStep); (0, ADelSource); (0, ADelToken); (0, ADestroy 0); (0, AStep)].
  split; [vm_compute; reflexivity|]. cbn. intuition discriminate.
Qed.
(* ---- examples ---- *)
Definition outcome (x : option (res state)) : option (list event) := match x with Some (Ok s) => Some (log s) | _ => None end.
Definition steps (t k : nat) : list (nat * action) := repeat (t, AStep) k.
(** A callback that thread 0 has registered and that thread 1 calls; the destructor in thread 0 waits. *)
Definition ex_wait : list (nat * action) :=
  [(0, ANewToken); (0, AConstruct false)] ++ steps 0 4 ++ [(1, ARequest)] ++ steps 1 5 ++ [(0, ADestroy 0)] ++ steps 0 5 ++ [(0, AStep); (1, AReturn); (0, AStep); (1, AStep); (0, AStep); (0, AStep)].
Example jstop_ex_wait : outcome (run 2 ex_wait init) =
  Some [ENew 0 0; EAdd 0 0; ESignal 1; EBegin 0 1; EDying 0 0; EEnd 0 1; EReq 1 true; EGone 0 0].
Proof. vm_compute. reflexivity. Qed.
(** The callback destroys itself. *)
Example jstop_ex_self : outcome (run 1 ([(0, ANewToken); (0, AConstruct true)] ++ steps 0 4 ++ [(0, ARequest)] ++ steps 0 5 ++ [(0, ADestroy 0)] ++ steps 0 5 ++ [(0, AReturn); (0, AStep)]) init) =
  Some [ENew 0 0; EAdd 0 0; ESignal 0; EBegin 0 0; EDying 0 0; EGone 0 0; EEnd 0 0; EReq 0 true].
Proof. vm_compute. reflexivity. Qed.
(** A callback constructed after the request; one that is unregistered before it is called. *)
Example jstop_ex_late : outcome (run 1 ([(0, ANewToken); (0, AConstruct false)] ++ steps 0 4 ++ [(0, ADestroy 0)] ++ steps 0 3 ++ [(0, ARequest)] ++ steps 0 4 ++ [(0, AConstruct false)] ++ steps 0 2 ++ [(0, AReturn)] ++ steps 0 2 ++ [(0, AQuery); (0, ARequest)] ++ steps 0 2) init) =
  Some [ENew 0 0; EAdd 0 0; EDying 0 0; EGone 0 0; ESignal 0; EReq 0 true; ENew 1 0; EBegin 1 0; EEnd 1 0; EAdd 1 0; EQuery 0 true; EReq 0 false].
Proof. vm_compute. reflexivity. Qed.
(** No source: nothing is registered. *)
Example jstop_ex_dead : outcome (run 1 ([(0, ANewToken); (0, ADelSource); (0, APossible); (0, AConstruct false)] ++ steps 0 3 ++ [(0, ADestroy 0); (0, ADelToken)]) init) =
  Some [EPossible 0 false; ENew 0 0; EAdd 0 0; EDying 0 0; EGone 0 0].
Proof. vm_compute. reflexivity. Qed.
Ltac check_careful := vm_compute; repeat split; intros (H & H2 & _); try discriminate H; repeat (apply le_S_n in H2); inversion H2.
(** These executions do not delete the state too early, the last one although it has no source. *)
Example jstop_ex_careful : careful 2 ex_wait init.
Proof. check_careful. Qed.
Example jstop_ex_careful_dead : careful 1 ([(0, ANewToken); (0, ADelSource); (0, APossible); (0, AConstruct false)] ++ steps 0 3 ++ [(0, ADestroy 0); (0, ADelToken)]) init.
Proof. check_careful. Qed.
