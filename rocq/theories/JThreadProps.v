(** Theorems on jthread *)
From Coq Require Import ZifyBool ZifyNat.
From Verif Require Import Common JThreadModel JThreadSpec JThreadInv.

Record invL (s : state) : Prop := InvL {
  l_law : lawful (log s);
  l_end : forall k, ended s k = seen (ends k) (log s);
  l_ask : forall k, asked s k = seen (asks k) (log s);
  l_start : forall k, seen (starts k) (log s) = (1 <=? k) && (k <? nth s);
  l_part : forall k, seen (parts k) (log s) = true -> k < nth s;
  l_own : forall k, 1 <= k < nth s -> seen (parts k) (log s) = false -> exists h, owns s h k;
  l_excl : forall h k, owns s h k -> seen (parts k) (log s) = false }.

Lemma seen_snoc : forall p l e, seen p (l ++ [e]) = seen p l || p e.
Proof. intros p l e. unfold seen. rewrite existsb_app. cbn. now rewrite orb_false_r. Qed.
Lemma seen_mono : forall p l l', seen p l = true -> seen p (l ++ l') = true.
Proof. intros p l l' H. unfold seen in *. now rewrite existsb_app, H. Qed.

Lemma invL_init : invL init.
Proof.
  constructor; unfold init; cbn [log ended asked nth]; try (intros; reflexivity); try constructor; try discriminate.
  - intros k. destruct k as [|k]; [reflexivity|]. destruct k; reflexivity.
  - intros k ?. lia.
Qed.

Section Step.
Context (t : nat) (a : action) (s s' : state) (H : step t a s = Some (Next s')).
Lemma l_law_step : invH s -> invP s -> invL s -> lawful (log s').
Proof.
  intros [N HP O U] [PO P1 _ _ _ _] [L E A S Pt Ow Ex].
  assert (forall h x k, hs s h = Some x -> h_thr x = Some k -> seen (parts k) (log s) = false) as Ex' by (intros h x k Z1 Z2; apply (Ex h); now exists x).
  clear Ex Ow. pose proof (E t) as Et. pose proof (S t) as St.
  split_step H; try exact L; repeat (constructor; try exact L); cbn [allowed]; auto.
  all: try (rewrite <- A; reflexivity); try (rewrite <- E; assumption); try (eapply Ex'; eassumption).
  all: rewrite S; try lia; match goal with K : hs s _ = Some ?x |- context [?n <? _] => assert (h_src x = Some n) as Z by (eassumption || (eapply HP; eassumption)); pose proof (O _ _ _ K Z); lia end.
Qed.
Lemma l_end_step : invL s -> forall k, ended s' k = seen (ends k) (log s').
Proof.
  intros [_ E _ _ _ _ _] k. specialize (E k). split_step H; rewrite ?seen_snoc; cbn [ends]; rewrite ?orb_false_r; try exact E.
  upds; [rewrite Nat.eqb_refl; now rewrite orb_true_r|]. rewrite <- E. destruct (Nat.eqb_spec t k); [congruence|now rewrite orb_false_r].
Qed.
Lemma l_ask_step : invL s -> forall k, asked s' k = seen (asks k) (log s').
Proof.
  intros [_ _ E _ _ _ _] k. specialize (E k). split_step H; rewrite ?seen_snoc; cbn [asks]; rewrite ?orb_false_r; try exact E.
  all: upds; [rewrite Nat.eqb_refl; now rewrite orb_true_r|]. all: rewrite <- E; match goal with |- context [?a =? ?b] => destruct (Nat.eqb_spec a b) end; [congruence|now rewrite orb_false_r].
Qed.
Lemma l_start_step : invP s -> invL s -> forall k, seen (starts k) (log s') = (1 <=? k) && (k <? nth s').
Proof.
  intros [_ P1 _ _ _ _] [_ _ _ E _ _ _] k. specialize (E k). split_step H; rewrite ?seen_snoc; cbn [starts]; rewrite ?orb_false_r; try exact E. rewrite E. lia.
Qed.
Lemma l_part_step : invH s -> invL s -> forall k, seen (parts k) (log s') = true -> k < nth s'.
Proof.
  intros [_ HP O _] [_ _ _ _ E _ _] k. specialize (E k). split_step H; rewrite ?seen_snoc; cbn [parts]; rewrite ?orb_false_r; try exact E; intros Z; try lia.
  all: apply orb_prop in Z; destruct Z as [Z|Z]; [now apply E|]; apply Nat.eqb_eq in Z; subst;
    match goal with K : hs s _ = Some ?x, J : h_thr ?x = Some _ |- _ => pose proof (O _ _ _ K (HP _ _ _ K J)); lia end.
Qed.
Lemma l_excl_step : invH s -> invL s -> forall h k, owns s' h k -> seen (parts k) (log s') = false.
Proof.
  intros [N HP O U] [_ _ _ _ Pt _ Ex] h k (x & X1 & X2).
  assert (forall h x k, hs s h = Some x -> h_thr x = Some k -> seen (parts k) (log s) = false) as Ex' by (intros h1 x1 k1 Z1 Z2; apply (Ex h1); now exists x1).
  split_step H; upds; repeat match goal with K : Some _ = Some _ |- _ => injection K as K; subst end; proj; rewrite ?seen_snoc; cbn [parts]; rewrite ?orb_false_r; try discriminate; try (eapply Ex'; eassumption).
  1: { injection X2 as <-. destruct (seen (parts (nth s)) (log s)) eqn:Z; [|easy]. apply Pt in Z. lia. }
  1: eapply Ex'; [|exact X2]; eassumption.
  all: match goal with |- context [?n =? ?k] => destruct (Nat.eqb_spec n k); [subst|rewrite orb_false_r; eapply Ex'; eassumption] end.
  all: exfalso; match goal with A : hs s ?a = Some ?x, B : hs s ?b = Some ?y, C : h_thr ?x = Some ?k, D : h_thr ?y = Some ?k, Ne : ?a <> ?b |- _ => apply Ne; eapply U; [exact A|exact B|eapply HP; eassumption|eapply HP; eassumption] end.
Qed.
Lemma l_own_step : invH s -> invL s -> forall k, 1 <= k < nth s' -> seen (parts k) (log s') = false -> exists h, owns s' h k.
Proof.
  intros [N HP O U] [_ _ _ _ _ Ow _] k K Z. specialize (Ow k).
  destruct (Nat.eq_dec k (nth s)) as [->|Nk].
  { clear Ow. exists (nh s). split_step H; try lia. exists (Handle (Some (nth s)) (Some (nth s))). proj. now rewrite upd_eq. }
  assert (seen (parts k) (log s) = false) as Z0.
  { clear - H Z. destruct (seen (parts k) (log s)) eqn:E; [|easy]. rewrite <- Z. symmetry. split_step H; rewrite <- ?app_assoc; try (apply seen_mono); exact E. }
  assert (k < nth s) as Kn. { clear - H K Nk. split_step H; lia. }
  destruct (Ow ltac:(lia) Z0) as (h & x & X1 & X2). clear Ow. assert (h <> nh s) as Hn by (intros ->; apply N in X1; lia).
  unfold owns.
  split_step H; try (exists h, x; split; [|exact X2]; rewrite ?upd_neq by easy; exact X1).
  (* the owner is not the object that has been joined or detached *)
  all: try (match goal with E : hs s ?h0 = Some ?h1, F : h_thr ?h1 = Some ?n |- _ =>
      assert (h <> h0) by (intros ->; assert (h1 = x) by congruence; subst h1; assert (n = k) by congruence; subst n; clear - Z; rewrite ?seen_snoc in Z; cbn [parts] in Z; rewrite Nat.eqb_refl, ?orb_true_r in Z; discriminate Z) end).
  all: try (exists h, x; split; [|exact X2]; rewrite ?upd_neq by easy; exact X1).
  - destruct (Nat.eq_dec h h0) as [->|]; [exists (nh s), h1; rewrite upd_eq; split; [easy|congruence]|exists h, x; rewrite !upd_neq by easy; easy].
  - destruct (Nat.eq_dec h h2) as [->|]; [exists h0, h3; rewrite upd_eq; split; [easy|congruence]|].
    assert (h <> h0) by (intros ->; match goal with E : hs s h0 = Some ?y, F : match h_thr ?y with Some _ => true | None => false end = false |- _ => assert (y = x) by congruence; subst y; rewrite X2 in F; discriminate F end).
    exists h, x. rewrite !upd_neq by easy. easy.
  - destruct (Nat.eq_dec h h2) as [->|]; [|destruct (Nat.eq_dec h h0) as [->|]; [|exists h, x; rewrite !upd_neq by easy; easy]].
    + destruct (Nat.eq_dec h0 h2) as [->|]; [exists h2, (Handle (h_src h1) (h_thr h1)); rewrite upd_eq; split; [easy|cbn [h_thr]; congruence]|].
      exists h0, (Handle (h_src h3) (h_thr h3)). rewrite upd_neq, upd_eq by easy. split; [easy|cbn [h_thr]; congruence].
    + exists h2, (Handle (h_src h1) (h_thr h1)). rewrite upd_eq. split; [easy|cbn [h_thr]; congruence].
  - assert (h <> h0) by (intros ->; match goal with E : hs s h0 = Some ?y, F : match h_thr ?y with Some _ => true | None => false end = false |- _ => assert (y = x) by congruence; subst y; rewrite X2 in F; discriminate F end).
    exists h, x. rewrite !upd_neq by easy. easy.
  - match goal with E : upd (hs s) h0 _ h2 = Some h3 |- _ => rewrite upd_neq in E by congruence; rename E into Eh end.
    destruct (Nat.eq_dec h h2) as [->|]; [exists h0, h3; rewrite upd_eq; split; [easy|congruence]|].
    exists h, x. rewrite !upd_neq by easy. easy.
Qed.
Lemma invL_step : invH s -> invP s -> invL s -> invL s'.
Proof.
  intros IH IP IL. constructor.
  - now apply l_law_step.
  - now apply l_end_step.
  - now apply l_ask_step.
  - now apply l_start_step.
  - now apply l_part_step.
  - now apply l_own_step.
  - now apply l_excl_step.
Qed.
End Step.

Definition inv (s : state) : Prop := invH s /\ invP s /\ invL s.
Lemma inv_init : inv init.
Proof. split; [apply invH_init|split; [apply invP_init|apply invL_init]]. Qed.
Lemma inv_step : forall t a s s', inv s -> step t a s = Some (Next s') -> inv s'.
Proof.
  intros t a s s' (IH & IP & IL) H. split; [now apply (invH_step t a s)|split; [now apply (invP_step t a s)|now apply (invL_step t a s)]].
Qed.
Lemma inv_run : forall tr s s', inv s -> run tr s = Some (Next s') -> inv s'.
Proof.
  induction tr as [|(t, a) tr IH]; cbn [run]; intros s s' I R; [injection R as <-; easy|].
  destruct (step t a s) as [[s1|]|] eqn:E; try discriminate R. apply (IH s1); [now apply (inv_step t a s)|easy].
Qed.

(** Every history is lawful: request_stop() of one thread returns true once, the token says
    what was requested, join() returns after the end of the thread, and a thread is joined
    or detached at most once. *)
Theorem jthread_history : forall tr s, run tr init = Some (Next s) -> lawful (log s).
Proof. intros tr s R. destruct (inv_run tr _ s inv_init R) as (_ & _ & L). apply (l_law _ L). Qed.
Theorem jthread_allowed : forall h h1 e h2, lawful h -> h = h1 ++ e :: h2 -> allowed h1 e.
Proof.
  intros h h1 e h2 L. revert h1 e h2. induction L as [|h x L IH A]; intros h1 e h2 E; [now destruct h1|].
  destruct h2 as [|y h2] using rev_ind.
  - apply app_inj_tail in E as [-> ->]. exact A.
  - apply (IH h1 e h2). change (h1 ++ e :: h2 ++ [y]) with (h1 ++ (e :: h2) ++ [y]) in E. rewrite app_assoc in E. now apply app_inj_tail in E as [-> _].
Qed.

(** A thread that runs and has not been detached is owned by exactly one object, which exists;
    so no thread outlives the objects. *)
Theorem jthread_owner : forall tr s k, run tr init = Some (Next s) -> seen (starts k) (log s) = true -> seen (ends k) (log s) = false -> ~ In (EDetach k) (log s) ->
  exists h, owns s h k /\ forall h', owns s h' k -> h' = h.
Proof.
  intros tr s k R S E D. destruct (inv_run tr _ s inv_init R) as (IH & _ & IL).
  pose proof (l_start _ IL k) as K. rewrite S in K.
  assert (seen (parts k) (log s) = false) as Z.
  { destruct (seen (parts k) (log s)) eqn:Z; [|easy]. exfalso. unfold seen in Z. apply existsb_exists in Z. destruct Z as (e & I & Z).
    destruct e; try discriminate Z; apply Nat.eqb_eq in Z; subst k0; [easy|].
    apply in_split in I. destruct I as (l1 & l2 & I). pose proof (jthread_allowed _ _ _ _ (l_law _ IL) I) as (_ & A & _).
    rewrite I in E. unfold seen in *. rewrite existsb_app, A in E. discriminate E. }
  destruct (l_own _ IL k ltac:(lia) Z) as (h & O). exists h. split; [easy|]. intros h' O'.
  destruct O as (x & X1 & X2), O' as (y & Y1 & Y2). apply (h_uniq _ IH h' y h x k Y1 X1); eapply (h_pair _ IH); eassumption.
Qed.

(** ~jthread and operator = wait only for a thread that has been asked to stop. *)
Theorem jthread_asked : forall tr s t h k, run tr init = Some (Next s) -> pcs s t = PJoin h k -> k <> KJoin -> exists j, owns s h j /\ seen (asks j) (log s) = true.
Proof.
  intros tr s t h k R P K. destruct (inv_run tr _ s inv_init R) as (_ & IP & IL). destruct (p_join _ IP t h k P K) as (x & j & X1 & X2 & X3).
  exists j. split; [now exists x|]. now rewrite <- (l_ask _ IL).
Qed.
(** They go on as soon as it has ended. *)
Theorem jthread_returns : forall tr s t h k j, run tr init = Some (Next s) -> pcs s t = PJoin h k -> owns s h j -> j <> t -> seen (ends j) (log s) = true -> ended s t = false -> t < nth s ->
  exists s', step t AStep s = Some (Next s') /\ pcs s' t = PUser /\ In (EJoined t h j) (log s').
Proof.
  intros tr s t h k j R P (x & X1 & X2) N E L1 L2. destruct (inv_run tr _ s inv_init R) as (IH & IP & IL). rewrite <- (l_end _ IL) in E.
  unfold step. apply Nat.ltb_lt in L2. rewrite L2, L1, P. cbn [andb negb lib_step]. rewrite X1, X2, E. destruct (Nat.eqb_spec j t); [easy|]. unfold destroy, move_into. cbn [joinable h_thr].
  assert (In (EJoined t h j) (log s ++ [EJoined t h j])) as I by (apply in_or_app; right; now left).
  destruct k as [|h2|].
  - eexists. split; [reflexivity|]. unf. rewrite upd_eq. split; [easy|]. apply in_or_app. now left.
  - assert (exists y, hs s h2 = Some y) as (y & Y). { apply (p_live _ IP t). rewrite P. cbn. now rewrite Nat.eqb_refl, orb_true_r. }
    unf. destruct (Nat.eq_dec h2 h) as [->|Ne].
    + rewrite upd_eq, Nat.eqb_refl. eexists. split; [reflexivity|]. proj. rewrite upd_eq. split; [easy|]. apply in_or_app. now left.
    + rewrite upd_neq, Y by easy. destruct (Nat.eqb_spec h h2); [congruence|]. eexists. split; [reflexivity|]. proj. rewrite upd_eq. split; [easy|]. apply in_or_app. now left.
  - eexists. split; [reflexivity|]. unf. rewrite upd_eq. easy.
Qed.

(** std::terminate is called only if a thread destroys or assigns to the object that owns itself. *)
Lemma terminates_step : forall t a s, inv s -> step t a s = Some Terminates -> exists h k, pcs s t = PJoin h k /\ k <> KJoin /\ owns s h t.
Proof.
  intros t a s (_ & IP & _) H. unfold step in H. destruct (_ && _); [|discriminate]. destruct (pcs s t) eqn:P.
  - destruct a; cbn [user_step] in H; unfold destroy, move_into in H;
    repeat match type of H with
    | None = Some _ => discriminate H
    | Some (Next _) = Some Terminates => discriminate H
    | context [if ?b then _ else _] => let E := fresh "E" in destruct b eqn:E
    | context [match ?b with _ => _ end] => let E := fresh "E" in destruct b eqn:E
    end; discriminate H.
  - destruct a; try discriminate H. cbn [lib_step] in H. destruct (hs s h); discriminate H.
  - destruct a; try discriminate H. cbn [lib_step] in H.
    destruct (hs s h) as [x|] eqn:X1; [|discriminate].
    destruct (h_thr x) as [j|] eqn:X2.
    + destruct (Nat.eqb_spec j t) as [->|Ne].
      * exists h, k. split; [easy|]. split; [|now exists x]. intros ->. discriminate H.
      * destruct (ended s j); [|discriminate]. unfold destroy, move_into in H. cbn [joinable h_thr] in H. destruct k; try discriminate H.
        destruct (hs _ h2); [|discriminate]. destruct (h =? h2); discriminate.
    + destruct k; try discriminate H; destruct (p_join _ IP t h _ P ltac:(discriminate)) as (y & j & Y1 & Y2 & _); congruence.
Qed.
Theorem jthread_terminate : forall tr, run tr init = Some Terminates ->
  exists tr0 t a tr1 s h k, tr = tr0 ++ (t, a) :: tr1 /\ run tr0 init = Some (Next s) /\ step t a s = Some Terminates /\ pcs s t = PJoin h k /\ k <> KJoin /\ owns s h t.
Proof.
  assert (forall tr s0, inv s0 -> run tr s0 = Some Terminates ->
    exists tr0 t a tr1 s h k, tr = tr0 ++ (t, a) :: tr1 /\ run tr0 s0 = Some (Next s) /\ step t a s = Some Terminates /\ pcs s t = PJoin h k /\ k <> KJoin /\ owns s h t) as K; [|intros tr; apply K, inv_init].
  induction tr as [|(t, a) tr IH]; intros s0 I R; cbn [run] in R; [discriminate|].
  destruct (step t a s0) as [[s1|]|] eqn:E; try discriminate R.
  - destruct (IH s1 (inv_step t a s0 s1 I E) R) as (tr0 & t' & a' & tr1 & s & h & k & -> & R0 & X). exists ((t, a) :: tr0), t', a', tr1, s, h, k. split; [easy|]. split; [cbn [run]; now rewrite E|easy].
  - destruct (terminates_step t a s0 I E) as (h & k & X). exists [], t, a, tr, s0, h, k. easy.
Qed.
(** An object keeps its stop source when its thread has been detached or joined: the detached thread can still be asked to stop by it. *)
Theorem jthread_keeps_source : forall tr s t h k s1, run tr init = Some (Next s) -> owns s h k ->
  (step t (ADetach h) s = Some (Next s1) ->
     ~ owns s1 h k /\ exists s2, step t (ARequest h) s1 = Some (Next s2) /\ asked s2 k = true /\ log s2 = log s ++ [EDetach k; EReq t h (Some k) (negb (asked s k))]) /\
  (pcs s t = PJoin h KJoin -> k <> t -> step t AStep s = Some (Next s1) ->
     ~ owns s1 h k /\ exists x, hs s1 h = Some x /\ h_src x = Some k).
Proof.
  intros tr s t h k s1 R (x & X1 & X2). destruct (inv_run tr _ s inv_init R) as (IH & _ & _). pose proof (h_pair _ IH h x k X1 X2) as X3. split.
  - unfold step. destruct ((t <? nth s) && negb (ended s t)) eqn:L; [|discriminate]. destruct (pcs s t) eqn:P; try discriminate. cbn [user_step]. rewrite X1, X2.
    destruct (forallb (fun u => negb (uses (pcs s u) h)) (seq 0 (nth s))) eqn:F; [|discriminate]. intros E. injection E as <-.
    cbn [note set_h nth ended pcs hs log asked]. rewrite L, P. split.
    + intros (y & Y1 & Y2). cbn [note set_h hs] in Y1. rewrite upd_eq in Y1. injection Y1 as <-. discriminate.
    + cbn [user_step note set_h hs nth pcs]. rewrite upd_eq.
      assert (G : forallb (fun u => negb (uses_hard (pcs s u) h)) (seq 0 (nth s)) = true).
      { apply forallb_forall. intros u U. pose proof (proj1 (forallb_forall _ _) F u U) as Q. cbn beta in Q. unfold uses_hard. destruct (pcs s u) as [| |? []]; auto. }
      rewrite G. eexists. split; [reflexivity|]. unfold request. cbn [h_src]. rewrite X3. cbn [note ask asked log]. rewrite upd_eq, <- app_assoc. auto.
  - intros P N. unfold step. destruct ((t <? nth s) && negb (ended s t)) eqn:L; [|discriminate]. rewrite P. cbn [lib_step]. rewrite X1, X2.
    destruct (Nat.eqb_spec k t) as [->|_]; [easy|]. destruct (ended s k); [|discriminate]. intros E. injection E as <-. unfold owns. cbn [note go set_h hs]. rewrite upd_eq. split.
    + intros (y & Y1 & Y2). injection Y1 as <-. discriminate.
    + eexists. split; [reflexivity|]. exact X3.
Qed.
(** It is so indeed: the thread 1 destroys the object that owns it. *)
Theorem jthread_self_refuted : exists tr, run tr init = Some Terminates.
Proof. exists [(0, AStart); (1, ADestroy 0); (1, AStep); (1, AStep)]. reflexivity. Qed.
(** Two threads that destroy each other's objects wait for ever, although both have been asked to stop. *)
Theorem jthread_cycle_refuted : exists tr s, run tr init = Some (Next s) /\ owns s 0 1 /\ owns s 1 2 /\ pcs s 1 = PJoin 1 KDtor /\ pcs s 2 = PJoin 0 KDtor /\ asked s 1 = true /\ asked s 2 = true /\
  step 1 AStep s = None /\ step 2 AStep s = None.
Proof.
  exists [(0, AStart); (0, AStart); (1, ADestroy 1); (2, ADestroy 0); (1, AStep); (2, AStep)]. eexists. split; [reflexivity|].
  repeat split; try reflexivity; eexists; split; reflexivity.
Qed.

(** The usual life: the object is moved into a vector, which is cleared: the thread is asked
    to stop, sees it, ends, and is joined. *)
Example ex_life : option_map (fun o => match o with Next s => log s | Terminates => [] end)
  (run [(0, AStart); (0, AMove 0); (1, AQuery); (0, ADestroy 0); (0, ADestroy 1); (0, AStep); (1, AQuery); (1, AReturn); (0, AStep)] init) =
  Some [EStart 0 1; EQuery 1 false; EGone 0 0; EReq 0 1 (Some 1) true; EQuery 1 true; EEnd 1; EJoined 0 1 1; EGone 0 1].
Proof. reflexivity. Qed.
(** x = jthread(f) while x runs: the old thread is joined, then the new one is owned by x. *)
Example ex_assign : option_map (fun o => match o with Next s => (log s, hs s 0, hs s 1) | Terminates => ([], None, None) end)
  (run [(0, AStart); (0, AStart); (0, AAssign 0 1); (0, AStep); (1, AReturn); (0, AStep)] init) =
  Some ([EStart 0 1; EStart 1 2; EReq 0 0 (Some 1) true; EEnd 1; EJoined 0 0 1; EAssigned 0 0 1], Some (Handle (Some 2) (Some 2)), Some none).
Proof. reflexivity. Qed.
(** A detached thread is not asked to stop by the destructor. *)
Example ex_detach : option_map (fun o => match o with Next s => log s | Terminates => [] end)
  (run [(0, AStart); (0, ADetach 0); (0, ADetach 0); (0, ADestroy 0); (1, AQuery)] init) = Some [EStart 0 1; EDetach 1; EThrow 0; EGone 0 0; EQuery 1 false].
Proof. reflexivity. Qed.
